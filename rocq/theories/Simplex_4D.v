(** SuperSimplex in 4D: the closest vertex of the unit cell and 15 vertices around it. *)
From Coq Require Import Reals ZArith List Bool Lia Lra Psatz.
From Verif Require Import Prelude Simd_Model Utils_Model Nodes_Model Setters_Model Simd_R Bits P_Hash P_Grad P_Blend P_Lattice Lattice Simplex_Model Simplex_Spec Simplex_Geom Simplex_2D P_Simplex Simplex_3D P_Simplex3 Simplex_Cells.
Import ListNotations.
Open Scope R_scope.

(** ** The search for the closest vertex
    [sc c] is the score of candidate [c]; the code keeps the best score so far plus an offset it changes on the way. *)
Definition best (sc : Z -> R) (L : list Z) (b : Z) (m off : R) : Prop :=
  In b L /\ m = sc b + off /\ forall c, In c L -> sc c <= sc b.
Lemma best_step : forall sc L b m off c v, best sc L b m off -> v = sc c + off ->
  best sc (c :: L) (if Rltb m v then c else b) (Rmax m v) off.
Proof.
  intros sc L b m off c v (I & Em & H) Ev. unfold Rltb. destruct (Rlt_dec m v).
  - rewrite Rmax_right by lra. split; [left; auto|]. split; auto. intros c' [<-|C]; [lra|]. specialize (H c' C). lra.
  - rewrite Rmax_left by lra. split; [right; auto|]. split; auto. intros c' [<-|C]; [lra|]. auto.
Qed.
Lemma best_off : forall sc L b m off d off', best sc L b m off -> off' = off + d -> best sc L b (m + d) off'.
Proof. intros sc L b m off d off' (I & E & H) ->. split; auto. split; auto. lra. Qed.
Definition near4 (N x y z w : R) : Z :=
  let m := 3/5 - N in let b := 0%Z in
  let b := if Rltb m (1/5) then (-1)%Z else b in let m := Rmax m (1/5) in
  let b := if Rltb m (- w) then 7%Z else b in let m := Rmax m (- w) in
  let b := if Rltb m (- z) then 11%Z else b in let m := Rmax m (- z) in
  let b := if Rltb m (- y) then 13%Z else b in let m := Rmax m (- y) in
  let b := if Rltb m (- x) then 14%Z else b in let m := Rmax m (- x) in
  let m := m + (N - 1/5) in
  let b := if Rltb m x then 1%Z else b in let m := Rmax m x in
  let b := if Rltb m y then 2%Z else b in let m := Rmax m y in
  let b := if Rltb m z then 4%Z else b in let m := Rmax m z in
  let b := if Rltb m w then 8%Z else b in let m := Rmax m w in
  let m := m + (1/5 - x) in
  let b := if Rltb m y then 3%Z else b in let m := Rmax m y in
  let b := if Rltb m z then 5%Z else b in let m := Rmax m z in
  let b := if Rltb m w then 9%Z else b in let m := Rmax m w in
  let m := m + x in
  let b := if Rltb m (y + z) then 6%Z else b in let m := Rmax m (y + z) in
  let m := m - w in
  let b := if Rltb m y then 10%Z else b in let m := Rmax m y in
  let b := if Rltb m z then 12%Z else b in b.
Definition cands : list Z := [12; 10; 6; 9; 5; 3; 8; 4; 2; 1; 14; 13; 11; 7; -1; 0]%Z.
(** the score of a corner: half of how much closer the position is to it than to corner 0 *)
Definition sc4 (N x y z w : R) (c : Z) : R :=
  (if Z.testbit c 0 then x else 0) + (if Z.testbit c 1 then y else 0) + (if Z.testbit c 2 then z else 0) + (if Z.testbit c 3 then w else 0)
  - (match (b2z (Z.testbit c 0) + b2z (Z.testbit c 1) + b2z (Z.testbit c 2) + b2z (Z.testbit c 3))%Z with 0%Z => 0 | 1%Z => 2/5 | 4%Z => 2/5 | _ => 3/5 end).
Ltac sctac := unfold sc4 in *; repeat match goal with |- context [Z.testbit ?a ?b] => let v := eval vm_compute in (Z.testbit a b) in change (Z.testbit a b) with v end; cbn [b2z Z.add Pos.add Pos.succ].
Lemma near4_best : forall N x y z w, x + y + z + w = N -> In (near4 N x y z w) cands /\ forall c, In c cands -> sc4 N x y z w c <= sc4 N x y z w (near4 N x y z w).
Proof.
  intros N x y z w HN. unfold near4. cbv zeta.
  assert (H0 : best (sc4 N x y z w) [0%Z] 0%Z (3/5 - N) (3/5 - N)) by (split; [left; auto|split; [sctac; lra|intros c [<-|[]]; lra]]).
  apply (best_step _ _ _ _ _ (-1)%Z (1/5)) in H0; [|sctac; lra].
  apply (best_step _ _ _ _ _ 7%Z (- w)) in H0; [|sctac; lra].
  apply (best_step _ _ _ _ _ 11%Z (- z)) in H0; [|sctac; lra].
  apply (best_step _ _ _ _ _ 13%Z (- y)) in H0; [|sctac; lra].
  apply (best_step _ _ _ _ _ 14%Z (- x)) in H0; [|sctac; lra].
  apply (best_off _ _ _ _ _ (N - 1/5) (2/5)) in H0; [|lra].
  apply (best_step _ _ _ _ _ 1%Z x) in H0; [|sctac; lra].
  apply (best_step _ _ _ _ _ 2%Z y) in H0; [|sctac; lra].
  apply (best_step _ _ _ _ _ 4%Z z) in H0; [|sctac; lra].
  apply (best_step _ _ _ _ _ 8%Z w) in H0; [|sctac; lra].
  apply (best_off _ _ _ _ _ (1/5 - x) (3/5 - x)) in H0; [|lra].
  apply (best_step _ _ _ _ _ 3%Z y) in H0; [|sctac; lra].
  apply (best_step _ _ _ _ _ 5%Z z) in H0; [|sctac; lra].
  apply (best_step _ _ _ _ _ 9%Z w) in H0; [|sctac; lra].
  apply (best_off _ _ _ _ _ x (3/5)) in H0; [|lra].
  apply (best_step _ _ _ _ _ 6%Z (y + z)) in H0; [|sctac; lra].
  apply (best_off _ _ _ _ _ (- w) (3/5 - w)) in H0; [|lra].
  apply (best_step _ _ _ _ _ 10%Z y) in H0; [|sctac; lra].
  apply (best_step _ _ _ _ _ 12%Z z) in H0; [|sctac; lra].
  destruct H0 as (I & _ & H). split; [exact I|exact H].
Qed.

(** ** The cell around a vertex *)
Definition cell4 (X Y Z W : R) : Prop := let s := (X + Y + Z + W) / 5 in
  -2/5 <= s <= 2/5 /\ -2/5 <= X - s <= 2/5 /\ -2/5 <= Y - s <= 2/5 /\ -2/5 <= Z - s <= 2/5 /\ -2/5 <= W - s <= 2/5.
Lemma near4_spec : forall X Y Z W, 0 <= X < 1 -> 0 <= Y < 1 -> 0 <= Z < 1 -> 0 <= W < 1 ->
  let s := (X + Y + Z + W) / 5 in let b := near4 s (X - s) (Y - s) (Z - s) (W - s) in
  cell4 (X - IZR (bit b 1)) (Y - IZR (bit b 2)) (Z - IZR (bit b 4)) (W - IZR (bit b 8)).
Proof.
  intros X Y Z W HX HY HZ HW s b.
  destruct (near4_best s (X - s) (Y - s) (Z - s) (W - s)) as (I & H); [unfold s; field|]. fold b in I, H. clearbody b.
  assert (HS : X + Y + Z + W = 5 * s) by (unfold s; field). clearbody s.
  assert (A : forall c, In c cands -> sc4 s (X - s) (Y - s) (Z - s) (W - s) c <= sc4 s (X - s) (Y - s) (Z - s) (W - s) b) by exact H. clear H.
  pose proof (A 0%Z ltac:(cbn; tauto)) as A0. pose proof (A (-1)%Z ltac:(cbn; tauto)) as Am. pose proof (A 1%Z ltac:(cbn; tauto)) as A1. pose proof (A 2%Z ltac:(cbn; tauto)) as A2. pose proof (A 4%Z ltac:(cbn; tauto)) as A4. pose proof (A 8%Z ltac:(cbn; tauto)) as A8.
  pose proof (A 3%Z ltac:(cbn; tauto)) as A3. pose proof (A 5%Z ltac:(cbn; tauto)) as A5. pose proof (A 6%Z ltac:(cbn; tauto)) as A6. pose proof (A 9%Z ltac:(cbn; tauto)) as A9. pose proof (A 10%Z ltac:(cbn; tauto)) as A10. pose proof (A 12%Z ltac:(cbn; tauto)) as A12.
  pose proof (A 7%Z ltac:(cbn; tauto)) as A7. pose proof (A 11%Z ltac:(cbn; tauto)) as A11. pose proof (A 13%Z ltac:(cbn; tauto)) as A13. pose proof (A 14%Z ltac:(cbn; tauto)) as A14. clear A.
  unfold cands in I. cbn [In] in I.
  decompose [or] I; try contradiction; subst b; revert A0 Am A1 A2 A4 A8 A3 A5 A6 A9 A10 A12 A7 A11 A13 A14; sctac; intros A0 Am A1 A2 A4 A8 A3 A5 A6 A9 A10 A12 A7 A11 A13 A14;
    cbv [bit Z.land Z.eqb Pos.land N.land Z.of_N Pos.ldiff Pos.lor Z.to_N N.ldiff N.lor Pos.pred_N Pos.pred_double N.succ_pos N.double Pos.Ndouble Pos.Nsucc_double]; unfold cell4; cbv zeta;
    match goal with |- context [(?a + ?b + ?c + ?d) / 5] => replace ((a + b + c + d) / 5) with (s - (X + Y + Z + W - (a + b + c + d)) / 5) by (rewrite HS; field) end; repeat split; lra.
Qed.
Lemma cell4_close : forall X Y Z W, cell4 X Y Z W -> Q4 X Y Z W <= 4/5.
Proof.
  intros X Y Z W C. unfold cell4 in C. cbv zeta in C. unfold Q4. set (s := (X + Y + Z + W) / 5) in *.
  replace (X * X + Y * Y + Z * Z + W * W - (X + Y + Z + W) * (X + Y + Z + W) / 5) with ((X - s) * (X - s) + (Y - s) * (Y - s) + (Z - s) * (Z - s) + (W - s) * (W - s) + s * s) by (unfold s; field).
  assert (B : forall a, -2/5 <= a <= 2/5 -> a * a <= 4/25) by (intros; nra). pose proof (B s). pose proof (B (X - s)). pose proof (B (Y - s)). pose proof (B (Z - s)). pose proof (B (W - s)). lra.
Qed.

Section S4.
Variable inf : R.
Variable bits : R -> Z.
Notation S_ := (Rops inf bits).
(** the constants of SuperSimplex 4D before rounding to float, with skew factor [k] *)
Definition ss4k_exact (k : R) : ss4k S_ := let u := unskew 4 in {|
  ss4_kSkew := (k : V S_); ss4_kT := (-1/5 : V S_); ss4_k06 := (3/5 : V S_); ss4_k02 := (1/5 : V S_); ss4_kU := (u : V S_); ss4_k4U1 := (4 * u + 1 : V S_); ss4_kR := (4/5 : V S_);
  ss4_kA := (2/5 : V S_); ss4_kB := (3/5 : V S_); ss4_k3U1 := (3 * u + 1 : V S_); ss4_k3U := (3 * u : V S_); ss4_kU1 := (u + 1 : V S_); ss4_k2U1 := (2 * u + 1 : V S_); ss4_k2U := (2 * u : V S_) |}.
Lemma near4_eq : forall k (X Y Z W : R), let s := (X + Y + Z + W) / 5 in
  supersimplex4_near (s:=S_) (W:=scalar) (ss4k_exact k) X Y Z W = near4 s (X - s) (Y - s) (Z - s) (W - s).
Proof.
  intros k X Y Z W s. unfold supersimplex4_near, near4, slet. cbn [ss4k_exact ss4_kT ss4_k06 ss4_k02].
  assert (E : fmul (s:=S_) (W:=scalar) (fv (s:=S_) (W:=scalar) (-1 / 5)) (fadd (s:=S_) (W:=scalar) (fadd (s:=S_) (W:=scalar) (fadd (s:=S_) (W:=scalar) X Y) Z) W) = - s) by (unfold s; sunf; toR; field).
  rewrite E. clearbody s. sunf. rewrite Ropp_involutive. reflexivity.
Qed.
Section Vertices.
Variables (k : R) (n m l o : Z) (x y z w : R).
Let X : R := x - IZR n. Let Y : R := y - IZR m. Let Z : R := z - IZR l. Let W : R := w - IZR o.
Let S : R := X + Y + Z + W. Let s : R := S / 5. Let u : R := unskew 4.
Let f0 : R := (4/5 - Q4 X Y Z W) / 2.
Lemma XN : forall k, x - IZR (n + k) = X - IZR k. Proof. intros; unfold X; rewrite plus_IZR; ring. Qed.
Lemma YN : forall k, y - IZR (m + k) = Y - IZR k. Proof. intros; unfold Y; rewrite plus_IZR; ring. Qed.
Lemma ZN : forall k, z - IZR (l + k) = Z - IZR k. Proof. intros; unfold Z; rewrite plus_IZR; ring. Qed.
Lemma WN : forall k, w - IZR (o + k) = W - IZR k. Proof. intros; unfold W; rewrite plus_IZR; ring. Qed.
Lemma UE : forall a, 20 * (u * u * a) + 10 * (u * a) + a = 0. Proof. intros. pose proof unskew4_eq as E. fold u in E. replace (20 * (u * u * a) + 10 * (u * a) + a) with ((20 * u * u + 10 * u + 1) * a) by ring. rewrite E. ring. Qed.
Lemma num0 : num (s:=S_) (W:=scalar) 0 = 0. Proof. sunf; rlit; reflexivity. Qed.
Lemma LT0 : forall a, flt (s:=S_) (W:=scalar) a (num (s:=S_) (W:=scalar) 0) = Rltb a 0. Proof. intros; rewrite num0; reflexivity. Qed.
Ltac one b :=
  rewrite ?LT0; change (fneg (s:=S_) (W:=scalar)) with Ropp; change (flt (s:=S_) (W:=scalar)) with Rltb; cbn [ss4k_exact ss4_kU ss4_k4U1 ss4_k3U1 ss4_k3U ss4_kU1 ss4_k2U1 ss4_k2U]; destruct b; cbn [sg];
  (eapply visits16_intro; [primes| | |apply quart]; [rewrite off4|rewrite sqlen4]; rewrite ?XN, ?YN, ?ZN, ?WN; fold X Y Z W u; unfold S, f0, Q4, fneg_if; sunf; rlit; repeat (apply (f_equal2 cons)); try reflexivity; toR;
    first [ring | pose proof (UE X); pose proof (UE Y); pose proof (UE Z); pose proof (UE W); pose proof (UE 1); lra]).
Lemma ss4_v1 : visits16 inf bits (4/5) (unskew 4) [x; y; z; w]
  (supersimplex4_v1 (s:=S_) (W:=scalar) (ss4k_exact k) (z_mul n PrimeX) (z_mul m PrimeY) (z_mul l PrimeZ) (z_mul o PrimeW) s (X + u * S) (Y + u * S) (Z + u * S) (W + u * S) ((4 * u + 1) * S) (f0 - 2/5))
  [n + sg (Rltb s 0); m + sg (Rltb s 0); l + sg (Rltb s 0); o + sg (Rltb s 0)]%Z.
Proof. unfold supersimplex4_v1, slet. one (Rltb s 0). Qed.
Lemma ss4_v2 : visits16 inf bits (4/5) (unskew 4) [x; y; z; w]
  (supersimplex4_v2 (s:=S_) (W:=scalar) (ss4k_exact k) (z_mul n PrimeX) (z_mul m PrimeY) (z_mul l PrimeZ) (z_mul o PrimeW) (W - s) s (X + u * S) (Y + u * S) (Z + u * S) (W + u * S) ((4 * u + 1) * S) (f0 - 3/5))
  [n + sg (Rltb s (W - s)); m + sg (Rltb s (W - s)); l + sg (Rltb s (W - s)); o]%Z.
Proof. unfold supersimplex4_v2, slet. one (Rltb s (W - s)). Qed.
Lemma ss4_v3 : visits16 inf bits (4/5) (unskew 4) [x; y; z; w]
  (supersimplex4_v3 (s:=S_) (W:=scalar) (ss4k_exact k) (z_mul n PrimeX) (z_mul m PrimeY) (z_mul l PrimeZ) (z_mul o PrimeW) (Z - s) s (X + u * S) (Y + u * S) (Z + u * S) (W + u * S) ((4 * u + 1) * S) (f0 - 3/5))
  [n + sg (Rltb s (Z - s)); m + sg (Rltb s (Z - s)); l; o + sg (Rltb s (Z - s))]%Z.
Proof. unfold supersimplex4_v3, slet. one (Rltb s (Z - s)). Qed.
Lemma ss4_v4 : visits16 inf bits (4/5) (unskew 4) [x; y; z; w]
  (supersimplex4_v4 (s:=S_) (W:=scalar) (ss4k_exact k) (z_mul n PrimeX) (z_mul m PrimeY) (z_mul l PrimeZ) (z_mul o PrimeW) (Y - s) s (X + u * S) (Y + u * S) (Z + u * S) (W + u * S) ((4 * u + 1) * S) (f0 - 3/5))
  [n + sg (Rltb s (Y - s)); m; l + sg (Rltb s (Y - s)); o + sg (Rltb s (Y - s))]%Z.
Proof. unfold supersimplex4_v4, slet. one (Rltb s (Y - s)). Qed.
Lemma ss4_v5 : visits16 inf bits (4/5) (unskew 4) [x; y; z; w]
  (supersimplex4_v5 (s:=S_) (W:=scalar) (ss4k_exact k) (z_mul n PrimeX) (z_mul m PrimeY) (z_mul l PrimeZ) (z_mul o PrimeW) (X - s) s (X + u * S) (Y + u * S) (Z + u * S) (W + u * S) ((4 * u + 1) * S) (f0 - 3/5))
  [n; m + sg (Rltb s (X - s)); l + sg (Rltb s (X - s)); o + sg (Rltb s (X - s))]%Z.
Proof. unfold supersimplex4_v5, slet. one (Rltb s (X - s)). Qed.
Lemma ss4_v6 : visits16 inf bits (4/5) (unskew 4) [x; y; z; w]
  (supersimplex4_v6 (s:=S_) (W:=scalar) (ss4k_exact k) (z_mul n PrimeX) (z_mul m PrimeY) (z_mul l PrimeZ) (z_mul o PrimeW) (X - s) (X + u * S) (Y + u * S) (Z + u * S) (W + u * S) ((4 * u + 1) * S) (f0 - 2/5))
  [n + sg (Rltb (X - s) 0); m; l; o]%Z.
Proof. unfold supersimplex4_v6, slet. one (Rltb (X - s) 0). Qed.
Lemma ss4_v7 : visits16 inf bits (4/5) (unskew 4) [x; y; z; w]
  (supersimplex4_v7 (s:=S_) (W:=scalar) (ss4k_exact k) (z_mul n PrimeX) (z_mul m PrimeY) (z_mul l PrimeZ) (z_mul o PrimeW) (X - s) (Y - s) (X + u * S) (Y + u * S) (Z + u * S) (W + u * S) ((4 * u + 1) * S) (f0 - 3/5))
  [n + sg (Rltb (X - s) (- (Y - s))); m + sg (Rltb (X - s) (- (Y - s))); l; o]%Z.
Proof. unfold supersimplex4_v7, slet. one (Rltb (X - s) (- (Y - s))). Qed.
Lemma ss4_v8 : visits16 inf bits (4/5) (unskew 4) [x; y; z; w]
  (supersimplex4_v8 (s:=S_) (W:=scalar) (ss4k_exact k) (z_mul n PrimeX) (z_mul m PrimeY) (z_mul l PrimeZ) (z_mul o PrimeW) (X - s) (Z - s) (X + u * S) (Y + u * S) (Z + u * S) (W + u * S) ((4 * u + 1) * S) (f0 - 3/5))
  [n + sg (Rltb (X - s) (- (Z - s))); m; l + sg (Rltb (X - s) (- (Z - s))); o]%Z.
Proof. unfold supersimplex4_v8, slet. one (Rltb (X - s) (- (Z - s))). Qed.
Lemma ss4_v9 : visits16 inf bits (4/5) (unskew 4) [x; y; z; w]
  (supersimplex4_v9 (s:=S_) (W:=scalar) (ss4k_exact k) (z_mul n PrimeX) (z_mul m PrimeY) (z_mul l PrimeZ) (z_mul o PrimeW) (X - s) (W - s) (X + u * S) (Y + u * S) (Z + u * S) (W + u * S) ((4 * u + 1) * S) (f0 - 3/5))
  [n + sg (Rltb (X - s) (- (W - s))); m; l; o + sg (Rltb (X - s) (- (W - s)))]%Z.
Proof. unfold supersimplex4_v9, slet. one (Rltb (X - s) (- (W - s))). Qed.
Lemma ss4_v10 : visits16 inf bits (4/5) (unskew 4) [x; y; z; w]
  (supersimplex4_v10 (s:=S_) (W:=scalar) (ss4k_exact k) (z_mul n PrimeX) (z_mul m PrimeY) (z_mul l PrimeZ) (z_mul o PrimeW) (Y - s) (X + u * S) (Y + u * S) (Z + u * S) (W + u * S) ((4 * u + 1) * S) (f0 - 2/5))
  [n; m + sg (Rltb (Y - s) 0); l; o]%Z.
Proof. unfold supersimplex4_v10, slet. one (Rltb (Y - s) 0). Qed.
Lemma ss4_v11 : visits16 inf bits (4/5) (unskew 4) [x; y; z; w]
  (supersimplex4_v11 (s:=S_) (W:=scalar) (ss4k_exact k) (z_mul n PrimeX) (z_mul m PrimeY) (z_mul l PrimeZ) (z_mul o PrimeW) (Y - s) (Z - s) (X + u * S) (Y + u * S) (Z + u * S) (W + u * S) ((4 * u + 1) * S) (f0 - 3/5))
  [n; m + sg (Rltb (Y - s) (- (Z - s))); l + sg (Rltb (Y - s) (- (Z - s))); o]%Z.
Proof. unfold supersimplex4_v11, slet. one (Rltb (Y - s) (- (Z - s))). Qed.
Lemma ss4_v12 : visits16 inf bits (4/5) (unskew 4) [x; y; z; w]
  (supersimplex4_v12 (s:=S_) (W:=scalar) (ss4k_exact k) (z_mul n PrimeX) (z_mul m PrimeY) (z_mul l PrimeZ) (z_mul o PrimeW) (Y - s) (W - s) (X + u * S) (Y + u * S) (Z + u * S) (W + u * S) ((4 * u + 1) * S) (f0 - 3/5))
  [n; m + sg (Rltb (Y - s) (- (W - s))); l; o + sg (Rltb (Y - s) (- (W - s)))]%Z.
Proof. unfold supersimplex4_v12, slet. one (Rltb (Y - s) (- (W - s))). Qed.
Lemma ss4_v13 : visits16 inf bits (4/5) (unskew 4) [x; y; z; w]
  (supersimplex4_v13 (s:=S_) (W:=scalar) (ss4k_exact k) (z_mul n PrimeX) (z_mul m PrimeY) (z_mul l PrimeZ) (z_mul o PrimeW) (Z - s) (X + u * S) (Y + u * S) (Z + u * S) (W + u * S) ((4 * u + 1) * S) (f0 - 2/5))
  [n; m; l + sg (Rltb (Z - s) 0); o]%Z.
Proof. unfold supersimplex4_v13, slet. one (Rltb (Z - s) 0). Qed.
Lemma ss4_v14 : visits16 inf bits (4/5) (unskew 4) [x; y; z; w]
  (supersimplex4_v14 (s:=S_) (W:=scalar) (ss4k_exact k) (z_mul n PrimeX) (z_mul m PrimeY) (z_mul l PrimeZ) (z_mul o PrimeW) (Z - s) (W - s) (X + u * S) (Y + u * S) (Z + u * S) (W + u * S) ((4 * u + 1) * S) (f0 - 3/5))
  [n; m; l + sg (Rltb (Z - s) (- (W - s))); o + sg (Rltb (Z - s) (- (W - s)))]%Z.
Proof. unfold supersimplex4_v14, slet. one (Rltb (Z - s) (- (W - s))). Qed.
Lemma ss4_v15 : visits16 inf bits (4/5) (unskew 4) [x; y; z; w]
  (supersimplex4_v15 (s:=S_) (W:=scalar) (ss4k_exact k) (z_mul n PrimeX) (z_mul m PrimeY) (z_mul l PrimeZ) (z_mul o PrimeW) (W - s) (X + u * S) (Y + u * S) (Z + u * S) (W + u * S) ((4 * u + 1) * S) (f0 - 2/5))
  [n; m; l; o + sg (Rltb (W - s) 0)]%Z.
Proof. unfold supersimplex4_v15, slet. one (Rltb (W - s) 0). Qed.
End Vertices.
Definition ss4_vertices (n m l o : Z) (s1 s2 s3 s4 s5 s6 s7 s8 s9 s10 s11 s12 s13 s14 s15 : bool) : list (list Z) :=
  [[n; m; l; o];
   [n + sg s1; m + sg s1; l + sg s1; o + sg s1];
   [n + sg s2; m + sg s2; l + sg s2; o];
   [n + sg s3; m + sg s3; l; o + sg s3];
   [n + sg s4; m; l + sg s4; o + sg s4];
   [n; m + sg s5; l + sg s5; o + sg s5];
   [n + sg s6; m; l; o];
   [n + sg s7; m + sg s7; l; o];
   [n + sg s8; m; l + sg s8; o];
   [n + sg s9; m; l; o + sg s9];
   [n; m + sg s10; l; o];
   [n; m + sg s11; l + sg s11; o];
   [n; m + sg s12; l; o + sg s12];
   [n; m; l + sg s13; o];
   [n; m; l + sg s14; o + sg s14];
   [n; m; l; o + sg s15]]%Z.

Lemma ss4_at_visits : forall k n m l o (x y z w : R), cell4 (x - IZR n) (y - IZR m) (z - IZR l) (w - IZR o) ->
  let X := x - IZR n in let Y := y - IZR m in let Z := z - IZR l in let W := w - IZR o in let s := (X + Y + Z + W) / 5 in
  Forall2 (visits16 inf bits (4/5) (unskew 4) [x; y; z; w])
    (supersimplex4_at (s:=S_) (W:=scalar) (ss4k_exact k) (z_mul n PrimeX) (z_mul m PrimeY) (z_mul l PrimeZ) (z_mul o PrimeW) X Y Z W)
    (ss4_vertices n m l o (Rltb s 0) (Rltb s (W - s)) (Rltb s (Z - s)) (Rltb s (Y - s)) (Rltb s (X - s)) (Rltb (X - s) 0) (Rltb (X - s) (- (Y - s))) (Rltb (X - s) (- (Z - s))) (Rltb (X - s) (- (W - s))) (Rltb (Y - s) 0) (Rltb (Y - s) (- (Z - s))) (Rltb (Y - s) (- (W - s))) (Rltb (Z - s) 0) (Rltb (Z - s) (- (W - s))) (Rltb (W - s) 0)).
Proof.
  intros k n m l o x y z w HC X Y Z W s. apply cell4_close in HC. fold X Y Z W in HC.
  unfold supersimplex4_at, slet, ss4_vertices. rewrite ?(lit1 inf bits).
  change (ss4_kT (ss4k_exact k)) with (-1/5). change (ss4_kU (ss4k_exact k)) with (unskew 4). change (ss4_k4U1 (ss4k_exact k)) with (4 * unskew 4 + 1). change (ss4_kR (ss4k_exact k)) with (4/5). change (ss4_kA (ss4k_exact k)) with (2/5). change (ss4_kB (ss4k_exact k)) with (3/5).
  change (fadd (s:=S_) (W:=scalar) (fadd (s:=S_) (W:=scalar) (fadd (s:=S_) (W:=scalar) X Y) Z) W) with (X + Y + Z + W).
  assert (E : fmul (s:=S_) (W:=scalar) (fv (s:=S_) (W:=scalar) (-1 / 5)) (X + Y + Z + W) = - s) by (unfold s; sunf; toR; field).
  rewrite E. change (fneg (s:=S_) (W:=scalar) (- s)) with (- - s). rewrite Ropp_involutive.
  change (fadd (s:=S_) (W:=scalar) X (- s)) with (X - s). change (fadd (s:=S_) (W:=scalar) Y (- s)) with (Y - s). change (fadd (s:=S_) (W:=scalar) Z (- s)) with (Z - s). change (fadd (s:=S_) (W:=scalar) W (- s)) with (W - s).
  change (fmul (s:=S_) (W:=scalar) (fv (s:=S_) (W:=scalar) (unskew 4)) (X + Y + Z + W)) with (unskew 4 * (X + Y + Z + W)).
  change (fmul (s:=S_) (W:=scalar) (fv (s:=S_) (W:=scalar) (4 * unskew 4 + 1)) (X + Y + Z + W)) with ((4 * unskew 4 + 1) * (X + Y + Z + W)).
  change (fadd (s:=S_) (W:=scalar) X (unskew 4 * (X + Y + Z + W))) with (X + unskew 4 * (X + Y + Z + W)). change (fadd (s:=S_) (W:=scalar) Y (unskew 4 * (X + Y + Z + W))) with (Y + unskew 4 * (X + Y + Z + W)).
  change (fadd (s:=S_) (W:=scalar) Z (unskew 4 * (X + Y + Z + W))) with (Z + unskew 4 * (X + Y + Z + W)). change (fadd (s:=S_) (W:=scalar) W (unskew 4 * (X + Y + Z + W))) with (W + unskew 4 * (X + Y + Z + W)).
  match goal with |- context [mkc _ _ (fmul (s:=S_) (W:=scalar) (fmul (s:=S_) (W:=scalar) ?f ?f) _)] => assert (F0 : f = (4/5 - Q4 X Y Z W) / 2) end.
  { pose proof unskew4_eq as UE. unfold Q4. sunf. toR. set (u := unskew 4) in *. clearbody X Y Z W u. clear - UE. apply Rminus_diag_uniq.
    match goal with |- ?e = 0 => replace e with (- (20 * u * u + 10 * u + 1) * ((X + Y + Z + W) * (X + Y + Z + W) / 10)) by field end. rewrite UE. ring. }
  rewrite F0.
  change (fsub (s:=S_) (W:=scalar) ((4 / 5 - Q4 X Y Z W) / 2) (fv (s:=S_) (W:=scalar) (2/5))) with ((4 / 5 - Q4 X Y Z W) / 2 - 2/5).
  change (fsub (s:=S_) (W:=scalar) ((4 / 5 - Q4 X Y Z W) / 2) (fv (s:=S_) (W:=scalar) (3/5))) with ((4 / 5 - Q4 X Y Z W) / 2 - 3/5).
  constructor.
  { eapply visits16_intro; [primes| |reflexivity|].
    - rewrite off4. fold X Y Z W. reflexivity.
    - rewrite sqlen4. fold X Y Z W. apply (quart0 inf bits). lra. }
  constructor; [apply ss4_v1|].
  constructor; [apply ss4_v2|].
  constructor; [apply ss4_v3|].
  constructor; [apply ss4_v4|].
  constructor; [apply ss4_v5|].
  constructor; [apply ss4_v6|].
  constructor; [apply ss4_v7|].
  constructor; [apply ss4_v8|].
  constructor; [apply ss4_v9|].
  constructor; [apply ss4_v10|].
  constructor; [apply ss4_v11|].
  constructor; [apply ss4_v12|].
  constructor; [apply ss4_v13|].
  constructor; [apply ss4_v14|].
  constructor; [apply ss4_v15|].
  constructor.
Qed.
Ltac pkl := left; unfold Rltb; destruct (Rlt_dec _ _); cbn [sg]; first [reflexivity|exfalso; lra].
Ltac pkr := first [pkl | right; pkr].
Lemma Q4_pos : forall x y z w, 0 <= Q4 x y z w.
Proof.
  intros. unfold Q4. set (s := (x + y + z + w) / 5). replace (x * x + y * y + z * z + w * w - (x + y + z + w) * (x + y + z + w) / 5) with ((x - s) * (x - s) + (y - s) * (y - s) + (z - s) * (z - s) + (w - s) * (w - s) + s * s) by (unfold s; field).
  pose proof (Rle_0_sqr (x - s)). pose proof (Rle_0_sqr (y - s)). pose proof (Rle_0_sqr (z - s)). pose proof (Rle_0_sqr (w - s)). pose proof (Rle_0_sqr s). unfold Rsqr in *. lra.
Qed.
(** five coordinates of sum 0; differences of two of them are bounded by the distance *)
Lemma Q4_diff : forall x y z w, let s := (x + y + z + w) / 5 in
  Q4 x y z w = (x - s) * (x - s) + (y - s) * (y - s) + (z - s) * (z - s) + (w - s) * (w - s) + s * s.
Proof. intros. unfold Q4, s. field. Qed.
Lemma pair_bound : forall a b c d e, 0 <= c -> 0 <= d -> 0 <= e -> a * a + b * b + c + d + e < 18/25 -> -6/5 < a - b < 6/5.
Proof. intros a b c d e Hc Hd He H. pose proof (Rle_0_sqr (a + b)) as P. unfold Rsqr in P. split; nra. Qed.
Lemma ss4_nodup : forall n m l o s1 s2 s3 s4 s5 s6 s7 s8 s9 s10 s11 s12 s13 s14 s15, NoDup (ss4_vertices n m l o s1 s2 s3 s4 s5 s6 s7 s8 s9 s10 s11 s12 s13 s14 s15).
Proof.
  assert (S1 : forall a b, (a + sg b <> a)%Z) by (intros a []; unfold sg; lia). intros n m l o s1 s2 s3 s4 s5 s6 s7 s8 s9 s10 s11 s12 s13 s14 s15.
  unfold ss4_vertices.
  repeat (constructor; [intros C; cbn [In] in C; repeat destruct C as [C|C]; try contradiction; injection C; intros;
    match goal with H : (?a + sg ?b)%Z = ?a |- _ => exact (S1 _ _ H) | H : ?a = (?a + sg ?b)%Z |- _ => exact (S1 _ _ (eq_sym H)) end|]); constructor.
Qed.
(** the list misses no vertex at a squared distance below 18/25 *)
Lemma ss4_reaching : forall n m l o (x y z w : R), cell4 (x - IZR n) (y - IZR m) (z - IZR l) (w - IZR o) ->
  let X := x - IZR n in let Y := y - IZR m in let Z := z - IZR l in let W := w - IZR o in let s := (X + Y + Z + W) / 5 in
  reaching (18/25) (unskew 4) [x; y; z; w] (ss4_vertices n m l o (Rltb s 0) (Rltb s (W - s)) (Rltb s (Z - s)) (Rltb s (Y - s)) (Rltb s (X - s)) (Rltb (X - s) 0) (Rltb (X - s) (- (Y - s))) (Rltb (X - s) (- (Z - s))) (Rltb (X - s) (- (W - s))) (Rltb (Y - s) 0) (Rltb (Y - s) (- (Z - s))) (Rltb (Y - s) (- (W - s))) (Rltb (Z - s) 0) (Rltb (Z - s) (- (W - s))) (Rltb (W - s) 0)).
Proof.
  intros n m l o x y z w HC X Y Z W s. split; [apply ss4_nodup|split].
  - intros v. unfold ss4_vertices. cbn [In]; intros C; repeat destruct C as [<-|C]; auto; contradiction.
  - intros [|a [|b [|c [|d [|? ?]]]]] L D; try discriminate L. clear L. rewrite sqlen4 in D.
    assert (exists i, a = (n + i)%Z) as [i ->] by (exists (a - n)%Z; lia). assert (exists j, b = (m + j)%Z) as [j ->] by (exists (b - m)%Z; lia). assert (exists k, c = (l + k)%Z) as [k ->] by (exists (c - l)%Z; lia). assert (exists h, d = (o + h)%Z) as [h ->] by (exists (d - o)%Z; lia).
    rewrite !plus_IZR in D. fold X Y Z W in HC.
    replace (x - (IZR n + IZR i)) with (X - IZR i) in D by (unfold X; ring). replace (y - (IZR m + IZR j)) with (Y - IZR j) in D by (unfold Y; ring). replace (z - (IZR l + IZR k)) with (Z - IZR k) in D by (unfold Z; ring). replace (w - (IZR o + IZR h)) with (W - IZR h) in D by (unfold W; ring).
    clearbody X Y Z W. pose proof (Q4_pos X Y Z W) as QP.
    unfold cell4 in HC. cbv zeta in HC. fold s in HC. assert (HS : X + Y + Z + W = 5 * s) by (unfold s; field). clearbody s.
    pose proof D as D'. rewrite Q4_diff in D'. set (q := (X - IZR i + (Y - IZR j) + (Z - IZR k) + (W - IZR h)) / 5) in D'.
    set (ax := X - IZR i - q) in *. set (ay := Y - IZR j - q) in *. set (az := Z - IZR k - q) in *. set (aw := W - IZR h - q) in *.
    pose proof (Rle_0_sqr ax) as Px. pose proof (Rle_0_sqr ay) as Py. pose proof (Rle_0_sqr az) as Pz. pose proof (Rle_0_sqr aw) as Pw. pose proof (Rle_0_sqr q) as Pq. unfold Rsqr in Px, Py, Pz, Pw, Pq.
    assert (-6/5 < ax - ay < 6/5) by (apply (pair_bound ax ay _ _ _ Pz Pw Pq); lra). assert (-6/5 < ax - az < 6/5) by (apply (pair_bound ax az _ _ _ Py Pw Pq); lra). assert (-6/5 < ax - aw < 6/5) by (apply (pair_bound ax aw _ _ _ Py Pz Pq); lra).
    assert (-6/5 < ay - az < 6/5) by (apply (pair_bound ay az _ _ _ Px Pw Pq); lra). assert (-6/5 < ay - aw < 6/5) by (apply (pair_bound ay aw _ _ _ Px Pz Pq); lra). assert (-6/5 < az - aw < 6/5) by (apply (pair_bound az aw _ _ _ Px Py Pq); lra).
    assert (-6/5 < ax - - q < 6/5) by (apply (pair_bound ax (- q) _ _ _ Py Pz Pw); lra). assert (-6/5 < ay - - q < 6/5) by (apply (pair_bound ay (- q) _ _ _ Px Pz Pw); lra). assert (-6/5 < az - - q < 6/5) by (apply (pair_bound az (- q) _ _ _ Px Py Pw); lra). assert (-6/5 < aw - - q < 6/5) by (apply (pair_bound aw (- q) _ _ _ Px Py Pz); lra).
    clear D' Px Py Pz Pw Pq. unfold ax, ay, az, aw in *. clear ax ay az aw.
    assert (Ri : (-2 < i < 2)%Z) by (split; apply lt_IZR; lra). assert (Rj : (-2 < j < 2)%Z) by (split; apply lt_IZR; lra). assert (Rk : (-2 < k < 2)%Z) by (split; apply lt_IZR; lra). assert (Rh : (-2 < h < 2)%Z) by (split; apply lt_IZR; lra).
    assert (Rij : (-2 < i - j < 2)%Z) by (split; apply lt_IZR; rewrite minus_IZR; lra). assert (Rik : (-2 < i - k < 2)%Z) by (split; apply lt_IZR; rewrite minus_IZR; lra). assert (Rih : (-2 < i - h < 2)%Z) by (split; apply lt_IZR; rewrite minus_IZR; lra).
    assert (Rjk : (-2 < j - k < 2)%Z) by (split; apply lt_IZR; rewrite minus_IZR; lra). assert (Rjh : (-2 < j - h < 2)%Z) by (split; apply lt_IZR; rewrite minus_IZR; lra). assert (Rkh : (-2 < k - h < 2)%Z) by (split; apply lt_IZR; rewrite minus_IZR; lra).
    assert (Ci : i = (-1)%Z \/ i = 0%Z \/ i = 1%Z) by lia. assert (Cj : j = (-1)%Z \/ j = 0%Z \/ j = 1%Z) by lia. assert (Ck : k = (-1)%Z \/ k = 0%Z \/ k = 1%Z) by lia. assert (Ch : h = (-1)%Z \/ h = 0%Z \/ h = 1%Z) by lia.
    clear Ri Rj Rk Rh. repeat match goal with H : -6/5 < _ < 6/5 |- _ => clear H end. clear q.
    destruct Ci as [->|[->| ->]], Cj as [->|[->| ->]], Ck as [->|[->| ->]], Ch as [->|[->| ->]]; try (exfalso; lia); clear Rij Rik Rih Rjk Rjh Rkh; rewrite ?Z.add_0_r; unfold ss4_vertices; cbn [In]; unfold Q4 in *.
    all: first [left; reflexivity | right; pkr].
Qed.
End S4.
