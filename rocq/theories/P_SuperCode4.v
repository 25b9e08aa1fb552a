(** SuperSimplex 4D with the float constants of the code: close to a sum over distinct lattice vertices, hence
    in the documented range (C67). *)
From Coq Require Import Reals ZArith List Bool Lia Lra Psatz.
From Verif Require Import Prelude Simd_Model Utils_Model Nodes_Model Setters_Model Simd_R Bits P_Hash P_Grad P_Blend P_Lattice Lattice Simplex_Model Simplex_Spec Simplex_Geom Simplex_2D P_Simplex
  Simplex_3D P_Simplex3 Simplex_Cells Simplex_4D P_Simplex4 P_SimplexCode P_SimplexRange P_SimplexCode4.
Import ListNotations.
Open Scope R_scope.

(** ** The search for the closest vertex, with rounded constants: the best score up to the error [e] *)
Definition bestE (sc : Z -> R) (L : list Z) (b : Z) (m off e : R) : Prop :=
  In b L /\ Rabs (m - (sc b + off)) <= e /\ forall c, In c L -> sc c + off <= m + e.
Lemma bestE_step : forall sc L b m off e c v, bestE sc L b m off e -> Rabs (v - (sc c + off)) <= e -> bestE sc (c :: L) (if Rltb m v then c else b) (Rmax m v) off e.
Proof.
  intros sc L b m off e c v (I & Em & H) Ev. apply Rabs_def2_le in Ev. unfold Rltb. destruct (Rlt_dec m v).
  - rewrite Rmax_right by lra. split; [left; auto|]. split; [apply Rabs_le; lra|]. intros c' [<-|C]; [lra|]. specialize (H c' C). lra.
  - rewrite Rmax_left by lra. split; [right; auto|]. split; auto. intros c' [<-|C]; [lra|]. auto.
Qed.
Lemma bestE_off : forall sc L b m off e d off' e', bestE sc L b m off e -> Rabs (d - (off' - off)) <= e' - e -> bestE sc L b (m + d) off' e'.
Proof.
  intros sc L b m off e d off' e' (I & E & H) D. apply Rabs_def2_le in E, D. split; auto. split; [apply Rabs_le; lra|]. intros c C. specialize (H c C). lra.
Qed.
Definition near4c (k06 k02 N x y z w : R) : Z :=
  let m := k06 - N in let b := 0%Z in
  let b := if Rltb m k02 then (-1)%Z else b in let m := Rmax m k02 in
  let b := if Rltb m (- w) then 7%Z else b in let m := Rmax m (- w) in
  let b := if Rltb m (- z) then 11%Z else b in let m := Rmax m (- z) in
  let b := if Rltb m (- y) then 13%Z else b in let m := Rmax m (- y) in
  let b := if Rltb m (- x) then 14%Z else b in let m := Rmax m (- x) in
  let m := m + (N - k02) in
  let b := if Rltb m x then 1%Z else b in let m := Rmax m x in
  let b := if Rltb m y then 2%Z else b in let m := Rmax m y in
  let b := if Rltb m z then 4%Z else b in let m := Rmax m z in
  let b := if Rltb m w then 8%Z else b in let m := Rmax m w in
  let m := m + (k02 - x) in
  let b := if Rltb m y then 3%Z else b in let m := Rmax m y in
  let b := if Rltb m z then 5%Z else b in let m := Rmax m z in
  let b := if Rltb m w then 9%Z else b in let m := Rmax m w in
  let m := m + x in
  let b := if Rltb m (y + z) then 6%Z else b in let m := Rmax m (y + z) in
  let m := m + (- w) in
  let b := if Rltb m y then 10%Z else b in let m := Rmax m y in
  let b := if Rltb m z then 12%Z else b in b.
Ltac est := apply Rabs_le; sctac; lra.
Lemma near4c_best : forall k06 k02 N' x' y' z' w' N x y z w, x + y + z + w = N ->
  -3/100000000 <= k06 - 3/5 <= 3/100000000 -> -4/1000000000 <= k02 - 1/5 <= 4/1000000000 ->
  -13/1000000000 <= N' - N <= 13/1000000000 -> -13/1000000000 <= x' - x <= 13/1000000000 -> -13/1000000000 <= y' - y <= 13/1000000000 ->
  -13/1000000000 <= z' - z <= 13/1000000000 -> -13/1000000000 <= w' - w <= 13/1000000000 ->
  In (near4c k06 k02 N' x' y' z' w') cands /\ forall c, In c cands -> sc4 N x y z w c <= sc4 N x y z w (near4c k06 k02 N' x' y' z' w') + 24/100000000.
Proof.
  intros k06 k02 N' x' y' z' w' N x y z w HN H6 H2 Hn Hx Hy Hz Hw. unfold near4c. cbv zeta.
  assert (H0 : bestE (sc4 N x y z w) [0%Z] 0%Z (k06 - N') (3/5 - N) (45/1000000000)) by (split; [left; auto|split; [est|intros c [<-|[]]; sctac; lra]]).
  apply (bestE_step _ _ _ _ _ _ (-1)%Z k02) in H0; [|est].
  apply (bestE_step _ _ _ _ _ _ 7%Z (- w')) in H0; [|est].
  apply (bestE_step _ _ _ _ _ _ 11%Z (- z')) in H0; [|est].
  apply (bestE_step _ _ _ _ _ _ 13%Z (- y')) in H0; [|est].
  apply (bestE_step _ _ _ _ _ _ 14%Z (- x')) in H0; [|est].
  apply (bestE_off _ _ _ _ _ _ (N' - k02) (2/5) (65/1000000000)) in H0; [|est].
  apply (bestE_step _ _ _ _ _ _ 1%Z x') in H0; [|est].
  apply (bestE_step _ _ _ _ _ _ 2%Z y') in H0; [|est].
  apply (bestE_step _ _ _ _ _ _ 4%Z z') in H0; [|est].
  apply (bestE_step _ _ _ _ _ _ 8%Z w') in H0; [|est].
  apply (bestE_off _ _ _ _ _ _ (k02 - x') (3/5 - x) (85/1000000000)) in H0; [|est].
  apply (bestE_step _ _ _ _ _ _ 3%Z y') in H0; [|est].
  apply (bestE_step _ _ _ _ _ _ 5%Z z') in H0; [|est].
  apply (bestE_step _ _ _ _ _ _ 9%Z w') in H0; [|est].
  apply (bestE_off _ _ _ _ _ _ x' (3/5) (100/1000000000)) in H0; [|est].
  apply (bestE_step _ _ _ _ _ _ 6%Z (y' + z')) in H0; [|est].
  apply (bestE_off _ _ _ _ _ _ (- w') (3/5 - w) (115/1000000000)) in H0; [|est].
  apply (bestE_step _ _ _ _ _ _ 10%Z y') in H0; [|est].
  apply (bestE_step _ _ _ _ _ _ 12%Z z') in H0; [|est].
  destruct H0 as (I & E & H). split; [exact I|]. intros c C. specialize (H c C). apply Rabs_def2_le in E. lra.
Qed.
(** the cell around a vertex, up to [e] *)
Definition cell4e (e X Y Z W : R) : Prop := let s := (X + Y + Z + W) / 5 in
  -2/5 - e <= s <= 2/5 + e /\ -2/5 - e <= X - s <= 2/5 + e /\ -2/5 - e <= Y - s <= 2/5 + e /\ -2/5 - e <= Z - s <= 2/5 + e /\ -2/5 - e <= W - s <= 2/5 + e.
Definition DE : R := 3/10000000.
Lemma near4c_spec : forall k06 k02 kT X Y Z W, 0 <= X < 1 -> 0 <= Y < 1 -> 0 <= Z < 1 -> 0 <= W < 1 ->
  -3/100000000 <= k06 - 3/5 <= 3/100000000 -> -4/1000000000 <= k02 - 1/5 <= 4/1000000000 -> -32/10000000000 <= kT - 1/5 <= 32/10000000000 ->
  let t := kT * (X + Y + Z + W) in let b := near4c k06 k02 t (X - t) (Y - t) (Z - t) (W - t) in
  cell4e DE (X - IZR (bit b 1)) (Y - IZR (bit b 2)) (Z - IZR (bit b 4)) (W - IZR (bit b 8)).
Proof.
  intros k06 k02 kT X Y Z W HX HY HZ HW H6 H2 HT t b. set (s := (X + Y + Z + W) / 5).
  assert (TS : -13/1000000000 <= t - s <= 13/1000000000) by (unfold t, s; pose proof (prod_small (kT - 1/5) (X + Y + Z + W) 4 (32/10000000000) ltac:(lra) ltac:(lra)); lra).
  destruct (near4c_best k06 k02 t (X - t) (Y - t) (Z - t) (W - t) s (X - s) (Y - s) (Z - s) (W - s)) as (I & H); [unfold s; field|lra|lra|lra|lra|lra|lra|lra|]. fold b in I, H. clearbody b. clear TS t H6 H2 HT.
  assert (HS : X + Y + Z + W = 5 * s) by (unfold s; field). clearbody s.
  assert (A : forall c, In c cands -> sc4 s (X - s) (Y - s) (Z - s) (W - s) c <= sc4 s (X - s) (Y - s) (Z - s) (W - s) b + 24/100000000) by exact H. clear H.
  pose proof (A 0%Z ltac:(cbn; tauto)) as A0. pose proof (A (-1)%Z ltac:(cbn; tauto)) as Am. pose proof (A 1%Z ltac:(cbn; tauto)) as A1. pose proof (A 2%Z ltac:(cbn; tauto)) as A2. pose proof (A 4%Z ltac:(cbn; tauto)) as A4. pose proof (A 8%Z ltac:(cbn; tauto)) as A8.
  pose proof (A 3%Z ltac:(cbn; tauto)) as A3. pose proof (A 5%Z ltac:(cbn; tauto)) as A5. pose proof (A 6%Z ltac:(cbn; tauto)) as A6. pose proof (A 9%Z ltac:(cbn; tauto)) as A9. pose proof (A 10%Z ltac:(cbn; tauto)) as A10. pose proof (A 12%Z ltac:(cbn; tauto)) as A12.
  pose proof (A 7%Z ltac:(cbn; tauto)) as A7. pose proof (A 11%Z ltac:(cbn; tauto)) as A11. pose proof (A 13%Z ltac:(cbn; tauto)) as A13. pose proof (A 14%Z ltac:(cbn; tauto)) as A14. clear A.
  unfold cands in I. cbn [In] in I.
  decompose [or] I; try contradiction; subst b; revert A0 Am A1 A2 A4 A8 A3 A5 A6 A9 A10 A12 A7 A11 A13 A14; sctac; intros A0 Am A1 A2 A4 A8 A3 A5 A6 A9 A10 A12 A7 A11 A13 A14;
    cbv [bit Z.land Z.eqb Pos.land N.land Z.of_N Pos.ldiff Pos.lor Z.to_N N.ldiff N.lor Pos.pred_N Pos.pred_double N.succ_pos N.double Pos.Ndouble Pos.Nsucc_double]; unfold cell4e, DE; cbv zeta;
    match goal with |- context [(?a + ?b + ?c + ?d) / 5] => replace ((a + b + c + d) / 5) with (s - (X + Y + Z + W - (a + b + c + d)) / 5) by (rewrite HS; field) end; repeat split; lra.
Qed.

Lemma cell4e_close : forall X Y Z W, cell4e DE X Y Z W -> Q4 X Y Z W <= 4/5 + 13/10000000 /\ -1 <= X <= 1 /\ -1 <= Y <= 1 /\ -1 <= Z <= 1 /\ -1 <= W <= 1 /\ 0 <= (X + Y + Z + W) * (X + Y + Z + W) <= 5.
Proof.
  intros X Y Z W C. unfold cell4e, DE in C. cbv zeta in C. unfold Q4. set (s := (X + Y + Z + W) / 5) in *.
  replace (X * X + Y * Y + Z * Z + W * W - (X + Y + Z + W) * (X + Y + Z + W) / 5) with ((X - s) * (X - s) + (Y - s) * (Y - s) + (Z - s) * (Z - s) + (W - s) * (W - s) + s * s) by (unfold s; field).
  replace ((X + Y + Z + W) * (X + Y + Z + W)) with (25 * (s * s)) by (unfold s; field).
  assert (B : forall a, -2/5 - 3/10000000 <= a <= 2/5 + 3/10000000 -> 0 <= a * a <= 4/25 + 25/100000000) by (intros; nra). pose proof (B s). pose proof (B (X - s)). pose proof (B (Y - s)). pose proof (B (Z - s)). pose proof (B (W - s)). lra.
Qed.

Section S4.
Variable inf : R.
Variable bits : R -> Z.
Notation S_ := (Rops inf bits).
Lemma near4c_eq : forall (X Y Z W : R), let t := 13421773 / 67108864 * (X + Y + Z + W) in
  supersimplex4_near (s:=S_) (W:=scalar) ss4k_code X Y Z W = near4c (5033165 / 8388608) (13421773 / 67108864) t (X - t) (Y - t) (Z - t) (W - t).
Proof.
  intros X Y Z W t. unfold supersimplex4_near, near4c, slet. cbn [ss4k_code ss4_kT ss4_k06 ss4_k02].
  change (-26)%Z with (- (26))%Z. change (-23)%Z with (- (23))%Z. rewrite !(litR inf bits) by lia. change (IZR (2 ^ 26)) with 67108864. change (IZR (2 ^ 23)) with 8388608.
  assert (E : fmul (s:=S_) (W:=scalar) (fv (s:=S_) (W:=scalar) (-13421773 / 67108864)) (fadd (s:=S_) (W:=scalar) (fadd (s:=S_) (W:=scalar) (fadd (s:=S_) (W:=scalar) X Y) Z) W) = - t) by (unfold t; sunf; toR; field).
  rewrite E. clearbody t. sunf. rewrite Ropp_involutive. reflexivity.
Qed.
Lemma near_intro4 : forall x y z w p (d : list R) (f : R) a b i j (x' y' z' w' g' : R),
  let X := x - IZR a in let Y := y - IZR b in let Z := z - IZR i in let W := w - IZR j in let s := unskew 4 * (X + Y + Z + W) in
  p = primed PrimesLookup [a; b; i; j] -> d = [x'; y'; z'; w'] -> Rabs (X + s) <= 3 -> Rabs (Y + s) <= 3 -> Rabs (Z + s) <= 3 -> Rabs (W + s) <= 3 ->
  Rabs (x' - (X + s)) <= D1 -> Rabs (y' - (Y + s)) <= D1 -> Rabs (z' - (Z + s)) <= D1 -> Rabs (w' - (W + s)) <= D1 ->
  Rabs (2 * g' - (4/5 - Q4 X Y Z W)) <= D2 -> f = Rmax 0 g' ^ 4 -> near_visit4 inf bits (1/2) (4/5) D1 D2 x y z w (@mkc S_ scalar p d f) [a; b; i; j].
Proof.
  intros x y z w p d f a b i j x' y' z' w' g' X Y Z W s Hp Hd Bx By Bz Bw Hx Hy Hz Hw Hg Hf.
  exists a, b, i, j, (X + s), (Y + s), (Z + s), (W + s), x', y', z', w', (Rmax 0 (2 * g')).
  split; [reflexivity|]. split; [exact Hp|]. split; [apply off4|]. split; [exact Hd|]. repeat (split; [assumption|]). split.
  - cbn [cf]. rewrite Hf. f_equal. unfold Rmax. repeat destruct (Rle_dec _ _); lra.
  - apply max0_close. pose proof (sqlen4 x y z w a b i j) as SQ. rewrite off4 in SQ. cbv zeta in SQ. fold X Y Z W in SQ. fold s in SQ. unfold sqlen in SQ. cbn [map] in SQ. rewrite !sum_cons, sum_nil, Rplus_0_r, <- !Rplus_assoc in SQ.
    rewrite SQ. exact Hg.
Qed.
Section Vertices.
Variables (n m l o : Z) (x y z w : R).
Let X : R := x - IZR n. Let Y : R := y - IZR m. Let Z : R := z - IZR l. Let W : R := w - IZR o.
Let S : R := X + Y + Z + W.
Hypothesis (HX : -1 <= X <= 1) (HY : -1 <= Y <= 1) (HZ : -1 <= Z <= 1) (HW : -1 <= W <= 1).
Let ku : R := -9274217 / 67108864.
Let kc : R := 7502999 / 16777216.
Variables (nx ny nz nw ns stA stB : R).
Hypothesis (HA : - (2/10000000) <= stA - ((4/5 - Q4 X Y Z W) / 2 - 2/5) <= 2/10000000).
Hypothesis (HB : - (2/10000000) <= stB - ((4/5 - Q4 X Y Z W) / 2 - 3/5) <= 2/10000000).
Lemma uS : forall a b c d, -2 <= a <= 2 -> -2 <= b <= 2 -> -2 <= c <= 2 -> -2 <= d <= 2 -> -(32 / 1000000000) <= (ku - unskew 4) * (a + b + c + d) <= 32 / 1000000000.
Proof.
  intros a b c d Ha Hb Hc Hd. pose proof (prod_small (ku - unskew 4) (a + b + c + d) 8 (4/1000000000)) as P. pose proof unskew4_bounds. unfold ku in *. lra.
Qed.
Lemma XM : forall k, x - IZR (n + k) = X - IZR k. Proof. intros; unfold X; rewrite plus_IZR; ring. Qed.
Lemma YM : forall k, y - IZR (m + k) = Y - IZR k. Proof. intros; unfold Y; rewrite plus_IZR; ring. Qed.
Lemma ZM : forall k, z - IZR (l + k) = Z - IZR k. Proof. intros; unfold Z; rewrite plus_IZR; ring. Qed.
Lemma WM : forall k, w - IZR (o + k) = W - IZR k. Proof. intros; unfold W; rewrite plus_IZR; ring. Qed.
Ltac lits := cbn [ss4k_code ss4_kU ss4_k4U1 ss4_k3U1 ss4_k3U ss4_kU1 ss4_k2U1 ss4_k2U];
  change (-22)%Z with (- (22))%Z; change (-23)%Z with (- (23))%Z; change (-24)%Z with (- (24))%Z; change (-25)%Z with (- (25))%Z; change (-26)%Z with (- (26))%Z;
  rewrite ?(litR inf bits) by lia; change (IZR (2 ^ 22)) with 4194304; change (IZR (2 ^ 23)) with 8388608; change (IZR (2 ^ 24)) with 16777216; change (IZR (2 ^ 25)) with 33554432; change (IZR (2 ^ 26)) with 67108864.
Ltac bnd := let U := fresh in pose proof unskew4_bounds as U; let K := fresh in pose proof (prod_small (unskew 4) (X + Y + Z + W) 4 (14/100)) as K; cbn [Z.opp] in *;
  assert (- (14/100 * 4) <= unskew 4 * (X + Y + Z + W) <= 14/100 * 4) by (apply K; lra); clear K; apply Rabs_le; lra.
Ltac clos := match goal with |- context [unskew 4 * (?a + ?b + ?c + ?d)] =>
  let U := fresh in pose proof unskew4_bounds as U; let K := fresh in pose proof (uS X Y Z W ltac:(lra) ltac:(lra) ltac:(lra) ltac:(lra)) as K;
  unfold D1; apply Rabs_le; unfold fneg_if, S, ku, kc in *; sunf; cbn [negb Z.opp] in *; rlit; lra end.
Ltac fal := unfold D2, Q4 in *; apply Rabs_le; unfold fneg_if, S, ku, kc in *; sunf; cbn [negb Z.opp] in *; rlit; lra.
Ltac one b := rewrite ?(LT0 inf bits); change (fneg (s:=S_) (W:=scalar)) with Ropp; change (flt (s:=S_) (W:=scalar)) with Rltb; lits; destruct b; cbn [sg];
  (eapply near_intro4; [primes|reflexivity| | | | | | | | | |apply quart]; rewrite ?XM, ?YM, ?ZM, ?WM; fold X Y Z W; clearbody X Y Z W; [bnd|bnd|bnd|bnd|clos|clos|clos|clos|fal]).
Lemma sc4_v1 : near_visit4 inf bits (1/2) (4/5) D1 D2 x y z w
  (supersimplex4_v1 (s:=S_) (W:=scalar) ss4k_code (z_mul n PrimeX) (z_mul m PrimeY) (z_mul l PrimeZ) (z_mul o PrimeW) ns (X + ku * S) (Y + ku * S) (Z + ku * S) (W + ku * S) (kc * S) stA)
  [n + sg (Rltb ns 0); m + sg (Rltb ns 0); l + sg (Rltb ns 0); o + sg (Rltb ns 0)]%Z.
Proof. unfold supersimplex4_v1, slet. one (Rltb ns 0). Qed.
Lemma sc4_v2 : near_visit4 inf bits (1/2) (4/5) D1 D2 x y z w
  (supersimplex4_v2 (s:=S_) (W:=scalar) ss4k_code (z_mul n PrimeX) (z_mul m PrimeY) (z_mul l PrimeZ) (z_mul o PrimeW) nw ns (X + ku * S) (Y + ku * S) (Z + ku * S) (W + ku * S) (kc * S) stB)
  [n + sg (Rltb ns nw); m + sg (Rltb ns nw); l + sg (Rltb ns nw); o]%Z.
Proof. unfold supersimplex4_v2, slet. one (Rltb ns nw). Qed.
Lemma sc4_v3 : near_visit4 inf bits (1/2) (4/5) D1 D2 x y z w
  (supersimplex4_v3 (s:=S_) (W:=scalar) ss4k_code (z_mul n PrimeX) (z_mul m PrimeY) (z_mul l PrimeZ) (z_mul o PrimeW) nz ns (X + ku * S) (Y + ku * S) (Z + ku * S) (W + ku * S) (kc * S) stB)
  [n + sg (Rltb ns nz); m + sg (Rltb ns nz); l; o + sg (Rltb ns nz)]%Z.
Proof. unfold supersimplex4_v3, slet. one (Rltb ns nz). Qed.
Lemma sc4_v4 : near_visit4 inf bits (1/2) (4/5) D1 D2 x y z w
  (supersimplex4_v4 (s:=S_) (W:=scalar) ss4k_code (z_mul n PrimeX) (z_mul m PrimeY) (z_mul l PrimeZ) (z_mul o PrimeW) ny ns (X + ku * S) (Y + ku * S) (Z + ku * S) (W + ku * S) (kc * S) stB)
  [n + sg (Rltb ns ny); m; l + sg (Rltb ns ny); o + sg (Rltb ns ny)]%Z.
Proof. unfold supersimplex4_v4, slet. one (Rltb ns ny). Qed.
Lemma sc4_v5 : near_visit4 inf bits (1/2) (4/5) D1 D2 x y z w
  (supersimplex4_v5 (s:=S_) (W:=scalar) ss4k_code (z_mul n PrimeX) (z_mul m PrimeY) (z_mul l PrimeZ) (z_mul o PrimeW) nx ns (X + ku * S) (Y + ku * S) (Z + ku * S) (W + ku * S) (kc * S) stB)
  [n; m + sg (Rltb ns nx); l + sg (Rltb ns nx); o + sg (Rltb ns nx)]%Z.
Proof. unfold supersimplex4_v5, slet. one (Rltb ns nx). Qed.
Lemma sc4_v6 : near_visit4 inf bits (1/2) (4/5) D1 D2 x y z w
  (supersimplex4_v6 (s:=S_) (W:=scalar) ss4k_code (z_mul n PrimeX) (z_mul m PrimeY) (z_mul l PrimeZ) (z_mul o PrimeW) nx (X + ku * S) (Y + ku * S) (Z + ku * S) (W + ku * S) (kc * S) stA)
  [n + sg (Rltb nx 0); m; l; o]%Z.
Proof. unfold supersimplex4_v6, slet. one (Rltb nx 0). Qed.
Lemma sc4_v7 : near_visit4 inf bits (1/2) (4/5) D1 D2 x y z w
  (supersimplex4_v7 (s:=S_) (W:=scalar) ss4k_code (z_mul n PrimeX) (z_mul m PrimeY) (z_mul l PrimeZ) (z_mul o PrimeW) nx ny (X + ku * S) (Y + ku * S) (Z + ku * S) (W + ku * S) (kc * S) stB)
  [n + sg (Rltb nx (- ny)); m + sg (Rltb nx (- ny)); l; o]%Z.
Proof. unfold supersimplex4_v7, slet. one (Rltb nx (- ny)). Qed.
Lemma sc4_v8 : near_visit4 inf bits (1/2) (4/5) D1 D2 x y z w
  (supersimplex4_v8 (s:=S_) (W:=scalar) ss4k_code (z_mul n PrimeX) (z_mul m PrimeY) (z_mul l PrimeZ) (z_mul o PrimeW) nx nz (X + ku * S) (Y + ku * S) (Z + ku * S) (W + ku * S) (kc * S) stB)
  [n + sg (Rltb nx (- nz)); m; l + sg (Rltb nx (- nz)); o]%Z.
Proof. unfold supersimplex4_v8, slet. one (Rltb nx (- nz)). Qed.
Lemma sc4_v9 : near_visit4 inf bits (1/2) (4/5) D1 D2 x y z w
  (supersimplex4_v9 (s:=S_) (W:=scalar) ss4k_code (z_mul n PrimeX) (z_mul m PrimeY) (z_mul l PrimeZ) (z_mul o PrimeW) nx nw (X + ku * S) (Y + ku * S) (Z + ku * S) (W + ku * S) (kc * S) stB)
  [n + sg (Rltb nx (- nw)); m; l; o + sg (Rltb nx (- nw))]%Z.
Proof. unfold supersimplex4_v9, slet. one (Rltb nx (- nw)). Qed.
Lemma sc4_v10 : near_visit4 inf bits (1/2) (4/5) D1 D2 x y z w
  (supersimplex4_v10 (s:=S_) (W:=scalar) ss4k_code (z_mul n PrimeX) (z_mul m PrimeY) (z_mul l PrimeZ) (z_mul o PrimeW) ny (X + ku * S) (Y + ku * S) (Z + ku * S) (W + ku * S) (kc * S) stA)
  [n; m + sg (Rltb ny 0); l; o]%Z.
Proof. unfold supersimplex4_v10, slet. one (Rltb ny 0). Qed.
Lemma sc4_v11 : near_visit4 inf bits (1/2) (4/5) D1 D2 x y z w
  (supersimplex4_v11 (s:=S_) (W:=scalar) ss4k_code (z_mul n PrimeX) (z_mul m PrimeY) (z_mul l PrimeZ) (z_mul o PrimeW) ny nz (X + ku * S) (Y + ku * S) (Z + ku * S) (W + ku * S) (kc * S) stB)
  [n; m + sg (Rltb ny (- nz)); l + sg (Rltb ny (- nz)); o]%Z.
Proof. unfold supersimplex4_v11, slet. one (Rltb ny (- nz)). Qed.
Lemma sc4_v12 : near_visit4 inf bits (1/2) (4/5) D1 D2 x y z w
  (supersimplex4_v12 (s:=S_) (W:=scalar) ss4k_code (z_mul n PrimeX) (z_mul m PrimeY) (z_mul l PrimeZ) (z_mul o PrimeW) ny nw (X + ku * S) (Y + ku * S) (Z + ku * S) (W + ku * S) (kc * S) stB)
  [n; m + sg (Rltb ny (- nw)); l; o + sg (Rltb ny (- nw))]%Z.
Proof. unfold supersimplex4_v12, slet. one (Rltb ny (- nw)). Qed.
Lemma sc4_v13 : near_visit4 inf bits (1/2) (4/5) D1 D2 x y z w
  (supersimplex4_v13 (s:=S_) (W:=scalar) ss4k_code (z_mul n PrimeX) (z_mul m PrimeY) (z_mul l PrimeZ) (z_mul o PrimeW) nz (X + ku * S) (Y + ku * S) (Z + ku * S) (W + ku * S) (kc * S) stA)
  [n; m; l + sg (Rltb nz 0); o]%Z.
Proof. unfold supersimplex4_v13, slet. one (Rltb nz 0). Qed.
Lemma sc4_v14 : near_visit4 inf bits (1/2) (4/5) D1 D2 x y z w
  (supersimplex4_v14 (s:=S_) (W:=scalar) ss4k_code (z_mul n PrimeX) (z_mul m PrimeY) (z_mul l PrimeZ) (z_mul o PrimeW) nz nw (X + ku * S) (Y + ku * S) (Z + ku * S) (W + ku * S) (kc * S) stB)
  [n; m; l + sg (Rltb nz (- nw)); o + sg (Rltb nz (- nw))]%Z.
Proof. unfold supersimplex4_v14, slet. one (Rltb nz (- nw)). Qed.
Lemma sc4_v15 : near_visit4 inf bits (1/2) (4/5) D1 D2 x y z w
  (supersimplex4_v15 (s:=S_) (W:=scalar) ss4k_code (z_mul n PrimeX) (z_mul m PrimeY) (z_mul l PrimeZ) (z_mul o PrimeW) nw (X + ku * S) (Y + ku * S) (Z + ku * S) (W + ku * S) (kc * S) stA)
  [n; m; l; o + sg (Rltb nw 0)]%Z.
Proof. unfold supersimplex4_v15, slet. one (Rltb nw 0). Qed.
End Vertices.

Lemma ss4_code_visits : forall n m l o (x y z w : R), cell4e DE (x - IZR n) (y - IZR m) (z - IZR l) (w - IZR o) ->
  let X := x - IZR n in let Y := y - IZR m in let Z := z - IZR l in let W := w - IZR o in let t := -13421773 / 67108864 * (X + Y + Z + W) in
  let nx := X + t in let ny := Y + t in let nz := Z + t in let nw := W + t in let ns := - t in
  Forall2 (near_visit4 inf bits (1/2) (4/5) D1 D2 x y z w)
    (supersimplex4_at (s:=S_) (W:=scalar) ss4k_code (z_mul n PrimeX) (z_mul m PrimeY) (z_mul l PrimeZ) (z_mul o PrimeW) X Y Z W)
    (ss4_vertices n m l o (Rltb ns 0) (Rltb ns nw) (Rltb ns nz) (Rltb ns ny) (Rltb ns nx) (Rltb nx 0) (Rltb nx (- ny)) (Rltb nx (- nz)) (Rltb nx (- nw)) (Rltb ny 0) (Rltb ny (- nz)) (Rltb ny (- nw)) (Rltb nz 0) (Rltb nz (- nw)) (Rltb nw 0)).
Proof.
  intros n m l o x y z w HC X Y Z W t nx ny nz nw ns. apply cell4e_close in HC. fold X Y Z W in HC. destruct HC as (HQ & HX & HY & HZ & HW & HS).
  unfold supersimplex4_at, slet, ss4_vertices. rewrite ?(lit1 inf bits).
  cbn [ss4k_code ss4_kT ss4_kU ss4_k4U1 ss4_kR ss4_kA ss4_kB].
  change (-23)%Z with (- (23))%Z; change (-24)%Z with (- (24))%Z; change (-25)%Z with (- (25))%Z; change (-26)%Z with (- (26))%Z;
  rewrite ?(litR inf bits) by lia; change (IZR (2 ^ 23)) with 8388608; change (IZR (2 ^ 24)) with 16777216; change (IZR (2 ^ 25)) with 33554432; change (IZR (2 ^ 26)) with 67108864.
  change (fadd (s:=S_) (W:=scalar) (fadd (s:=S_) (W:=scalar) (fadd (s:=S_) (W:=scalar) X Y) Z) W) with (X + Y + Z + W).
  change (fmul (s:=S_) (W:=scalar) (fv (s:=S_) (W:=scalar) (-13421773 / 67108864)) (X + Y + Z + W)) with t. change (fneg (s:=S_) (W:=scalar) t) with ns.
  change (fadd (s:=S_) (W:=scalar) X t) with nx. change (fadd (s:=S_) (W:=scalar) Y t) with ny. change (fadd (s:=S_) (W:=scalar) Z t) with nz. change (fadd (s:=S_) (W:=scalar) W t) with nw.
  clearbody nx ny nz nw ns. clear t.
  change (fmul (s:=S_) (W:=scalar) (fv (s:=S_) (W:=scalar) (-9274217 / 67108864)) (X + Y + Z + W)) with (-9274217 / 67108864 * (X + Y + Z + W)).
  change (fmul (s:=S_) (W:=scalar) (fv (s:=S_) (W:=scalar) (7502999 / 16777216)) (X + Y + Z + W)) with (7502999 / 16777216 * (X + Y + Z + W)).
  change (fadd (s:=S_) (W:=scalar) X (-9274217 / 67108864 * (X + Y + Z + W))) with (X + -9274217 / 67108864 * (X + Y + Z + W)). change (fadd (s:=S_) (W:=scalar) Y (-9274217 / 67108864 * (X + Y + Z + W))) with (Y + -9274217 / 67108864 * (X + Y + Z + W)).
  change (fadd (s:=S_) (W:=scalar) Z (-9274217 / 67108864 * (X + Y + Z + W))) with (Z + -9274217 / 67108864 * (X + Y + Z + W)). change (fadd (s:=S_) (W:=scalar) W (-9274217 / 67108864 * (X + Y + Z + W))) with (W + -9274217 / 67108864 * (X + Y + Z + W)).
  match goal with |- context [mkc _ _ (fmul (s:=S_) (W:=scalar) (fmul (s:=S_) (W:=scalar) ?f ?f) _)] => set (f0 := f : R) end.
  assert (F0 : -(1/20000000) <= f0 - (4/5 - Q4 X Y Z W) / 2 <= 1/20000000).
  { clearbody X Y Z W. unfold f0, Q4. sunf. lra. }
  clearbody f0.
  assert (HA : - (2/10000000) <= fsub (s:=S_) (W:=scalar) f0 (fv (s:=S_) (W:=scalar) (13421773 / 33554432)) - ((4/5 - Q4 X Y Z W) / 2 - 2/5) <= 2/10000000) by (sunf; lra).
  assert (HB : - (2/10000000) <= fsub (s:=S_) (W:=scalar) f0 (fv (s:=S_) (W:=scalar) (5033165 / 8388608)) - ((4/5 - Q4 X Y Z W) / 2 - 3/5) <= 2/10000000) by (sunf; lra).
  constructor.
  { pose proof unskew4_bounds as U. pose proof (prod_small (unskew 4) (X + Y + Z + W) 4 (14/100) ltac:(lra) ltac:(lra)) as K.
    pose proof (prod_small (-9274217 / 67108864 - unskew 4) (X + Y + Z + W) 4 (4/1000000000) ltac:(lra) ltac:(lra)) as K'.
    exists n, m, l, o, (X + unskew 4 * (X + Y + Z + W)), (Y + unskew 4 * (X + Y + Z + W)), (Z + unskew 4 * (X + Y + Z + W)), (W + unskew 4 * (X + Y + Z + W)),
      (X + -9274217 / 67108864 * (X + Y + Z + W)), (Y + -9274217 / 67108864 * (X + Y + Z + W)), (Z + -9274217 / 67108864 * (X + Y + Z + W)), (W + -9274217 / 67108864 * (X + Y + Z + W)), (2 * f0).
    split; [reflexivity|]. split; [primes|]. split; [apply off4|]. split; [reflexivity|].
    repeat (split; [unfold D1; apply Rabs_le; clearbody X Y Z W; lra|]). split.
    - cbn [cf]. sunf. toR. field.
    - pose proof (sqlen4 x y z w n m l o) as SQ. rewrite off4 in SQ. cbv zeta in SQ. fold X Y Z W in SQ. unfold sqlen in SQ. cbn [map] in SQ. rewrite !sum_cons, sum_nil, Rplus_0_r, <- !Rplus_assoc in SQ.
      rewrite SQ. unfold D2. apply Rabs_le. unfold Rmax. destruct (Rle_dec _ _); lra. }
  constructor; [apply sc4_v1; assumption|].
  constructor; [apply sc4_v2; assumption|].
  constructor; [apply sc4_v3; assumption|].
  constructor; [apply sc4_v4; assumption|].
  constructor; [apply sc4_v5; assumption|].
  constructor; [apply sc4_v6; assumption|].
  constructor; [apply sc4_v7; assumption|].
  constructor; [apply sc4_v8; assumption|].
  constructor; [apply sc4_v9; assumption|].
  constructor; [apply sc4_v10; assumption|].
  constructor; [apply sc4_v11; assumption|].
  constructor; [apply sc4_v12; assumption|].
  constructor; [apply sc4_v13; assumption|].
  constructor; [apply sc4_v14; assumption|].
  constructor; [apply sc4_v15; assumption|].
  constructor.
Qed.
(** the list misses no vertex at a squared distance below 71/100 *)
Lemma pair_bound71 : forall a b c d e, 0 <= c -> 0 <= d -> 0 <= e -> a * a + b * b + c + d + e < 71/100 -> -1192/1000 < a - b < 1192/1000.
Proof. intros a b c d e Hc Hd He H. pose proof (Rle_0_sqr (a + b)) as P. unfold Rsqr in P. split; nra. Qed.
Ltac pkl := left; unfold Rltb; destruct (Rlt_dec _ _); cbn [sg]; first [reflexivity|exfalso; lra].
Ltac pkr := first [pkl | right; pkr].
Lemma ss4_code_reaching : forall n m l o (x y z w : R), cell4e DE (x - IZR n) (y - IZR m) (z - IZR l) (w - IZR o) ->
  let X := x - IZR n in let Y := y - IZR m in let Z := z - IZR l in let W := w - IZR o in let t := -13421773 / 67108864 * (X + Y + Z + W) in
  let nx := X + t in let ny := Y + t in let nz := Z + t in let nw := W + t in let ns := - t in
  reaching (71/100) (unskew 4) [x; y; z; w]
    (ss4_vertices n m l o (Rltb ns 0) (Rltb ns nw) (Rltb ns nz) (Rltb ns ny) (Rltb ns nx) (Rltb nx 0) (Rltb nx (- ny)) (Rltb nx (- nz)) (Rltb nx (- nw)) (Rltb ny 0) (Rltb ny (- nz)) (Rltb ny (- nw)) (Rltb nz 0) (Rltb nz (- nw)) (Rltb nw 0)).
Proof.
  intros n m l o x y z w HC X Y Z W t nx ny nz nw ns. split; [apply ss4_nodup|split].
  - intros v. unfold ss4_vertices. cbn [In]; intros C; repeat destruct C as [<-|C]; auto; contradiction.
  - intros [|a [|b [|c [|d [|? ?]]]]] L D; try discriminate L. clear L. rewrite sqlen4 in D.
    assert (exists i, a = (n + i)%Z) as [i ->] by (exists (a - n)%Z; lia). assert (exists j, b = (m + j)%Z) as [j ->] by (exists (b - m)%Z; lia). assert (exists k, c = (l + k)%Z) as [k ->] by (exists (c - l)%Z; lia). assert (exists h, d = (o + h)%Z) as [h ->] by (exists (d - o)%Z; lia).
    rewrite !plus_IZR in D. fold X Y Z W in HC.
    replace (x - (IZR n + IZR i)) with (X - IZR i) in D by (unfold X; ring). replace (y - (IZR m + IZR j)) with (Y - IZR j) in D by (unfold Y; ring). replace (z - (IZR l + IZR k)) with (Z - IZR k) in D by (unfold Z; ring). replace (w - (IZR o + IZR h)) with (W - IZR h) in D by (unfold W; ring).
    pose proof (cell4e_close X Y Z W HC) as (_ & HX & HY & HZ & HW & _).
    clearbody X Y Z W. pose proof (Q4_pos X Y Z W) as QP.
    unfold cell4e, DE in HC. cbv zeta in HC. set (s := (X + Y + Z + W) / 5) in *. assert (HS : X + Y + Z + W = 5 * s) by (unfold s; field). 
    assert (Hn : -2/100000000 <= ns - s <= 2/100000000 /\ -2/100000000 <= nx - (X - s) <= 2/100000000 /\ -2/100000000 <= ny - (Y - s) <= 2/100000000 /\ -2/100000000 <= nz - (Z - s) <= 2/100000000 /\ -2/100000000 <= nw - (W - s) <= 2/100000000).
    { unfold ns, nx, ny, nz, nw, t. rewrite HS. clear HS. clearbody s. repeat split; lra. }
    clearbody s nx ny nz nw ns. clear t.
    pose proof D as D'. rewrite Q4_diff in D'. set (q := (X - IZR i + (Y - IZR j) + (Z - IZR k) + (W - IZR h)) / 5) in D'.
    set (ax := X - IZR i - q) in *. set (ay := Y - IZR j - q) in *. set (az := Z - IZR k - q) in *. set (aw := W - IZR h - q) in *.
    pose proof (Rle_0_sqr ax) as Px. pose proof (Rle_0_sqr ay) as Py. pose proof (Rle_0_sqr az) as Pz. pose proof (Rle_0_sqr aw) as Pw. pose proof (Rle_0_sqr q) as Pq. unfold Rsqr in Px, Py, Pz, Pw, Pq.
    assert (-1192/1000 < ax - ay < 1192/1000) by (apply (pair_bound71 ax ay _ _ _ Pz Pw Pq); lra). assert (-1192/1000 < ax - az < 1192/1000) by (apply (pair_bound71 ax az _ _ _ Py Pw Pq); lra). assert (-1192/1000 < ax - aw < 1192/1000) by (apply (pair_bound71 ax aw _ _ _ Py Pz Pq); lra).
    assert (-1192/1000 < ay - az < 1192/1000) by (apply (pair_bound71 ay az _ _ _ Px Pw Pq); lra). assert (-1192/1000 < ay - aw < 1192/1000) by (apply (pair_bound71 ay aw _ _ _ Px Pz Pq); lra). assert (-1192/1000 < az - aw < 1192/1000) by (apply (pair_bound71 az aw _ _ _ Px Py Pq); lra).
    assert (-1192/1000 < ax - - q < 1192/1000) by (apply (pair_bound71 ax (- q) _ _ _ Py Pz Pw); lra). assert (-1192/1000 < ay - - q < 1192/1000) by (apply (pair_bound71 ay (- q) _ _ _ Px Pz Pw); lra). assert (-1192/1000 < az - - q < 1192/1000) by (apply (pair_bound71 az (- q) _ _ _ Px Py Pw); lra). assert (-1192/1000 < aw - - q < 1192/1000) by (apply (pair_bound71 aw (- q) _ _ _ Px Py Pz); lra).
    clear D' Px Py Pz Pw Pq. unfold ax, ay, az, aw in *. clear ax ay az aw.
    assert (Ri : (-2 < i < 2)%Z) by (split; apply lt_IZR; lra). assert (Rj : (-2 < j < 2)%Z) by (split; apply lt_IZR; lra). assert (Rk : (-2 < k < 2)%Z) by (split; apply lt_IZR; lra). assert (Rh : (-2 < h < 2)%Z) by (split; apply lt_IZR; lra).
    assert (Rij : (-2 < i - j < 2)%Z) by (split; apply lt_IZR; rewrite minus_IZR; lra). assert (Rik : (-2 < i - k < 2)%Z) by (split; apply lt_IZR; rewrite minus_IZR; lra). assert (Rih : (-2 < i - h < 2)%Z) by (split; apply lt_IZR; rewrite minus_IZR; lra).
    assert (Rjk : (-2 < j - k < 2)%Z) by (split; apply lt_IZR; rewrite minus_IZR; lra). assert (Rjh : (-2 < j - h < 2)%Z) by (split; apply lt_IZR; rewrite minus_IZR; lra). assert (Rkh : (-2 < k - h < 2)%Z) by (split; apply lt_IZR; rewrite minus_IZR; lra).
    assert (Ci : i = (-1)%Z \/ i = 0%Z \/ i = 1%Z) by lia. assert (Cj : j = (-1)%Z \/ j = 0%Z \/ j = 1%Z) by lia. assert (Ck : k = (-1)%Z \/ k = 0%Z \/ k = 1%Z) by lia. assert (Ch : h = (-1)%Z \/ h = 0%Z \/ h = 1%Z) by lia.
    clear Ri Rj Rk Rh. repeat match goal with H : -1192/1000 < _ < 1192/1000 |- _ => clear H end. clear q.
    destruct Ci as [->|[->| ->]], Cj as [->|[->| ->]], Ck as [->|[->| ->]], Ch as [->|[->| ->]]; try (exfalso; lia); clear Rij Rik Rih Rjk Rjh Rkh; rewrite ?Z.add_0_r; unfold ss4_vertices; cbn [In]; unfold Q4 in *.
    all: first [left; reflexivity | right; pkr].
Qed.
Lemma near_fold4 : forall ft seed r2 x y z w (cs : list (contrib S_ scalar)) vs, 0 < r2 <= 4/5 -> Forall2 (near_visit4 inf bits (1/2) r2 D1 D2 x y z w) cs vs -> forall acc acc' : R,
  Rabs (fold_left (fun value c => fmadd (s:=S_) (W:=scalar) (cf c) (ramp ft seed c) value) cs acc - (acc' + bumps r2 (unskew 4) seed [x; y; z; w] vs / 16)) <= Rabs (acc - acc') + INR (length cs) * (DT r2 / 16).
Proof.
  intros ft seed r2 x y z w cs vs Hr H. induction H as [|c v cs vs Hc H IH]; intros acc acc'.
  - unfold bumps. cbn [fold_left map length INR]. rewrite sum_nil. right. rewrite Rmult_0_l, Rplus_0_r. f_equal. field.
  - cbn [fold_left length]. rewrite S_INR. unfold bumps in *. cbn [map]. rewrite sum_cons.
    match goal with |- context [acc' + (?b + ?s) / 16] => replace (acc' + (b + s) / 16) with ((acc' + b / 16) + s / 16) by field end.
    eapply Rle_trans; [apply IH|]. pose proof (near_term4 inf bits ft seed (1/2) r2 x y z w c v Hr Hc) as T. replace ((1/2) ^ 4) with (1/16) in T by field.
    match goal with |- Rabs ?e + _ <= _ => replace e with ((acc - acc') + (fmul (s:=S_) (W:=scalar) (cf c) (ramp ft seed c) - 1/16 * bump r2 (unskew 4) seed [x; y; z; w] v)) by (sunf; toR; field) end.
    pose proof (Rabs_triang (acc - acc') (fmul (s:=S_) (W:=scalar) (cf c) (ramp ft seed c) - 1/16 * bump r2 (unskew 4) seed [x; y; z; w] v)). lra.
Qed.
Lemma near_acc4 : forall ft seed r2 x y z w (cs : list (contrib S_ scalar)) vs, 0 < r2 <= 4/5 -> Forall2 (near_visit4 inf bits (1/2) r2 D1 D2 x y z w) cs vs -> length cs = 16%nat ->
  Rabs (value_acc ft seed cs - bumps r2 (unskew 4) seed [x; y; z; w] vs / 16) <= DT r2.
Proof.
  intros ft seed r2 x y z w cs vs Hr H L. destruct H as [|c v cs vs Hc H]; [discriminate|]. cbn [value_acc]. cbn [length] in L. injection L as L.
  pose proof (near_fold4 ft seed r2 x y z w cs vs Hr H (fmul (s:=S_) (W:=scalar) (cf c) (ramp ft seed c)) (1/16 * bump r2 (unskew 4) seed [x; y; z; w] v)) as F. rewrite L in F.
  pose proof (near_term4 inf bits ft seed (1/2) r2 x y z w c v Hr Hc) as T. replace ((1/2) ^ 4) with (1/16) in T by field.
  unfold bumps in *. cbn [map]. rewrite sum_cons. match goal with |- context [(?b + ?s) / 16] => replace ((b + s) / 16) with (1/16 * b + s / 16) by field end.
  cbn [INR] in F. lra.
Qed.

(** ** C60, C67: SuperSimplex in 4D with the constants of the code *)
Theorem C60_supersimplex4_code : forall ft so (freq lo hi : R) (seed : Z) (x y z w : R), exists vs,
  reaching (71/100) (unskew 4) (skewed kSk4 freq [x; y; z; w]) vs /\
  Rabs (SuperSimplexGen (s:=S_) (W:=scalar) ft so freq (out_range inf bits lo hi) seed [x; y; z; w] -
        rescale lo hi (16 * kSuper 4) (bumps (4/5) (unskew 4) (z_add seed (s32 so)) (skewed kSk4 freq [x; y; z; w]) vs)) <= Rabs (hi - lo) / 2 / 200.
Proof.
  intros ft so freq lo hi seed x y z w.
  cbn [SuperSimplexGen]. unfold SuperSimplexGen4, slet.
  assert (B : (@kBoundSuper4 S_ : R) <> 0) by (rewrite kSS4; pose proof (kSuper_pos 4); lra).
  rewrite (ScaleOutput_eq _ _ _ _ _ _ B), kSS4.
  rewrite so_eq. rewrite skewed4. cbv zeta.
  change (x * freq) with (fmul (s:=S_) (W:=scalar) x (fv (s:=S_) (W:=scalar) freq)). change (y * freq) with (fmul (s:=S_) (W:=scalar) y (fv (s:=S_) (W:=scalar) freq)).
  change (z * freq) with (fmul (s:=S_) (W:=scalar) z (fv (s:=S_) (W:=scalar) freq)). change (w * freq) with (fmul (s:=S_) (W:=scalar) w (fv (s:=S_) (W:=scalar) freq)).
  generalize (fmul (s:=S_) (W:=scalar) x (fv (s:=S_) (W:=scalar) freq)) (fmul (s:=S_) (W:=scalar) y (fv (s:=S_) (W:=scalar) freq)) (fmul (s:=S_) (W:=scalar) z (fv (s:=S_) (W:=scalar) freq)) (fmul (s:=S_) (W:=scalar) w (fv (s:=S_) (W:=scalar) freq)).
  clear x y z w. intros X Y Z W.
  unfold supersimplex4, slet. change (ss4_kSkew (@ss4k_code S_)) with (@lit S_ 5184445 (- (24))). rewrite litR by lia. change (IZR (2 ^ 24)) with 16777216. fold kSk4.
  change (fmul (s:=S_) (W:=scalar) (fv (s:=S_) (W:=scalar) kSk4) (fadd (s:=S_) (W:=scalar) (fadd (s:=S_) (W:=scalar) (fadd (s:=S_) (W:=scalar) X Y) Z) W)) with (kSk4 * (X + Y + Z + W)).
  change (fadd (s:=S_) (W:=scalar) X (kSk4 * (X + Y + Z + W))) with (X + kSk4 * (X + Y + Z + W)). change (fadd (s:=S_) (W:=scalar) Y (kSk4 * (X + Y + Z + W))) with (Y + kSk4 * (X + Y + Z + W)).
  change (fadd (s:=S_) (W:=scalar) Z (kSk4 * (X + Y + Z + W))) with (Z + kSk4 * (X + Y + Z + W)). change (fadd (s:=S_) (W:=scalar) W (kSk4 * (X + Y + Z + W))) with (W + kSk4 * (X + Y + Z + W)).
  generalize (X + kSk4 * (X + Y + Z + W)) (Y + kSk4 * (X + Y + Z + W)) (Z + kSk4 * (X + Y + Z + W)) (W + kSk4 * (X + Y + Z + W)). clear X Y Z W. intros x y z w.
  unfold prX, prY, prZ, prW. rewrite !move_p, !move_d, !frac0, near4c_eq.
  assert (C : let X := x - IZR (Rfloor x) in let Y := y - IZR (Rfloor y) in let Z := z - IZR (Rfloor z) in let W := w - IZR (Rfloor w) in let t := 13421773 / 67108864 * (X + Y + Z + W) in
    let b := near4c (5033165 / 8388608) (13421773 / 67108864) t (X - t) (Y - t) (Z - t) (W - t) in cell4e DE (X - IZR (bit b 1)) (Y - IZR (bit b 2)) (Z - IZR (bit b 4)) (W - IZR (bit b 8))).
  { pose proof (Rfloor_spec x). pose proof (Rfloor_spec y). pose proof (Rfloor_spec z). pose proof (Rfloor_spec w). intros. apply near4c_spec; unfold X, Y, Z, W; lra. }
  cbv zeta in C. set (b := near4c _ _ _ _ _ _ _) in *. clearbody b.
  rewrite !(bitb b 1), !(bitb b 2), !(bitb b 4), !(bitb b 8) by reflexivity.
  assert (G : forall p c, p - IZR (Rfloor p + c) = p - IZR (Rfloor p) - IZR c) by (intros; rewrite plus_IZR; ring). rewrite <- !G in C. clear G.
  set (n := (Rfloor x + bit b 1)%Z) in *. set (m := (Rfloor y + bit b 2)%Z) in *. set (l := (Rfloor z + bit b 4)%Z) in *. set (o := (Rfloor w + bit b 8)%Z) in *. clearbody n m l o.
  pose proof (ss4_code_visits n m l o x y z w C) as V. pose proof (ss4_code_reaching n m l o x y z w C) as H. cbv zeta in V, H.
  eexists. split; [exact H|]. rewrite <- rescale16 by apply kSuper_pos.
  eapply Rle_trans; [apply (rescale_close lo hi (kSuper 4) _ _ (DT (4/5))); [apply kSuper_pos|]|].
  2: { replace (Rabs (hi - lo) / 2 / 200) with (Rabs (hi - lo) * (1 / 400)) by field. apply Rmult_le_compat_l; [apply Rabs_pos|]. unfold kSuper, DT. lra. }
  apply near_acc4; [lra|exact V|reflexivity].
Qed.
Theorem C67_supersimplex4 : forall ft so (freq lo hi : R) (seed : Z) (x y z w : R), in_range (1/18) lo hi (SuperSimplexGen (s:=S_) (W:=scalar) ft so freq (out_range inf bits lo hi) seed [x; y; z; w]).
Proof.
  intros. destruct (C60_supersimplex4_code ft so freq lo hi seed x y z w) as (vs & A & C).
  assert (Lq : length (skewed kSk4 freq [x; y; z; w]) = 4%nat) by reflexivity. apply reaching_distinct in A. rewrite Lq in A.
  pose proof (rescale_range (1/20) lo hi (16 * kSuper 4) _ ltac:(pose proof (kSuper_pos 4); lra) (ss4_bumps (z_add seed (s32 so)) _ vs Lq A)) as I0.
  assert (N : in_range (1/20 + 1/200) lo hi (SuperSimplexGen (s:=S_) (W:=scalar) ft so freq (out_range inf bits lo hi) seed [x; y; z; w])).
  { eapply in_range_near; [exact I0|]. eapply Rle_trans; [exact C|]. right. field. }
  unfold in_range in *. eapply Rle_trans; [exact N|]. pose proof (Rabs_pos (hi - lo)). lra.
Qed.
End S4.
Print Assumptions C60_supersimplex4_code.
Print Assumptions C67_supersimplex4.
(** a concrete case: frequency 0.02, the default range -1 to 1, position (100, 250, -3, 7.5) *)
Example C67_supersimplex4_case : forall inf bits ft, -1.056 <= SuperSimplexGen (s:=Rops inf bits) (W:=scalar) ft 0%Z 0.02 (out_range inf bits (-1) 1) 1337%Z [100; 250; -3; 7.5] <= 1.056.
Proof. intros. pose proof (C67_supersimplex4 inf bits ft 0%Z 0.02 (-1) 1 1337%Z 100 250 (-3) 7.5) as H. apply C67_meaning in H; lra. Qed.
