(** The 2D nodes over the reals, with the exact values of the constants. *)
From Coq Require Import Reals ZArith List Bool Lia Lra Psatz.
From Verif Require Import Prelude Simd_Model Utils_Model Nodes_Model Setters_Model Simd_R Bits P_Hash P_Grad P_Blend P_Lattice Lattice Simplex_Model Simplex_Spec Simplex_Geom.
Import ListNotations.
Open Scope R_scope.

Lemma sqrt3_sq : sqrt 3 * sqrt 3 = 3. Proof. apply sqrt_sqrt. lra. Qed.
Lemma sqrt3_pos : 0 < sqrt 3. Proof. apply sqrt_lt_R0. lra. Qed.
Lemma unskew2_eq : 6 * unskew 2 * unskew 2 + 6 * unskew 2 + 1 = 0.
Proof.
  cbn [unskew]. pose proof sqrt3_pos. pose proof sqrt3_sq. set (t := sqrt 3) in *.
  replace (6 * (- (1) / (t + 3)) * (- (1) / (t + 3)) + 6 * (- (1) / (t + 3)) + 1) with ((t * t - 3) / ((t + 3) * (t + 3))) by (field; lra).
  rewrite H0. field. lra.
Qed.
(** squared distances *)
Lemma sqlen2 : forall X Y a b, sqlen (offset (unskew 2) [X; Y] [a; b]) =
  2 / 3 * ((X - IZR a) * (X - IZR a) - (X - IZR a) * (Y - IZR b) + (Y - IZR b) * (Y - IZR b)).
Proof.
  intros. unfold sqlen, offset. cbn [offs map]. rewrite !sum_cons, sum_nil. generalize (X - IZR a) (Y - IZR b). intros x y.
  pose proof unskew2_eq as E. set (u := unskew 2) in *.
  replace (2 / 3 * (x * x - x * y + y * y)) with ((x + u * (x + (y + 0))) * (x + u * (x + (y + 0))) + ((y + u * (x + (y + 0))) * (y + u * (x + (y + 0))) + 0) - (6 * u * u + 6 * u + 1) * ((x + y) * (x + y) / 3)) by field.
  rewrite E. ring.
Qed.

Lemma cont_bump2 : forall r2 u seed a b f g xs, continuous_at f xs -> continuous_at g xs ->
  continuous_at (fun ys => bump r2 u seed [f ys; g ys] [a; b]) xs.
Proof.
  intros r2 u seed a b f g xs Hf Hg.
  assert (A : continuous_at (fun ys => f ys - IZR a) xs) by (apply cont_minus; auto using cont_const).
  assert (B : continuous_at (fun ys => g ys - IZR b) xs) by (apply cont_minus; auto using cont_const).
  assert (S : continuous_at (fun ys => u * (f ys - IZR a + (g ys - IZR b + 0))) xs) by (repeat first [apply cont_mult | apply cont_plus | apply cont_const | assumption]).
  assert (A' : continuous_at (fun ys => f ys - IZR a + u * (f ys - IZR a + (g ys - IZR b + 0))) xs) by (apply cont_plus; auto).
  assert (B' : continuous_at (fun ys => g ys - IZR b + u * (f ys - IZR a + (g ys - IZR b + 0))) xs) by (apply cont_plus; auto).
  unfold bump, falloff, sqlen, offset. cbn [offs map]. cbn [sum fold_right].
  apply cont_mult.
  - apply cont_pow, cont_max0. apply cont_minus; [apply cont_const|]. repeat first [apply cont_plus | apply cont_const | apply cont_mult; assumption].
  - unfold perlin_corner, dot2. repeat first [apply cont_plus | apply cont_mult | apply cont_const | assumption].
Qed.

(** all vertices that reach a position near x, y *)
Definition box1 (n : Z) : list Z := map (fun k => (n + Z.of_nat k - 4)%Z) (seq 0 9).
Lemma box1_in : forall n a, (n - 4 <= a <= n + 4)%Z -> In a (box1 n).
Proof. intros n a H. unfold box1. apply in_map_iff. exists (Z.to_nat (a - n + 4)). split; [lia|]. apply in_seq. lia. Qed.
Lemma NoDup_map_inj : forall {A B} (f : A -> B) l, (forall x y, f x = f y -> x = y) -> NoDup l -> NoDup (map f l).
Proof.
  intros A B f l H N. induction N; cbn [map]; constructor; auto. intros C. apply in_map_iff in C as (y & E & I). apply H in E. subst. contradiction.
Qed.
Lemma box1_nodup : forall n, NoDup (box1 n).
Proof. intros. unfold box1. apply NoDup_map_inj; [intros; lia|apply seq_NoDup]. Qed.
Lemma NoDup_flat : forall {A B} (f : A -> list B) l, NoDup l -> (forall a, In a l -> NoDup (f a)) ->
  (forall a b x, In a l -> In b l -> In x (f a) -> In x (f b) -> a = b) -> NoDup (flat_map f l).
Proof.
  intros A B f l N. induction N as [|a l Ha N IH]; intros H1 H2; cbn [flat_map]; [constructor|].
  assert (NoDup (flat_map f l)) as NF by (apply IH; [intros; apply H1; right; auto|intros; eapply H2; eauto; right; auto]).
  assert (D : forall x, In x (f a) -> ~ In x (flat_map f l)).
  { intros x I C. apply in_flat_map in C as (b & Ib & Ix). assert (a = b) by (eapply H2; eauto; [left|right]; auto). subst. contradiction. }
  assert (NoDup (f a)) as Nf by (apply H1; left; auto). revert D. induction Nf as [|x m Hx Nm IHm]; intros D; cbn [app]; auto.
  constructor; [|apply IHm; intros; apply D; right; auto]. intros C. apply in_app_iff in C as [C|C]; [contradiction|]. eapply D; [left; reflexivity|]. auto.
Qed.
Fixpoint box (ns : list Z) : list (list Z) :=
  match ns with [] => [[]] | n :: ns' => flat_map (fun a => map (cons a) (box ns')) (box1 n) end.
Lemma box_nodup : forall ns, NoDup (box ns).
Proof.
  induction ns as [|n ns IH]; cbn [box]; [repeat constructor; auto|]. apply NoDup_flat; [apply box1_nodup| |].
  - intros. apply NoDup_map_inj; auto. intros x y E. inversion E. auto.
  - intros a b x _ _ I J. apply in_map_iff in I as (v & <- & _). apply in_map_iff in J as (w & E & _). inversion E. auto.
Qed.
Lemma box_in : forall ns v, Forall2 (fun n a => (n - 4 <= a <= n + 4)%Z) ns v -> In v (box ns).
Proof.
  intros ns v H. induction H; cbn [box]; [left; auto|]. apply in_flat_map. exists y. split; [apply box1_in; auto|]. apply in_map. auto.
Qed.
Lemma box_length : forall ns v, In v (box ns) -> length v = length ns.
Proof.
  induction ns as [|n ns IH]; cbn [box]; intros v H; [destruct H as [<-|[]]; auto|]. apply in_flat_map in H as (a & _ & H).
  apply in_map_iff in H as (w & <- & I). cbn [length]. f_equal. auto.
Qed.
Lemma IZR_floor_close : forall X x (a : Z) d, Rabs (X - x) < 1 -> Rabs (X - IZR a) <= d -> d < 2 -> (Rfloor x - 4 <= a <= Rfloor x + 4)%Z.
Proof.
  intros X x a d H1 H2 H3. pose proof (Rfloor_spec x). apply Rabs_def2 in H1. assert (- d <= X - IZR a <= d) by (revert H2; unfold Rabs; destruct (Rcase_abs _); lra).
  split; apply le_IZR; rewrite ?plus_IZR, ?minus_IZR; lra.
Qed.
Lemma box2_reaching : forall r2 x y X Y, r2 <= 2/3 -> Rabs (X - x) < 1 -> Rabs (Y - y) < 1 ->
  reaching r2 (unskew 2) [X; Y] (box [Rfloor x; Rfloor y]).
Proof.
  intros r2 x y X Y Hr HX HY. split; [apply box_nodup|]. split; [intros v H; rewrite (box_length _ _ H); reflexivity|].
  intros [|a [|b [|? ?]]] L D; try discriminate L. rewrite sqlen2 in D. apply box_in.
  set (p := X - IZR a) in *. set (q := Y - IZR b) in *.
  assert (P : p * p <= 4 / 3) by (pose proof (Rle_0_sqr (q - p / 2)) as S; unfold Rsqr in S; lra).
  assert (Q : q * q <= 4 / 3) by (pose proof (Rle_0_sqr (p - q / 2)) as S; unfold Rsqr in S; lra).
  assert (Rabs p <= 3/2) by (apply Rabs_le; split; nra). assert (Rabs q <= 3/2) by (apply Rabs_le; split; nra).
  repeat constructor; eapply IZR_floor_close; eauto; lra.
Qed.

Ltac zr := unfold z_add, z_sub, z_mul; rewrite ?s32_idem_add_l, ?s32_idem_add_r, ?s32_idem_sub_l, ?s32_idem_sub_r, ?s32_idem_add_l, ?s32_idem_add_r, ?s32_idem_sub_l, ?s32_idem_sub_r; f_equal; ring.
Ltac primes := cbn [primed PrimesLookup]; unfold prX, prY, prZ, prW, fneg_if, iinvmasked_sub; sunf; repeat (apply (f_equal2 cons)); try reflexivity; zr.
Ltac reals := unfold fneg_if; sunf; cbn [negb Z.opp]; rlit; repeat (apply (f_equal2 cons)); try reflexivity; toR; try ring; try field.

Section S2.
Variable inf : R.
Variable bits : R -> Z.
Notation S_ := (Rops inf bits).

(** the constants of Simplex 2D before rounding to float, with skew factor [k] *)
Definition sx2k_exact (k : R) : sx2k S_ := {|
  sx2_kSkew := (k : V S_);
  sx2_kU := (unskew 2 : V S_);
  sx2_kU1 := (unskew 2 + 1 : V S_);
  sx2_k2U1 := (unskew 2 * 2 + 1 : V S_);
  sx2_kFall := (- (4) * (sqrt 3 + 2) / (sqrt 3 + 3) : V S_);
  sx2_kM := (- (2) / 3 : V S_) |}.
Lemma kFall2 : unskew 2 * (- (4) * (sqrt 3 + 2) / (sqrt 3 + 3)) = 2 / 3.
Proof.
  cbn [unskew]. pose proof sqrt3_pos. pose proof sqrt3_sq. set (t := sqrt 3) in *.
  replace (- (1) / (t + 3) * (- (4) * (t + 2) / (t + 3))) with (4 * (t + 2) / (t * t + 6 * t + 9)) by (field; nra).
  rewrite H0. field. lra.
Qed.

(** a visited vertex, as computed by the code, and what it should be *)
Definition visits (r2 u : R) (qs : list R) (c : contrib S_ scalar) (v : list Z) : Prop :=
  cp c = primed PrimesLookup v /\ (cd c : list R) = offset u qs v /\ (cf c : R) = falloff r2 (offset u qs v).
Lemma ramp_eq : forall ft seed (c : contrib S_ scalar) r2 u qs v, (2 <= length qs <= 4)%nat -> length v = length qs -> visits r2 u qs c v ->
  ramp ft seed c = perlin_corner seed v (offset u qs v).
Proof.
  intros ft seed c r2 u qs v Hd Hl (Hp & Ho & _). unfold ramp. rewrite Hp.
  assert (length (offset u qs v) = length qs) as E.
  { unfold offset. rewrite map_length. clear Hp Ho Hd. revert v Hl. induction qs as [|q qs IH]; intros [|a v] H; try discriminate; auto. cbn [offs length]. f_equal. apply IH. auto. }
  change (cd c) with (cd c : list R). rewrite Ho. unfold perlin_corner, hash31.
  destruct (offset u qs v) as [|x [|y [|z [|w [|? ?]]]]]; cbn [length] in E; try lia; [apply C32_perlin2|apply C32_common|apply C32_perlin4].
Qed.

Lemma visits_intro : forall r2 u qs v p (d : list R) (f g : R), p = primed PrimesLookup v -> d = offset u qs v ->
  g = r2 - sqlen (offset u qs v) -> f = (Rmax 0 g) ^ 4 -> visits r2 u qs (@mkc S_ scalar p d f) v.
Proof. intros. subst. unfold visits. auto. Qed.

Lemma prime_inc : forall n p, iadd (W:=scalar) (z_mul n p) (iv (W:=scalar) p) = z_mul (n + 1) p.
Proof. intros. sunf. rewrite <- (mul_prime n p). apply next_prime. Qed.
Definition sx2_vertices (n m : Z) (ge : bool) : list (list Z) :=
  [[n; m]; (if ge then [n + 1; m] else [n; m + 1])%Z; [n + 1; m + 1]%Z].
Lemma quart : forall g : R, fmul (s:=S_) (W:=scalar) (fmul (s:=S_) (W:=scalar) (fmax (s:=S_) (W:=scalar) g (num (s:=S_) (W:=scalar) 0)) (fmax (s:=S_) (W:=scalar) g (num (s:=S_) (W:=scalar) 0))) (fmul (s:=S_) (W:=scalar) (fmax (s:=S_) (W:=scalar) g (num (s:=S_) (W:=scalar) 0)) (fmax (s:=S_) (W:=scalar) g (num (s:=S_) (W:=scalar) 0))) = Rmax 0 g ^ 4.
Proof. intros. sunf. rewrite Rmult_0_l, (Rmax_comm g 0). toR. ring. Qed.
Lemma Rleb_le : forall x y, Rleb x y = true -> x <= y. Proof. intros x y. unfold Rleb. destruct (Rle_dec x y); auto; discriminate. Qed.
Lemma Rleb_gt : forall x y, Rleb x y = false -> y < x. Proof. intros x y. unfold Rleb. destruct (Rle_dec x y); [discriminate|intros; lra]. Qed.
Lemma sx2_at_visits : forall k n m (x y : R),
  Forall2 (visits (1/2) (unskew 2) [x; y])
    (simplex2_at (s:=S_) (W:=scalar) (sx2k_exact k) (z_mul n PrimeX) (z_mul m PrimeY) (x - IZR n) (y - IZR m))
    (sx2_vertices n m (Rleb (y - IZR m) (x - IZR n))).
Proof.
  intros k n m x y. unfold simplex2_at, slet, sx2_vertices.
  change (fge (s:=S_) (W:=scalar) (x - IZR n) (y - IZR m)) with (Rleb (y - IZR m) (x - IZR n)).
  pose proof kFall2 as KF. pose proof unskew2_eq as UE. cbn [sx2k_exact sx2_kSkew sx2_kU sx2_kU1 sx2_k2U1 sx2_kFall sx2_kM].
  set (u := unskew 2) in *. set (kf := - (4) * (sqrt 3 + 2) / (sqrt 3 + 3)) in *. clearbody u kf.
  assert (O2 : forall a b x y, offset u [x; y] [a; b] = [x - IZR a + u * (x - IZR a + (y - IZR b)); y - IZR b + u * (x - IZR a + (y - IZR b))]).
  { intros. unfold offset. cbn [offs map]. rewrite !sum_cons, sum_nil, Rplus_0_r. reflexivity. }
  constructor; [|constructor; [|constructor; [|constructor]]].
  - eapply visits_intro; [reflexivity| |reflexivity|].
    + rewrite O2. sunf. reflexivity.
    + refine (eq_trans (quart _) _). f_equal. f_equal. rewrite O2. unfold sqlen. cbn [map]. rewrite !sum_cons, sum_nil. sunf. cbn [negb]. rlit. toR. field.
  - destruct (Rleb (y - IZR m) (x - IZR n)); (eapply visits_intro; [cbn [primed PrimesLookup]; rewrite <- prime_inc; reflexivity| |reflexivity|]).
    + rewrite O2, plus_IZR. sunf. cbn [negb]. rlit. apply (f_equal2 cons); [|apply (f_equal2 cons); [|reflexivity]]; toR; ring.
    + refine (eq_trans (quart _) _). f_equal. f_equal. rewrite O2, plus_IZR. unfold sqlen. cbn [map]. rewrite !sum_cons, sum_nil. sunf. cbn [negb]. rlit. toR. field.
    + rewrite O2, plus_IZR. sunf. cbn [negb]. rlit. apply (f_equal2 cons); [|apply (f_equal2 cons); [|reflexivity]]; toR; ring.
    + refine (eq_trans (quart _) _). f_equal. f_equal. rewrite O2, plus_IZR. unfold sqlen. cbn [map]. rewrite !sum_cons, sum_nil. sunf. cbn [negb]. rlit. toR. field.
  - eapply visits_intro; [cbn [primed PrimesLookup]; rewrite <- !prime_inc; reflexivity| |reflexivity|].
    + rewrite O2, !plus_IZR. sunf. cbn [negb]. rlit. apply (f_equal2 cons); [|apply (f_equal2 cons); [|reflexivity]]; toR; ring.
    + refine (eq_trans (quart _) _). f_equal. f_equal. rewrite O2, !plus_IZR. unfold sqlen. cbn [map]. rewrite !sum_cons, sum_nil. sunf. cbn [negb]. rlit.
      set (a := x - IZR n). set (b := y - IZR m). replace (x - (IZR n + 1)) with (a - 1) by (unfold a; ring). replace (y - (IZR m + 1)) with (b - 1) by (unfold b; ring).
      clearbody a b. toR. replace (u * (a + b) * kf) with (2 / 3 * (a + b)) by (rewrite <- KF; ring).
      apply Rminus_diag_uniq. match goal with |- ?e = 0 => replace e with (- (4 / 3) * (6 * u * u + 6 * u + 1) * (a + b - 1)) by field end. rewrite UE. ring.
Qed.
Lemma sx2_reaching : forall x y, reaching (1/2) (unskew 2) [x; y] (sx2_vertices (Rfloor x) (Rfloor y) (Rleb (y - IZR (Rfloor y)) (x - IZR (Rfloor x)))).
Proof.
  intros x y. pose proof (Rfloor_spec x). pose proof (Rfloor_spec y). set (n := Rfloor x) in *. set (m := Rfloor y) in *.
  split; [|split].
  - unfold sx2_vertices. destruct (Rleb _ _); repeat (constructor; [intros C; cbn [In] in C; repeat destruct C as [C|C]; try contradiction; injection C; lia|]); constructor.
  - intros v. unfold sx2_vertices. destruct (Rleb _ _); cbn [In]; intros C; repeat destruct C as [<-|C]; auto; contradiction.
  - intros [|a [|b [|? ?]]] L D; try discriminate L. clear L. rewrite sqlen2 in D. set (p := x - IZR a) in *. set (q := y - IZR b) in *.
    assert (P : p * p < 1) by (pose proof (Rle_0_sqr (q - p / 2)) as S; unfold Rsqr in S; lra).
    assert (Q : q * q < 1) by (pose proof (Rle_0_sqr (p - q / 2)) as S; unfold Rsqr in S; lra).
    assert (PQ : (p - q) * (p - q) < 1) by (pose proof (Rle_0_sqr (p + q)) as S; unfold Rsqr in S; lra).
    assert (P' : -1 < p < 1) by (split; nra). assert (Q' : -1 < q < 1) by (split; nra). assert (PQ' : -1 < p - q < 1) by (split; nra).
    unfold p, q in *.
    assert (Ha : (n <= a <= n + 1)%Z) by (split; [apply (fun H => Zlt_succ_le _ _ H); apply lt_IZR; rewrite succ_IZR; lra|apply (fun H => Zlt_succ_le _ _ H); apply lt_IZR; rewrite succ_IZR, plus_IZR; lra]).
    assert (Hb : (m <= b <= m + 1)%Z) by (split; [apply (fun H => Zlt_succ_le _ _ H); apply lt_IZR; rewrite succ_IZR; lra|apply (fun H => Zlt_succ_le _ _ H); apply lt_IZR; rewrite succ_IZR, plus_IZR; lra]).
    assert (Ca : a = n \/ a = (n + 1)%Z) by lia. assert (Cb : b = m \/ b = (m + 1)%Z) by lia. clear Ha Hb.
    unfold sx2_vertices. destruct (Rleb _ _) eqn:E; [apply Rleb_le in E|apply Rleb_gt in E].
    + destruct Ca as [->| ->], Cb as [->| ->]; cbn [In]; auto. exfalso. rewrite plus_IZR in *. lra.
    + destruct Ca as [->| ->], Cb as [->| ->]; cbn [In]; auto. exfalso. rewrite plus_IZR in *. lra.
Qed.

(** ** SuperSimplex *)
Definition ss2k_exact (k : R) : ss2k S_ := {|
  ss2_kSkew := (k : V S_);
  ss2_kU := (unskew 2 : V S_);
  ss2_kR := (2 / 3 : V S_);
  ss2_k2U1 := (2 * unskew 2 + 1 : V S_);
  ss2_kFall := (- (4) * (sqrt 3 + 2) / (sqrt 3 + 3) : V S_);
  ss2_kU1 := (unskew 2 + 1 : V S_);
  ss2_kmU := (- unskew 2 : V S_);
  ss2_k2U := (2 * unskew 2 : V S_) |}.
Definition ss2_vertices (n m : Z) (fxy fx fy : bool) : list (list Z) :=
  [[n; m]; [n + 1; m + 1];
   (if fxy then if fx then [n + 2; m + 1] else [n; m + 1] else if fx then [n + 1; m] else [n - 1; m]);
   (if fxy then if fy then [n + 1; m + 2] else [n + 1; m] else if fy then [n; m + 1] else [n; m - 1])]%Z.
Lemma quart0 : forall g : R, 0 <= g -> fmul (s:=S_) (W:=scalar) (fmul (s:=S_) (W:=scalar) g g) (fmul (s:=S_) (W:=scalar) g g) = Rmax 0 g ^ 4.
Proof. intros. rewrite Rmax_right by auto. sunf. toR. ring. Qed.
Lemma ss2_at_visits : forall k n m (x y : R), 0 <= x - IZR n < 1 -> 0 <= y - IZR m < 1 ->
  let fxy := Rltb 1 (x - IZR n + (y - IZR m)) in let bnd := if fxy then -1 else 0 in
  Forall2 (visits (2/3) (unskew 2) [x; y])
    (supersimplex2_at (s:=S_) (W:=scalar) (ss2k_exact k) (z_mul n PrimeX) (z_mul m PrimeY) (x - IZR n) (y - IZR m))
    (ss2_vertices n m fxy (Rltb ((x - IZR n) * -2 + (y - IZR m)) bnd) (Rltb ((y - IZR m) * -2 + (x - IZR n)) bnd)).
Proof.
  intros k n m x y HX HY fxy bnd. pose proof (fun a b => sqlen2 x y a b) as SQ. unfold supersimplex2_at, supersimplex2_v1, supersimplex2_v2, supersimplex2_v3, slet, ss2_vertices.
  replace (fgt (s:=S_) (W:=scalar) _ _) with fxy by (unfold fxy; sunf; rlit; reflexivity).
  replace (flt (s:=S_) (W:=scalar) (fmadd (s:=S_) (W:=scalar) (x - IZR n) _ _) _) with (Rltb ((x - IZR n) * -2 + (y - IZR m)) bnd) by (unfold bnd; sunf; rlit; destruct fxy; rewrite ?Rmult_0_l; reflexivity).
  replace (flt (s:=S_) (W:=scalar) (fmadd (s:=S_) (W:=scalar) (y - IZR m) _ _) _) with (Rltb ((y - IZR m) * -2 + (x - IZR n)) bnd) by (unfold bnd; sunf; rlit; destruct fxy; rewrite ?Rmult_0_l; reflexivity).
  generalize (Rltb ((x - IZR n) * -2 + (y - IZR m)) bnd) (Rltb ((y - IZR m) * -2 + (x - IZR n)) bnd). clearbody fxy. clear bnd. intros fx fy.
  pose proof kFall2 as KF. pose proof unskew2_eq as UE. cbn [ss2k_exact ss2_kSkew ss2_kU ss2_kR ss2_k2U1 ss2_kFall ss2_kU1 ss2_kmU ss2_k2U].
  set (u := unskew 2) in *. set (kf := - (4) * (sqrt 3 + 2) / (sqrt 3 + 3)) in *. clearbody u kf.
  assert (O2 : forall a b x y, offset u [x; y] [a; b] = [x - IZR a + u * (x - IZR a + (y - IZR b)); y - IZR b + u * (x - IZR a + (y - IZR b))]).
  { intros. unfold offset. cbn [offs map]. rewrite !sum_cons, sum_nil, Rplus_0_r. reflexivity. }
  set (a := x - IZR n) in *. set (b := y - IZR m) in *.
  assert (XN : forall k, x - IZR (n + k) = a - IZR k) by (intros; unfold a; rewrite plus_IZR; ring).
  assert (YN : forall k, y - IZR (m + k) = b - IZR k) by (intros; unfold b; rewrite plus_IZR; ring).
  assert (SL : forall p q, sqlen [p; q] = p * p + q * q) by (intros; unfold sqlen; cbn [map]; rewrite !sum_cons, sum_nil; ring).
  constructor; [|constructor; [|constructor; [|constructor; [|constructor]]]].
  - eapply visits_intro; [primes| |reflexivity|].
    + rewrite O2. fold a b. reals.
    + assert (G : 2/3 - sqlen (offset u [x; y] [n; m]) = fnmadd (s:=S_) (W:=scalar) (a + u * (a + b)) (a + u * (a + b)) (fnmadd (s:=S_) (W:=scalar) (b + u * (a + b)) (b + u * (a + b)) (2/3))).
      { rewrite O2, SL. fold a b. reals. }
      rewrite G. apply (quart0 _). eapply Rle_trans; [|apply (Req_le _ _ G)]. rewrite SQ. fold a b. nra.
  - eapply visits_intro; [primes| |reflexivity|].
    + rewrite O2, XN, YN. reals.
    + assert (G : 2/3 - sqlen (offset u [x; y] [(n + 1)%Z; (m + 1)%Z]) = fmadd (s:=S_) (W:=scalar) (u * (a + b)) kf (fsub (s:=S_) (W:=scalar) (fnmadd (s:=S_) (W:=scalar) (a + u * (a + b)) (a + u * (a + b)) (fnmadd (s:=S_) (W:=scalar) (b + u * (a + b)) (b + u * (a + b)) (2/3))) (2/3))).
      { rewrite O2, SL, XN, YN. sunf. toR. replace (u * (a + b) * kf) with (2 / 3 * (a + b)) by (rewrite <- KF; ring).
        apply Rminus_diag_uniq. match goal with |- ?e = 0 => replace e with ((4 / 3) * (6 * u * u + 6 * u + 1) * (a + b - 1)) by field end. rewrite UE. ring. }
      rewrite G. apply (quart0 _). eapply Rle_trans; [|apply (Req_le _ _ G)]. rewrite SQ, XN, YN. nra.
  - destruct fxy, fx; (eapply visits_intro; [primes| |reflexivity|refine (eq_trans (quart _) _); f_equal; f_equal; rewrite O2, SL]); rewrite ?O2; unfold Z.sub; rewrite ?XN, ?YN; fold a b; reals.
  - destruct fxy, fy; (eapply visits_intro; [primes| |reflexivity|refine (eq_trans (quart _) _); f_equal; f_equal; rewrite O2, SL]); rewrite ?O2; unfold Z.sub; rewrite ?XN, ?YN; fold a b; reals.
Qed.

Lemma ss2_reaching : forall x y, let n := Rfloor x in let m := Rfloor y in
  let fxy := Rltb 1 (x - IZR n + (y - IZR m)) in let bnd := if fxy then -1 else 0 in
  reaching (2/3) (unskew 2) [x; y] (ss2_vertices n m fxy (Rltb ((x - IZR n) * -2 + (y - IZR m)) bnd) (Rltb ((y - IZR m) * -2 + (x - IZR n)) bnd)).
Proof.
  intros x y n m fxy bnd. pose proof (Rfloor_spec x) as Hx. pose proof (Rfloor_spec y) as Hy. fold n in Hx. fold m in Hy. clearbody n m.
  split; [|split].
  - unfold ss2_vertices. destruct fxy, (Rltb _ _), (Rltb _ _); repeat (constructor; [intros C; cbn [In] in C; repeat destruct C as [C|C]; try contradiction; injection C; lia|]); constructor.
  - intros v. unfold ss2_vertices. destruct fxy, (Rltb _ _), (Rltb _ _); cbn [In]; intros C; repeat destruct C as [<-|C]; auto; contradiction.
  - intros [|a [|b [|? ?]]] L D; try discriminate L. clear L. rewrite sqlen2 in D. 
    assert (exists i, a = (n + i)%Z) as [i ->] by (exists (a - n)%Z; lia). assert (exists j, b = (m + j)%Z) as [j ->] by (exists (b - m)%Z; lia).
    rewrite !plus_IZR in D. 
    replace (x - (IZR n + IZR i)) with (x - IZR n - IZR i) in D by ring. replace (y - (IZR m + IZR j)) with (y - IZR m - IZR j) in D by ring.
    set (X := x - IZR n) in *. set (Y := y - IZR m) in *. assert (0 <= X < 1) by (unfold X; lra). assert (0 <= Y < 1) by (unfold Y; lra). clearbody X Y. clear Hx Hy x y.
    set (p := X - IZR i) in *. set (q := Y - IZR j) in *.
    assert (P : p * p < 4 / 3) by (pose proof (Rle_0_sqr (q - p / 2)) as S; unfold Rsqr in S; lra).
    assert (Q : q * q < 4 / 3) by (pose proof (Rle_0_sqr (p - q / 2)) as S; unfold Rsqr in S; lra).
    assert (P' : -2 < p < 2) by (split; nra). assert (Q' : -2 < q < 2) by (split; nra).
    unfold p, q in *.
    assert (Hi : (-2 < i < 3)%Z) by (split; apply lt_IZR; lra). assert (Hj : (-2 < j < 3)%Z) by (split; apply lt_IZR; lra).
    assert (Ci : i = (-1)%Z \/ i = 0%Z \/ i = 1%Z \/ i = 2%Z) by lia. assert (Cj : j = (-1)%Z \/ j = 0%Z \/ j = 1%Z \/ j = 2%Z) by lia. clear Hi Hj.
    unfold bnd, fxy. unfold ss2_vertices.
    destruct (Rltb 1 _) eqn:E1; [apply Rltb_lt in E1|apply Rltb_ge in E1];
    (destruct (Rltb (X * _ + _) _) eqn:E2; [apply Rltb_lt in E2|apply Rltb_ge in E2]);
    (destruct (Rltb (Y * _ + _) _) eqn:E3; [apply Rltb_lt in E3|apply Rltb_ge in E3]);
    destruct Ci as [->|[->|[->| ->]]], Cj as [->|[->|[->| ->]]]; rewrite ?Z.add_0_r; change (n + -1)%Z with (n - 1)%Z; change (m + -1)%Z with (m - 1)%Z; 
    try (exfalso; nra); cbn [In]; auto.
Qed.
End S2.
