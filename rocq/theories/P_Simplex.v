(** C59: 2D Simplex and SuperSimplex noise. Real arithmetic, one lane. *)
From Coq Require Import Reals ZArith List Bool Lia Lra Psatz.
From Verif Require Import Prelude Simd_Model Utils_Model Nodes_Model Setters_Model Simd_R Bits P_Hash P_Grad P_Blend P_Lattice Lattice Simplex_Model Simplex_Spec Simplex_Geom Simplex_2D.
Import ListNotations.
Open Scope R_scope.

Section P.
Variable inf : R.
Variable bits : R -> Z.
Notation S_ := (Rops inf bits).

(** ** The sums of the nodes *)
Lemma term_eq : forall ft seed r2 u qs (c : contrib S_ scalar) v, (2 <= length qs <= 4)%nat -> length v = length qs -> visits inf bits r2 u qs c v ->
  fmul (s:=S_) (W:=scalar) (cf c) (ramp ft seed c) = bump r2 u seed qs v.
Proof.
  intros ft seed r2 u qs c v Hq Hl H. pose proof (ramp_eq inf bits ft seed c r2 u qs v Hq Hl H) as E. destruct H as (_ & _ & H).
  unfold bump. exact (f_equal2 Rmult H E).
Qed.
Lemma fold_value : forall ft seed r2 u qs (cs : list (contrib S_ scalar)) vs, (2 <= length qs <= 4)%nat ->
  Forall2 (visits inf bits r2 u qs) cs vs -> (forall v, In v vs -> length v = length qs) -> forall acc : R,
  fold_left (fun value c => fmadd (s:=S_) (W:=scalar) (cf c) (ramp ft seed c) value) cs acc = acc + bumps r2 u seed qs vs.
Proof.
  intros ft seed r2 u qs cs vs Hq H. induction H as [|c v cs vs Hc H IH]; intros Hl acc; cbn [fold_left].
  - unfold bumps. cbn [map]. rewrite sum_nil. lra.
  - unfold bumps in *. cbn [map]. rewrite sum_cons.
    refine (eq_trans (IH _ _) _); [intros; apply Hl; right; auto|].
    pose proof (term_eq ft seed r2 u qs c v Hq (Hl v (or_introl eq_refl)) Hc) as E. revert E. sunf. intros E. rewrite E. ring.
Qed.
Lemma value_acc_eq : forall ft seed r2 u qs (cs : list (contrib S_ scalar)) vs, (2 <= length qs <= 4)%nat ->
  Forall2 (visits inf bits r2 u qs) cs vs -> cs <> [] -> (forall v, In v vs -> length v = length qs) ->
  value_acc ft seed cs = bumps r2 u seed qs vs.
Proof.
  intros ft seed r2 u qs cs vs Hq H Hn Hl. destruct H as [|c v cs vs Hc H]; [contradiction|]. cbn [value_acc].
  refine (eq_trans (fold_value ft seed r2 u qs cs vs Hq H _ _) _); [intros; apply Hl; right; auto|].
  unfold bumps. cbn [map]. rewrite sum_cons. f_equal. apply term_eq; auto. apply Hl. left. auto.
Qed.
Lemma fma_term : forall ft seed r2 u qs (c : contrib S_ scalar) v (acc : R), (2 <= length qs <= 4)%nat -> length v = length qs -> visits inf bits r2 u qs c v ->
  fmadd (s:=S_) (W:=scalar) (ramp ft seed c) (cf c) acc = bump r2 u seed qs v + acc.
Proof.
  intros ft seed r2 u qs c v acc Hq Hl H. rewrite <- (term_eq ft seed r2 u qs c v Hq Hl H). sunf. toR. ring.
Qed.
Lemma mul_term : forall ft seed r2 u qs (c : contrib S_ scalar) v, (2 <= length qs <= 4)%nat -> length v = length qs -> visits inf bits r2 u qs c v ->
  fmul (s:=S_) (W:=scalar) (ramp ft seed c) (cf c) = bump r2 u seed qs v.
Proof. intros ft seed r2 u qs c v Hq Hl H. rewrite <- (term_eq ft seed r2 u qs c v Hq Hl H). sunf. toR. ring. Qed.
Lemma value2_eq : forall ft seed r2 u qs (cs : list (contrib S_ scalar)) vs, (2 <= length qs <= 4)%nat ->
  Forall2 (visits inf bits r2 u qs) cs vs -> length cs = 3%nat -> (forall v, In v vs -> length v = length qs) ->
  value2 ft seed cs = bumps r2 u seed qs vs.
Proof.
  intros ft seed r2 u qs cs vs Hq H Hn Hl.
  destruct H as [|c0 v0 cs vs H0 H]; [discriminate|]. destruct H as [|c1 v1 cs vs H1 H]; [discriminate|]. destruct H as [|c2 v2 cs vs H2 H]; [discriminate|].
  destruct H; [|discriminate]. cbn [value2]. unfold bumps. cbn [map]. rewrite !sum_cons, sum_nil.
  refine (eq_trans (fma_term ft seed r2 u qs _ v0 _ Hq (Hl _ _) H0) _); [cbn [In]; auto|]. f_equal.
  refine (eq_trans (fma_term ft seed r2 u qs _ v1 _ Hq (Hl _ _) H1) _); [cbn [In]; auto|]. f_equal.
  refine (eq_trans (mul_term ft seed r2 u qs _ v2 Hq (Hl _ _) H2) _); [cbn [In]; auto|]. toR. ring.
Qed.

Definition kSimplex (n : nat) : R := match n with 2%nat => 7011751 / 268435456 | 3%nat => 4105237 / 134217728 | _ => 4929823 / 134217728 end.
Definition kSuper (n : nat) : R := match n with 2%nat => 9452225 / 67108864 | 3%nat => 14837205 / 2147483648 | _ => 12144035 / 1073741824 end.
Lemma kS2 : (@kBoundSimplex2 S_ : R) = kSimplex 2.
Proof. unfold kBoundSimplex2, kSimplex; cbn [lit Rops]; change (-28)%Z with (- (28))%Z; rewrite (pow2_neg 28) by lia; reflexivity. Qed.
Lemma kSS2 : (@kBoundSuper2 S_ : R) = kSuper 2.
Proof. unfold kBoundSuper2, kSuper; cbn [lit Rops]; change (-26)%Z with (- (26))%Z; rewrite (pow2_neg 26) by lia; reflexivity. Qed.
Lemma kSimplex_pos : forall n, 0 < kSimplex n. Proof. intros [|[|[|[|n]]]]; unfold kSimplex; lra. Qed.
Lemma kSuper_pos : forall n, 0 < kSuper n. Proof. intros [|[|[|[|n]]]]; unfold kSuper; lra. Qed.

Definition skewed (k freq : R) (pos : list R) : list R := skew k (scale freq pos).
(** the prelude of the nodes: skewed coordinates, their floors, the position in the cell *)
Lemma skewed2 : forall k freq x y, skewed k freq [x; y] = [x * freq + k * (x * freq + y * freq); y * freq + k * (x * freq + y * freq)].
Proof. intros. unfold skewed, skew, scale. cbn [map]. rewrite !sum_cons, sum_nil, !Rplus_0_r. reflexivity. Qed.

Theorem C59_simplex2_all_vertices : forall ft so (k freq lo hi : R) (seed : Z) (x y : R) L,
  reaching (1/2) (unskew 2) (skewed k freq [x; y]) L ->
  SimplexGen2 (s:=S_) (W:=scalar) ft (sx2k_exact inf bits k) so freq (out_range inf bits lo hi) seed x y =
  rescale lo hi (kSimplex 2) (bumps (1/2) (unskew 2) (z_add seed (s32 so)) (skewed k freq [x; y]) L).
Proof.
  intros ft so k freq lo hi seed x y L HL. unfold SimplexGen2, slet.
  assert (B : (@kBoundSimplex2 S_ : R) <> 0) by (rewrite kS2; pose proof (kSimplex_pos 2); lra).
  refine (eq_trans (ScaleOutput_eq _ _ _ _ _ _ B) _). rewrite kS2. f_equal. rewrite so_eq.
  rewrite skewed2 in *.
  change (x * freq) with (fmul (s:=S_) (W:=scalar) x (fv (s:=S_) (W:=scalar) freq)) in *. change (y * freq) with (fmul (s:=S_) (W:=scalar) y (fv (s:=S_) (W:=scalar) freq)) in *.
  generalize dependent (fmul (s:=S_) (W:=scalar) x (fv (s:=S_) (W:=scalar) freq)). generalize (fmul (s:=S_) (W:=scalar) y (fv (s:=S_) (W:=scalar) freq)). clear x y. intros Y X. intros HL.
  unfold simplex2, slet. cbn [sx2k_exact sx2_kSkew].
  change (fadd (s:=S_) (W:=scalar) X (fmul (s:=S_) (W:=scalar) (fv (s:=S_) (W:=scalar) k) (fadd (s:=S_) (W:=scalar) X Y))) with (X + k * (X + Y)).
  change (fadd (s:=S_) (W:=scalar) Y (fmul (s:=S_) (W:=scalar) (fv (s:=S_) (W:=scalar) k) (fadd (s:=S_) (W:=scalar) X Y))) with (Y + k * (X + Y)).
  generalize dependent (X + k * (X + Y)). generalize (Y + k * (X + Y)). clear X Y. intros y x HL. unfold prX, prY. rewrite !lower, !frac0.
  rewrite (bumps_reaching _ _ _ _ _ _ HL (sx2_reaching x y)).
  pose proof (sx2_reaching x y) as (_ & Len & _).
  apply value2_eq; [cbn; lia| |reflexivity|exact Len]. apply sx2_at_visits.
Qed.
Theorem C59_supersimplex2_all_vertices : forall ft so (k freq lo hi : R) (seed : Z) (x y : R) L,
  reaching (2/3) (unskew 2) (skewed k freq [x; y]) L ->
  SuperSimplexGen2 (s:=S_) (W:=scalar) ft (ss2k_exact inf bits k) so freq (out_range inf bits lo hi) seed x y =
  rescale lo hi (kSuper 2) (bumps (2/3) (unskew 2) (z_add seed (s32 so)) (skewed k freq [x; y]) L).
Proof.
  intros ft so k freq lo hi seed x y L HL. unfold SuperSimplexGen2, slet.
  assert (B : (@kBoundSuper2 S_ : R) <> 0) by (rewrite kSS2; pose proof (kSuper_pos 2); lra).
  refine (eq_trans (ScaleOutput_eq _ _ _ _ _ _ B) _). rewrite kSS2. f_equal. rewrite so_eq.
  rewrite skewed2 in *.
  change (x * freq) with (fmul (s:=S_) (W:=scalar) x (fv (s:=S_) (W:=scalar) freq)) in *. change (y * freq) with (fmul (s:=S_) (W:=scalar) y (fv (s:=S_) (W:=scalar) freq)) in *.
  generalize dependent (fmul (s:=S_) (W:=scalar) x (fv (s:=S_) (W:=scalar) freq)). generalize (fmul (s:=S_) (W:=scalar) y (fv (s:=S_) (W:=scalar) freq)). clear x y. intros Y X. intros HL.
  unfold supersimplex2, slet. cbn [ss2k_exact ss2_kSkew].
  change (fadd (s:=S_) (W:=scalar) X (fmul (s:=S_) (W:=scalar) (fv (s:=S_) (W:=scalar) k) (fadd (s:=S_) (W:=scalar) X Y))) with (X + k * (X + Y)).
  change (fadd (s:=S_) (W:=scalar) Y (fmul (s:=S_) (W:=scalar) (fv (s:=S_) (W:=scalar) k) (fadd (s:=S_) (W:=scalar) X Y))) with (Y + k * (X + Y)).
  generalize dependent (X + k * (X + Y)). generalize (Y + k * (X + Y)). clear X Y. intros y x HL. unfold prX, prY. rewrite !lower, !frac0.
  rewrite (bumps_reaching _ _ _ _ _ _ HL (ss2_reaching x y)).
  pose proof (ss2_reaching x y) as (_ & Len & _).
  apply value_acc_eq; [cbn; lia| |discriminate|exact Len].
  pose proof (Rfloor_spec x). pose proof (Rfloor_spec y). apply ss2_at_visits; lra.
Qed.

(** ** Consequences *)
Lemma cont_local : forall d f g xs, 0 < d -> (forall ys, near d xs ys -> f ys = g ys) -> continuous_at g xs -> continuous_at f xs.
Proof.
  intros d f g xs Hd E Hg e He. destruct (Hg e He) as (d' & P & Q). exists (Rmin d d'). split; [apply Rmin_pos; auto|]. intros ys N.
  rewrite !E; [|apply near_refl; auto|eapply near_le; [apply Rmin_l|exact N]]. apply Q. eapply near_le; [apply Rmin_r|exact N].
Qed.
Lemma near2 : forall d x y ys, near d [x; y] ys -> exists x' y', ys = [x'; y'] /\ Rabs (x' - x) < d /\ Rabs (y' - y) < d.
Proof. intros d x y ys N. inversion N as [|? a ? l H1 N1]; subst. inversion N1 as [|? b ? l' H2 N2]; subst. inversion N2; subst. eauto. Qed.
(** a bound of the movement of skewed coordinates *)
Lemma skew_small : forall k freq, exists d, 0 < d /\ forall x y x' y', Rabs (x' - x) < d -> Rabs (y' - y) < d ->
  Rabs (x' * freq + k * (x' * freq + y' * freq) - (x * freq + k * (x * freq + y * freq))) < 1.
Proof.
  intros k freq. set (M := Rabs freq * (1 + 2 * Rabs k) + 1).
  assert (HM : 0 < M) by (unfold M; pose proof (Rabs_pos freq); pose proof (Rabs_pos k); nra).
  exists (/ M). split; [apply Rinv_0_lt_compat; auto|]. intros x y x' y' Hx Hy.
  replace (x' * freq + k * (x' * freq + y' * freq) - (x * freq + k * (x * freq + y * freq))) with (freq * ((x' - x) + k * ((x' - x) + (y' - y)))) by ring.
  rewrite Rabs_mult. set (a := x' - x) in *. set (b := y' - y) in *.
  assert (Rabs (a + k * (a + b)) <= / M * (1 + 2 * Rabs k)).
  { eapply Rle_trans; [apply Rabs_triang|]. rewrite Rabs_mult. pose proof (Rabs_triang a b). pose proof (Rabs_pos k). nra. }
  pose proof (Rabs_pos freq). apply Rle_lt_trans with (Rabs freq * (/ M * (1 + 2 * Rabs k))); [apply Rmult_le_compat_l; auto|].
  replace 1 with (/ M * M) at 2 by (field; lra). replace (Rabs freq * (/ M * (1 + 2 * Rabs k))) with (/ M * (Rabs freq * (1 + 2 * Rabs k))) by ring.
  apply Rmult_lt_compat_l; [apply Rinv_0_lt_compat; auto|]. unfold M. lra.
Qed.
Lemma bumps2_cont : forall r2 k freq seed L x y, (forall v, In v L -> length v = 2%nat) ->
  continuous_at (fun pos => bumps r2 (unskew 2) seed (skewed k freq [nth 0 pos 0; nth 1 pos 0]) L) [x; y].
Proof.
  intros r2 k freq seed L x y HL. unfold bumps. apply (cont_sum (fun v pos => bump r2 (unskew 2) seed (skewed k freq [nth 0 pos 0; nth 1 pos 0]) v)).
  intros v Hv. specialize (HL v Hv). destruct v as [|a [|b [|? ?]]]; try discriminate HL.
  apply (cont_ext (fun pos => bump r2 (unskew 2) seed [nth 0 pos 0 * freq + k * (nth 0 pos 0 * freq + nth 1 pos 0 * freq); nth 1 pos 0 * freq + k * (nth 0 pos 0 * freq + nth 1 pos 0 * freq)] [a; b])).
  { intros. rewrite skewed2. reflexivity. }
  apply cont_bump2; repeat first [apply cont_plus | apply cont_mult | apply cont_const | apply cont_nth].
Qed.
(** near every position, one list has all the vertices that matter *)
Lemma local_vertices2 : forall k freq x y, exists d L, 0 < d /\ (forall v, In v L -> length v = 2%nat) /\
  forall x' y' r2, r2 <= 2/3 -> Rabs (x' - x) < d -> Rabs (y' - y) < d -> reaching r2 (unskew 2) (skewed k freq [x'; y']) L.
Proof.
  intros k freq x y. destruct (skew_small k freq) as (d & Hd & H).
  exists d, (box [Rfloor (x * freq + k * (x * freq + y * freq)); Rfloor (y * freq + k * (x * freq + y * freq))]).
  split; [exact Hd|]. split; [intros v Hv; rewrite (box_length _ _ Hv); reflexivity|].
  intros x' y' r2 Hr Hx Hy. rewrite skewed2. apply box2_reaching; auto.
  replace (y' * freq + k * (x' * freq + y' * freq)) with (y' * freq + k * (y' * freq + x' * freq)) by ring.
  replace (y * freq + k * (x * freq + y * freq)) with (y * freq + k * (y * freq + x * freq)) by ring. auto.
Qed.
Lemma bumps2_continuous : forall r2 k freq lo hi B seed (f : R -> R -> R) x y, r2 <= 2/3 ->
  (forall x y L, reaching r2 (unskew 2) (skewed k freq [x; y]) L -> f x y = rescale lo hi B (bumps r2 (unskew 2) seed (skewed k freq [x; y]) L)) ->
  continuous_at (fun pos => f (nth 0 pos 0) (nth 1 pos 0)) [x; y].
Proof.
  intros r2 k freq lo hi B seed f x y Hr Hf. destruct (local_vertices2 k freq x y) as (d & L & Hd & HL & HR).
  apply (cont_local d _ (fun pos => rescale lo hi B (bumps r2 (unskew 2) seed (skewed k freq [nth 0 pos 0; nth 1 pos 0]) L))); auto.
  - intros ys N. apply near2 in N as (x' & y' & -> & Hx & Hy). cbn [nth]. apply Hf. auto.
  - apply cont_rescale. apply bumps2_cont. auto.
Qed.
Theorem C59_simplex2_continuous : forall ft so (k freq lo hi : R) (seed : Z) (x y : R),
  continuous_at (fun pos => SimplexGen2 (s:=S_) (W:=scalar) ft (sx2k_exact inf bits k) so freq (out_range inf bits lo hi) seed (nth 0 pos 0) (nth 1 pos 0)) [x; y].
Proof.
  intros. apply (bumps2_continuous (1/2) k freq lo hi (kSimplex 2) (z_add seed (s32 so))
    (fun x y => SimplexGen2 (s:=S_) (W:=scalar) ft (sx2k_exact inf bits k) so freq (out_range inf bits lo hi) seed x y)); [lra|].
  intros. apply C59_simplex2_all_vertices. auto.
Qed.
Theorem C59_supersimplex2_continuous : forall ft so (k freq lo hi : R) (seed : Z) (x y : R),
  continuous_at (fun pos => SuperSimplexGen2 (s:=S_) (W:=scalar) ft (ss2k_exact inf bits k) so freq (out_range inf bits lo hi) seed (nth 0 pos 0) (nth 1 pos 0)) [x; y].
Proof.
  intros. apply (bumps2_continuous (2/3) k freq lo hi (kSuper 2) (z_add seed (s32 so))
    (fun x y => SuperSimplexGen2 (s:=S_) (W:=scalar) ft (ss2k_exact inf bits k) so freq (out_range inf bits lo hi) seed x y)); [lra|].
  intros. apply C59_supersimplex2_all_vertices. auto.
Qed.
End P.
