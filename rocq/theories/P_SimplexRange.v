(** C67: the output range of Simplex and SuperSimplex noise. Real arithmetic, one lane. *)
From Coq Require Import Reals ZArith List Bool Lia Lra Psatz.
From Verif Require Import Prelude Simd_Model Utils_Model Nodes_Model Setters_Model Simd_R Bits P_Hash P_Grad P_Lattice Lattice
  Simplex_Model Simplex_Spec Simplex_Geom Simplex_2D Simplex_3D Simplex_4D Simplex_Cells P_Simplex P_Simplex3 P_Simplex4 P_SimplexCode
  Boxes BoxesSound BoxesHeights BoxesAll BoxesCases BoxesRun2 BoxesRun3a BoxesRun3b BoxesRun4a BoxesRun4b SimplexRange.
Import ListNotations.
Open Scope R_scope.

Lemma bumps_blend : forall r2 u seed q L, bumps r2 u seed q L = blend r2 u q L (fun v => perlin_corner seed v (offset u q v)).
Proof. reflexivity. Qed.
Lemma INR2 : INR 2 = 2. Proof. reflexivity. Qed.
Lemma INR3 : INR 3 = 3. Proof. cbn. lra. Qed.
Lemma INR4 : INR 4 = 4. Proof. cbn. lra. Qed.
Ltac zeval t := let z := eval vm_compute in t in change t with z.
Ltac nums := unfold radius; rewrite ?INR2, ?INR3, ?INR4, ?un_pos; match goal with |- context [radius_of ?a ?b ?c] => zeval (radius_of a b c) end; lra.
Ltac lims := rewrite ?INR2, ?INR3, ?INR4, ?un_pos; match goal with |- context [lim_of ?a ?b ?c ?d ?e] => zeval (lim_of a b c d e) end.

(** ** Sums over any distinct vertices *)
Definition distinct (n : nat) (L : list (list Z)) : Prop := NoDup L /\ forall v, In v L -> length v = n.
Lemma sx2_bumps : forall seed q L, length q = 2%nat -> distinct 2 L -> Rabs (bumps (1/2) (unskew 2) seed q L) <= kSimplex 2 * (1 + 1/1000).
Proof.
  intros seed q L Lq [N LL]. rewrite bumps_blend.
  assert (R1 : radius (radius_of 2 1 2) <= 2 * (INR 2 + 1)) by nums. assert (R2 : (INR 2 + 1) * (1/2) <= radius (radius_of 2 1 2)) by nums.
  pose proof (blend_bound _ _ _ 2 _ _ (1/2) (unskew 2) (max_sound 2 octagon (proj1 octagon_pairs)) (max_symmetric octagon octagon_pairs) (max_zero octagon octagon_pairs) ltac:(lia) unskews2
    R1 R2 sx2_checked q L (fun v => perlin_corner seed v (offset (unskew 2) q v)) Lq N LL (fun v Hv => perlin2_height seed q v Lq (LL v Hv))) as H.
  eapply Rle_trans; [exact H|]. unfold kSimplex. lims. lra.
Qed.
Lemma ss2_bumps : forall seed q L, length q = 2%nat -> distinct 2 L -> Rabs (bumps (2/3) (unskew 2) seed q L) <= kSuper 2 * (1 + 1/1000).
Proof.
  intros seed q L Lq [N LL]. rewrite bumps_blend.
  assert (R1 : radius (radius_of 2 2 3) <= 2 * (INR 2 + 1)) by nums. assert (R2 : (INR 2 + 1) * (2/3) <= radius (radius_of 2 2 3)) by nums.
  pose proof (blend_bound _ _ _ 2 _ _ (2/3) (unskew 2) (max_sound 2 octagon (proj1 octagon_pairs)) (max_symmetric octagon octagon_pairs) (max_zero octagon octagon_pairs) ltac:(lia) unskews2
    R1 R2 ss2_checked q L (fun v => perlin_corner seed v (offset (unskew 2) q v)) Lq N LL (fun v Hv => perlin2_height seed q v Lq (LL v Hv))) as H.
  eapply Rle_trans; [exact H|]. unfold kSuper. lims. lra.
Qed.
Lemma half_off_ok : Rabs (unskew 3 * IZR (2^B) - IZR half_off) <= 1.
Proof. cbn [unskew]. rewrite un_pos. unfold half_off. change (- 2^19)%Z with (-524288)%Z. apply Rabs_le. lra. Qed.
Lemma off4_ok : Rabs (unskew 4 * IZR (2^B) - IZR off4) <= 1.
Proof.
  cbn [unskew]. rewrite un_pos. unfold off4. assert (2.236067 <= sqrt 5 <= 2.236068).
  { split; apply Rsqr_incr_0; unfold Rsqr; try (rewrite sqrt_sqrt by lra); try lra; try apply sqrt_pos. }
  set (t := sqrt 5) in *. assert (T : - (1) / (t + 5) * (t + 5) = - (1)) by (field; lra). set (w := - (1) / (t + 5)) in *. clearbody w. apply Rabs_le. split; nra.
Qed.
Lemma sx3_bumps : forall seed q L, length q = 3%nat -> distinct 3 L -> Rabs (bumps kR06 (unskew 3) seed q L) <= kSimplex 3 * (1 + 1/100).
Proof.
  intros seed q L Lq [N LL]. rewrite bumps_blend.
  assert (R1 : radius (radius_of 3 10066330 16777216) <= 2 * (INR 3 + 1)) by nums. assert (R2 : (INR 3 + 1) * kR06 <= radius (radius_of 3 10066330 16777216)) by (unfold kR06; nums).
  pose proof (blend_bound _ _ _ 3 _ _ kR06 (unskew 3) (drop_sound _ _ half_off_ok) (drop_symmetric _) (drop_zero _ 3 ltac:(lia)) ltac:(lia) unskews3
    R1 R2 sx3_checked q L (fun v => perlin_corner seed v (offset (unskew 3) q v)) Lq N LL (fun v Hv => perlin3_height seed q v Lq (LL v Hv))) as H.
  eapply Rle_trans; [exact H|]. unfold kSimplex. lims. lra.
Qed.
Lemma ss3_bumps : forall seed q L, length q = 3%nat -> distinct 3 L -> Rabs (bumps (3/4) (unskew 3) seed q L) <= 16 * kSuper 3 * (1 + 1/100).
Proof.
  intros seed q L Lq [N LL]. rewrite bumps_blend.
  assert (R1 : radius (radius_of 3 3 4) <= 2 * (INR 3 + 1)) by nums. assert (R2 : (INR 3 + 1) * (3/4) <= radius (radius_of 3 3 4)) by nums.
  pose proof (blend_bound _ _ _ 3 _ _ (3/4) (unskew 3) (drop_sound _ _ half_off_ok) (drop_symmetric _) (drop_zero _ 3 ltac:(lia)) ltac:(lia) unskews3
    R1 R2 ss3_checked q L (fun v => perlin_corner seed v (offset (unskew 3) q v)) Lq N LL (fun v Hv => perlin3_height seed q v Lq (LL v Hv))) as H.
  eapply Rle_trans; [exact H|]. unfold kSuper. lims. lra.
Qed.
Lemma sx4_bumps : forall seed q L, length q = 4%nat -> distinct 4 L -> Rabs (bumps kR06 (unskew 4) seed q L) <= kSimplex 4 * (1 + 1/50).
Proof.
  intros seed q L Lq [N LL]. rewrite bumps_blend.
  assert (R1 : radius (radius_of 4 10066330 16777216) <= 2 * (INR 4 + 1)) by nums. assert (R2 : (INR 4 + 1) * kR06 <= radius (radius_of 4 10066330 16777216)) by (unfold kR06; nums).
  pose proof (blend_bound _ _ _ 4 _ _ kR06 (unskew 4) (drop_sound _ _ off4_ok) (drop_symmetric _) (drop_zero _ 4 ltac:(lia)) ltac:(lia) unskews4
    R1 R2 sx4_checked q L (fun v => perlin_corner seed v (offset (unskew 4) q v)) Lq N LL (fun v Hv => perlin4_height seed q v Lq (LL v Hv))) as H.
  eapply Rle_trans; [exact H|]. unfold kSimplex. lims. lra.
Qed.
Lemma ss4_bumps : forall seed q L, length q = 4%nat -> distinct 4 L -> Rabs (bumps (4/5) (unskew 4) seed q L) <= 16 * kSuper 4 * (1 + 1/20).
Proof.
  intros seed q L Lq [N LL]. rewrite bumps_blend.
  assert (R1 : radius (radius_of 4 4 5) <= 2 * (INR 4 + 1)) by nums. assert (R2 : (INR 4 + 1) * (4/5) <= radius (radius_of 4 4 5)) by nums.
  pose proof (blend_bound _ _ _ 4 _ _ (4/5) (unskew 4) (drop_sound _ _ off4_ok) (drop_symmetric _) (drop_zero _ 4 ltac:(lia)) ltac:(lia) unskews4
    R1 R2 ss4_checked q L (fun v => perlin_corner seed v (offset (unskew 4) q v)) Lq N LL (fun v Hv => perlin4_height seed q v Lq (LL v Hv))) as H.
  eapply Rle_trans; [exact H|]. unfold kSuper. lims. lra.
Qed.
Lemma reaching_distinct : forall r2 u q L, reaching r2 u q L -> distinct (length q) L.
Proof. intros r2 u q L (N & LL & _). split; assumption. Qed.
(** the corners of a simplex are distinct *)
Lemma steps_sum : forall vs v w, steps v vs -> In w vs -> (zsum v < zsum w)%Z.
Proof.
  assert (A : forall v w, along_axis v w -> zsum w = (zsum v + 1)%Z).
  { intros v w (L & i & Hi & H). revert w i L Hi H. induction v as [|a v IH]; intros [|b w] i L Hi H; try discriminate; cbn [length] in *; [lia|].
    change (zsum (b :: w)) with (b + zsum w)%Z. change (zsum (a :: v)) with (a + zsum v)%Z. pose proof (H 0%nat) as H0. cbn [nth] in H0. destruct i as [|i].
    - assert (w = v) as ->; [|cbn in H0; lia]. apply (nth_ext _ _ 0%Z 0%Z); [lia|]. intros j _. specialize (H (Datatypes.S j)). cbn [nth Nat.eqb] in H. lia.
    - cbn in H0. rewrite (IH w i); [lia|lia|lia|]. intros j. specialize (H (Datatypes.S j)). cbn [nth Nat.eqb] in H. exact H. }
  induction vs as [|x vs IH]; intros v w S0 I; [contradiction|]. destruct S0 as [S1 S2]. apply A in S1. destruct I as [<-|I]; [lia|]. specialize (IH x w S2 I). lia.
Qed.
Lemma steps_nodup : forall vs v, steps v vs -> NoDup (v :: vs).
Proof.
  induction vs as [|x vs IH]; intros v S0; constructor; auto; [constructor|intros C; apply (steps_sum _ _ _ S0) in C; lia|apply IH; exact (proj2 S0)].
Qed.
Lemma simplex_distinct : forall q vs, simplex_around q vs -> distinct (length q) vs.
Proof.
  intros q vs (S0 & LL & _). split; [|exact LL]. destruct vs as [|v vs]; [contradiction|]. apply steps_nodup. exact (proj1 S0).
Qed.

(** ** C67 *)
(** [v] exceeds the range from [lo] to [hi] by at most the share [e] of half its width *)
Definition in_range (e lo hi v : R) : Prop := Rabs (v - (lo + hi) / 2) <= (1 + e) * (Rabs (hi - lo) / 2).
Lemma rescale_range : forall e lo hi B s, 0 < B -> Rabs s <= B * (1 + e) -> in_range e lo hi (rescale lo hi B s).
Proof.
  intros e lo hi B s HB H. unfold in_range, rescale. replace (lo + (hi - lo) * ((s + B) / (2 * B)) - (lo + hi) / 2) with ((hi - lo) * (s * / (2 * B))) by (field; lra).
  rewrite Rabs_mult. replace ((1 + e) * (Rabs (hi - lo) / 2)) with (Rabs (hi - lo) * ((1 + e) / 2)) by field. apply Rmult_le_compat_l; [apply Rabs_pos|].
  rewrite Rabs_mult, (Rabs_right (/ (2 * B))) by (left; apply Rinv_0_lt_compat; lra). apply Rmult_le_reg_r with (2 * B); [lra|]. rewrite Rmult_assoc, Rinv_l by lra. lra.
Qed.
Lemma in_range_near : forall e d lo hi v w, in_range e lo hi v -> Rabs (w - v) <= d * (Rabs (hi - lo) / 2) -> in_range (e + d) lo hi w.
Proof. intros e d lo hi v w H D. unfold in_range in *. pose proof (Rabs_triang (w - v) (v - (lo + hi) / 2)) as T. replace (w - v + (v - (lo + hi) / 2)) with (w - (lo + hi) / 2) in T by ring. lra. Qed.
Section C67.
Variable inf : R.
Variable bits : R -> Z.
Notation S_ := (Rops inf bits).
Notation simplex := (SimplexGen (s:=S_) (W:=scalar)).
Notation super := (SuperSimplexGen (s:=S_) (W:=scalar)).

Theorem C67_simplex2 : forall ft so (freq lo hi : R) (seed : Z) (x y : R), in_range (1/500) lo hi (simplex ft so freq (out_range inf bits lo hi) seed [x; y]).
Proof.
  intros ft so freq lo hi seed x y. destruct (local_vertices2 kSkew2 freq x y) as (d & L & Hd & _ & HR).
  assert (RE : reaching (1/2) (unskew 2) (skewed kSkew2 freq [x; y]) L) by (apply HR; [lra| |]; rewrite Rminus_diag_eq, Rabs_R0 by reflexivity; exact Hd).
  pose proof (C59_simplex2_code inf bits ft so freq lo hi seed x y L RE) as C.
  assert (Lq : length (skewed kSkew2 freq [x; y]) = 2%nat) by reflexivity.
  pose proof (reaching_distinct _ _ _ _ RE) as D. rewrite Lq in D.
  pose proof (rescale_range (1/1000) lo hi (kSimplex 2) _ (kSimplex_pos 2) (sx2_bumps (z_add seed (s32 so)) _ L Lq D)) as I0.
  replace (1/500) with (1/1000 + 1/1000) by lra. eapply in_range_near; [exact I0|]. eapply Rle_trans; [exact C|]. pose proof (Rabs_pos (hi - lo)). lra.
Qed.
Theorem C67_supersimplex2 : forall ft so (freq lo hi : R) (seed : Z) (x y : R), in_range (1/500) lo hi (super ft so freq (out_range inf bits lo hi) seed [x; y]).
Proof.
  intros ft so freq lo hi seed x y. destruct (local_vertices2 kSkew2 freq x y) as (d & L & Hd & _ & HR).
  assert (RE : reaching (2/3) (unskew 2) (skewed kSkew2 freq [x; y]) L) by (apply HR; [lra| |]; rewrite Rminus_diag_eq, Rabs_R0 by reflexivity; exact Hd).
  pose proof (C59_supersimplex2_code inf bits ft so freq lo hi seed x y L RE) as C.
  assert (Lq : length (skewed kSkew2 freq [x; y]) = 2%nat) by reflexivity.
  pose proof (reaching_distinct _ _ _ _ RE) as D. rewrite Lq in D.
  pose proof (rescale_range (1/1000) lo hi (kSuper 2) _ (kSuper_pos 2) (ss2_bumps (z_add seed (s32 so)) _ L Lq D)) as I0.
  replace (1/500) with (1/1000 + 1/1000) by lra. eapply in_range_near; [exact I0|]. eapply Rle_trans; [exact C|]. pose proof (Rabs_pos (hi - lo)). lra.
Qed.
Theorem C67_simplex3 : forall ft so (freq lo hi : R) (seed : Z) (x y z : R), in_range (1/100) lo hi (simplex ft so freq (out_range inf bits lo hi) seed [x; y; z]).
Proof.
  intros. destruct (C60_simplex3 inf bits ft so freq lo hi seed x y z) as (vs & A & ->).
  assert (Lq : length (skewed kSkew3 freq [x; y; z]) = 3%nat) by reflexivity. apply simplex_distinct in A. rewrite Lq in A.
  apply rescale_range; [apply kSimplex_pos|]. apply sx3_bumps; assumption.
Qed.
Theorem C67_supersimplex3 : forall ft so (freq lo hi : R) (seed : Z) (x y z : R), in_range (1/100) lo hi (super ft so freq (out_range inf bits lo hi) seed [x; y; z]).
Proof.
  intros ft so freq lo hi seed x y z. destruct (local_vertices3 kSkew3 freq x y z) as (d & L & Hd & _ & HR).
  assert (RE : reaching (3/4) (unskew 3) (skewed kSkew3 freq [x; y; z]) L) by (apply HR; [lra| | |]; rewrite Rminus_diag_eq, Rabs_R0 by reflexivity; exact Hd).
  rewrite (C59_supersimplex3_all_vertices inf bits ft so freq lo hi seed x y z L RE).
  assert (Lq : length (skewed kSkew3 freq [x; y; z]) = 3%nat) by reflexivity. apply reaching_distinct in RE. rewrite Lq in RE.
  apply rescale_range; [pose proof (kSuper_pos 3); lra|]. apply ss3_bumps; assumption.
Qed.
(** 4D: with the constants of the lattice search before rounding *)
Theorem C67_simplex4_unrounded : forall ft so (k freq lo hi : R) (seed : Z) (x y z w : R),
  in_range (1/50) lo hi (SimplexGen4 (s:=S_) (W:=scalar) ft (sx4k_exact inf bits k kR06) so freq (out_range inf bits lo hi) seed x y z w).
Proof.
  intros. destruct (C60_simplex4 inf bits ft so k kR06 freq lo hi seed x y z w) as (vs & A & ->).
  assert (Lq : length (skewed k freq [x; y; z; w]) = 4%nat) by reflexivity. apply simplex_distinct in A. rewrite Lq in A.
  apply rescale_range; [apply kSimplex_pos|]. apply sx4_bumps; assumption.
Qed.
Theorem C67_supersimplex4_unrounded : forall ft so (k freq lo hi : R) (seed : Z) (x y z w : R),
  in_range (1/20) lo hi (SuperSimplexGen4 (s:=S_) (W:=scalar) ft (ss4k_exact inf bits k) so freq (out_range inf bits lo hi) seed x y z w).
Proof.
  intros. destruct (C60_supersimplex4 inf bits ft so k freq lo hi seed x y z w) as (vs & A & ->).
  assert (Lq : length (skewed k freq [x; y; z; w]) = 4%nat) by reflexivity. apply reaching_distinct in A. rewrite Lq in A.
  apply rescale_range; [pose proof (kSuper_pos 4); lra|]. apply ss4_bumps; assumption.
Qed.
End C67.
Print Assumptions C67_simplex2.
Print Assumptions C67_supersimplex2.
Print Assumptions C67_simplex3.
Print Assumptions C67_supersimplex3.
Print Assumptions C67_simplex4_unrounded.
Print Assumptions C67_supersimplex4_unrounded.
(** what [in_range] says, and a concrete case: frequency 0.02, the default range -1 to 1, position (100, 250) *)
Example C67_meaning : forall e lo hi v, lo <= hi -> (in_range e lo hi v <-> lo - e * (hi - lo) / 2 <= v <= hi + e * (hi - lo) / 2).
Proof.
  intros e lo hi v H. unfold in_range. rewrite (Rabs_pos_eq (hi - lo)) by lra. split.
  - intros A. unfold Rabs in A. destruct (Rcase_abs _); lra.
  - intros A. apply Rabs_le. lra.
Qed.
Example C67_case : forall inf bits ft, -1.002 <= SimplexGen (s:=Rops inf bits) (W:=scalar) ft 0%Z 0.02 (out_range inf bits (-1) 1) 1337%Z [100; 250] <= 1.002.
Proof. intros. pose proof (C67_simplex2 inf bits ft 0%Z 0.02 (-1) 1 1337%Z 100 250) as H. apply C67_meaning in H; lra. Qed.
