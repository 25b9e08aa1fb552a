(** C45-C48, C57: fractals, coordinate transformations, seed offsets, derived members. Real arithmetic, one lane. *)
From Coq Require Import Reals ZArith List Bool Lia Lra Psatz.
From Verif Require Import Prelude Simd_Model Utils_Model Nodes_Model Warp_Model Cellular_Model Simd_R Setters_Model Bits P_Blend.
Import ListNotations.
Open Scope R_scope.

(** f 0 + ... + f (n-1) *)
Fixpoint sumR (n : nat) (f : nat -> R) : R := match n with O => 0 | S n' => sumR n' f + f n' end.
Lemma sumR_shift : forall n f, sumR (S n) f = f O + sumR n (fun i => f (S i)).
Proof. induction n; intros; [cbn; ring|]. change (sumR (S (S n)) f) with (sumR (S n) f + f (S n)). rewrite IHn. cbn. ring. Qed.
Lemma sumR_ext : forall n f g, (forall i, (i < n)%nat -> f i = g i) -> sumR n f = sumR n g.
Proof. induction n; intros; cbn; auto. rewrite (IHn f g), H by (intros; auto). reflexivity. Qed.
Lemma sumR_abs : forall n f g, (forall i, (i < n)%nat -> Rabs (f i) <= g i) -> Rabs (sumR n f) <= sumR n g.
Proof.
  induction n; intros f g H; cbn; [rewrite Rabs_R0; lra|].
  pose proof (Rabs_triang (sumR n f) (f n)). pose proof (IHn f g ltac:(auto)). pose proof (H n ltac:(lia)). lra.
Qed.
Lemma sumR_geo : forall n q, 0 <= q < 1 -> sumR n (fun i => q ^ i) <= 1 / (1 - q).
Proof.
  intros n q Hq. assert (sumR n (fun i => q ^ i) * (1 - q) = 1 - q ^ n).
  { induction n; cbn [sumR pow]; [ring|]. rewrite Rmult_plus_distr_r, IHn. ring. }
  pose proof (pow_le q n ltac:(lra)). apply (Rmult_le_reg_r (1 - q)); [lra|]. rewrite H. unfold Rdiv. rewrite Rmult_assoc, Rinv_l; lra.
Qed.
(** the seed of octave i *)
Definition octave_seed (seed : Z) (i : nat) : Z := s32 (seed + Z.of_nat i).

Section Mod.
Variable inf : R.
Variable bits : R -> Z.
Notation S_ := (Rops inf bits).
Notation source := (source S_ scalar).
Notation hyb := (hyb S_ scalar).
Notation val := (val inf bits).

(** ** C46 *)
(** Octave i of a fractal: the source at seed + i and at the position scaled by lacunarity^i. *)
Definition octave (src : source) (lac : R) (seed : Z) (pos : list R) (i : nat) : R :=
  src (octave_seed seed i) (map (fun p => p * lac ^ i) pos).
(** The amplitude of octave i: multiplied by the gain and, for weighted strength w, by the interpolation
    between 1 and [weight (previous octave)]. *)
Fixpoint amplitude (weight : R -> R) (gain w : R) (noise : nat -> R) (i : nat) : R :=
  match i with O => 1 | S i' => amplitude weight gain w noise i' * (1 + w * (weight (noise i') - 1)) * gain end.
Definition fbm_weight (x : R) : R := (x + 1) / 2.
Definition ridged_weight (x : R) : R := 1 - x.

Lemma octave_seed_S : forall seed i, z_sub (octave_seed seed i) (s32 (-1)) = octave_seed seed (S i).
Proof.
  intros. unfold z_sub, octave_seed. rewrite s32_idem_sub_l, s32_idem_sub_r. f_equal. lia.
Qed.
Lemma octave_pos_S : forall lac (pos : list R) i,
  map (fun p => p * lac) (map (fun p => p * lac ^ i) pos) = map (fun p => p * lac ^ S i) pos.
Proof. intros. rewrite map_map. apply map_ext. intros. cbn. ring. Qed.

Lemma fbm_loop_eq : forall n src gain w lac seed (pos : list R) i (amp sum : R),
  amp = amplitude fbm_weight gain w (octave src lac seed pos) i ->
  fbm_loop (s:=S_) (W:=scalar) n src gain w lac (octave_seed seed i) (map (fun p => p * lac ^ i) pos) amp (octave src lac seed pos i) sum =
  sum + sumR n (fun k => amplitude fbm_weight gain w (octave src lac seed pos) (S i + k) * octave src lac seed pos (S i + k)).
Proof.
  induction n; intros src gain w lac seed pos i amp sum Hamp; [cbn; toR; ring|].
  cbn [fbm_loop]. unfold slet, Lerp. sunf. rlit. rewrite octave_seed_S, octave_pos_S.
  fold (octave src lac seed pos (S i)).
  rewrite (IHn src gain w lac seed pos (S i)).
  - rewrite sumR_shift. toR. rewrite Nat.add_0_r, Rplus_assoc. f_equal. f_equal.
    + cbn [amplitude]. rewrite Hamp. unfold fbm_weight. field.
    + apply sumR_ext. intros. replace (S i + S i0)%nat with (S (S i) + i0)%nat by lia. reflexivity.
  - cbn [amplitude]. rewrite Hamp. unfold fbm_weight. field.
Qed.
Lemma octave_0 : forall (src : source) lac seed (pos : list R), in32 seed -> octave src lac seed pos 0 = src seed pos.
Proof.
  intros. unfold octave, octave_seed. rewrite Z.add_0_r, in32_s32_id by assumption. f_equal.
  rewrite <- (map_id pos) at 2. apply map_ext. intros. cbn. ring.
Qed.
Lemma fbm_start : forall (src : source) lac seed (pos : list R), in32 seed ->
  octave_seed seed 0 = seed /\ map (fun p => p * lac ^ 0) pos = pos.
Proof.
  intros. split; [unfold octave_seed; rewrite Z.add_0_r; apply in32_s32_id; assumption|].
  rewrite <- (map_id pos) at 2. apply map_ext. intros. cbn. ring.
Qed.
(** the number of octaves evaluated: a count below 1 behaves like 1 *)
Definition octaves (n : Z) : nat := S (Z.to_nat (n - 1)).

Theorem C46_fbm : forall (fr : fractal S_ scalar) (src : source) (seed : Z) (pos : list R), in32 seed ->
  let noise := octave src (frLacunarity fr) seed pos in
  let amp := amplitude fbm_weight (val (frGain fr) seed pos) (val (frWeight fr) seed pos) noise in
  FBmGen fr src seed pos = sumR (octaves (frOctaves fr)) (fun i => amp i * noise i).
Proof.
  intros fr src seed pos Hs noise amp. unfold FBmGen. rewrite !gsv_val. unfold slet.
  pose proof (fbm_loop_eq (Z.to_nat (frOctaves fr - 1)) src (val (frGain fr) seed pos) (val (frWeight fr) seed pos) (frLacunarity fr) seed pos 0 1
    (src seed pos * 1) eq_refl) as L.
  destruct (fbm_start src (frLacunarity fr) seed pos Hs) as [E1 E2]. rewrite E1, E2, octave_0 in L by assumption.
  unfold octaves. rewrite sumR_shift. unfold amp at 1, noise at 2. rewrite octave_0 by assumption. cbn [amplitude].
  sunf. rlit. toR. rewrite Rmult_1_l. rewrite Rmult_1_r in L. exact L.
Qed.
Lemma amplitude_0 : forall wt gain noise i, amplitude wt gain 0 noise i = gain ^ i.
Proof. induction i; cbn; [reflexivity|]. rewrite IHi. ring. Qed.
(** with weighted strength 0: the sum of gain^i times octave i (not normalised) *)
Theorem C46_fbm_unweighted : forall (fr : fractal S_ scalar) (src : source) (seed : Z) (pos : list R), in32 seed ->
  val (frWeight fr) seed pos = 0 ->
  FBmGen fr src seed pos = sumR (octaves (frOctaves fr)) (fun i => val (frGain fr) seed pos ^ i * octave src (frLacunarity fr) seed pos i).
Proof.
  intros fr src seed pos Hs Hw. rewrite C46_fbm by assumption. cbv zeta. toR. apply sumR_ext. intros. rewrite Hw, amplitude_0. reflexivity.
Qed.

Lemma ridged_loop_eq : forall n src gain w lac seed (pos : list R) i (amp sum : R),
  amp = amplitude ridged_weight gain w (fun i => Rabs (octave src lac seed pos i)) i ->
  ridged_loop (s:=S_) (W:=scalar) n src gain w lac (octave_seed seed i) (map (fun p => p * lac ^ i) pos) amp (Rabs (octave src lac seed pos i)) sum =
  sum + sumR n (fun k => amplitude ridged_weight gain w (fun i => Rabs (octave src lac seed pos i)) (S i + k) * (1 - 2 * Rabs (octave src lac seed pos (S i + k)))).
Proof.
  induction n; intros src gain w lac seed pos i amp sum Hamp; [cbn; toR; ring|].
  cbn [ridged_loop]. unfold slet, Lerp. sunf. rlit. rewrite octave_seed_S, octave_pos_S.
  fold (octave src lac seed pos (S i)).
  rewrite (IHn src gain w lac seed pos (S i)).
  - rewrite sumR_shift. toR. rewrite Nat.add_0_r, Rplus_assoc. f_equal. f_equal.
    + cbn [amplitude]. rewrite Hamp. unfold ridged_weight. ring.
    + apply sumR_ext. intros. replace (S i + S i0)%nat with (S (S i) + i0)%nat by lia. reflexivity.
  - cbn [amplitude]. rewrite Hamp. unfold ridged_weight. ring.
Qed.
Theorem C46_ridged : forall (fr : fractal S_ scalar) (src : source) (seed : Z) (pos : list R), in32 seed ->
  let noise := fun i => Rabs (octave src (frLacunarity fr) seed pos i) in
  let amp := amplitude ridged_weight (val (frGain fr) seed pos) (val (frWeight fr) seed pos) noise in
  RidgedGen fr src seed pos = sumR (octaves (frOctaves fr)) (fun i => amp i * (1 - 2 * noise i)).
Proof.
  intros fr src seed pos Hs noise amp. unfold RidgedGen. rewrite !gsv_val. unfold slet.
  pose proof (ridged_loop_eq (Z.to_nat (frOctaves fr - 1)) src (val (frGain fr) seed pos) (val (frWeight fr) seed pos) (frLacunarity fr) seed pos 0 1
    ((Rabs (src seed pos) * -2 + 1) * 1) eq_refl) as L.
  destruct (fbm_start src (frLacunarity fr) seed pos Hs) as [E1 E2]. rewrite E1, E2, octave_0 in L by assumption.
  unfold octaves. rewrite sumR_shift. unfold amp at 1, noise at 2. rewrite octave_0 by assumption. cbn [amplitude].
  sunf. rlit. toR. rewrite Rmult_1_r in L. rewrite Rmult_1_l.
  replace (1 - 2 * Rabs (src seed pos)) with (Rabs (src seed pos) * -2 + 1) by ring. exact L.
Qed.

(** ** C45 *)
Lemma amplitude_bound : forall wt gain w noise i, 0 <= w <= 1 -> (forall k, 0 <= wt (noise k) <= 1) ->
  Rabs (amplitude wt gain w noise i) <= Rabs gain ^ i.
Proof.
  induction i; intros Hw Hn; cbn [amplitude pow]; [rewrite Rabs_R1; lra|].
  rewrite !Rabs_mult. assert (Rabs (1 + w * (wt (noise i) - 1)) <= 1) by (apply Rabs_le; specialize (Hn i); nra).
  specialize (IHi Hw Hn). pose proof (Rabs_pos gain). pose proof (Rabs_pos (amplitude wt gain w noise i)).
  pose proof (Rabs_pos (1 + w * (wt (noise i) - 1))).
  rewrite (Rmult_comm (Rabs gain)). apply Rmult_le_compat_r; [assumption|].
  apply Rle_trans with (Rabs (amplitude wt gain w noise i) * 1); [apply Rmult_le_compat_l; assumption|lra].
Qed.
(** A source with values in [-1, 1] *)
Definition bounded (src : source) : Prop := forall seed pos, -1 <= src seed pos <= 1.
Theorem C45_fractal_bound : forall (fr : fractal S_ scalar) (src : source) (seed : Z) (pos : list R), in32 seed -> bounded src ->
  0 <= val (frWeight fr) seed pos <= 1 ->
  let gain := Rabs (val (frGain fr) seed pos) in let bound := sumR (octaves (frOctaves fr)) (fun i => gain ^ i) in
  Rabs (FBmGen fr src seed pos) <= bound /\ Rabs (RidgedGen fr src seed pos) <= bound /\ (gain < 1 -> bound <= 1 / (1 - gain)).
Proof.
  intros fr src seed pos Hs Hb Hw gain bound.
  rewrite C46_fbm, C46_ridged by assumption. cbv zeta. repeat split.
  - apply sumR_abs. intros i _. rewrite Rabs_mult.
    pose proof (amplitude_bound fbm_weight (val (frGain fr) seed pos) _ (octave src (frLacunarity fr) seed pos) i Hw) as A.
    assert (Rabs (octave src (frLacunarity fr) seed pos i) <= 1) by (apply Rabs_le; apply Hb).
    assert (forall k, 0 <= fbm_weight (octave src (frLacunarity fr) seed pos k) <= 1) as K.
    { intros k. unfold fbm_weight. pose proof (Hb (octave_seed seed k) (map (fun p => p * frLacunarity fr ^ k) pos)).
      fold (octave src (frLacunarity fr) seed pos k) in *. lra. }
    specialize (A K). fold gain in A. pose proof (Rabs_pos (octave src (frLacunarity fr) seed pos i)).
    pose proof (Rabs_pos (amplitude fbm_weight (val (frGain fr) seed pos) (val (frWeight fr) seed pos) (octave src (frLacunarity fr) seed pos) i)). nra.
  - apply sumR_abs. intros i _. rewrite Rabs_mult.
    set (noise := fun i => Rabs (octave src (frLacunarity fr) seed pos i)).
    pose proof (amplitude_bound ridged_weight (val (frGain fr) seed pos) _ noise i Hw) as A.
    assert (forall k, 0 <= noise k <= 1) as N.
    { intros k. split; [apply Rabs_pos|]. apply Rabs_le. apply Hb. }
    assert (forall k, 0 <= ridged_weight (noise k) <= 1) as K by (intros k; unfold ridged_weight; specialize (N k); lra).
    specialize (A K). fold gain in A. change (Rabs (octave src (frLacunarity fr) seed pos i)) with (noise i).
    assert (Rabs (1 - 2 * noise i) <= 1) by (apply Rabs_le; specialize (N i); lra).
    pose proof (Rabs_pos (1 - 2 * noise i)).
    pose proof (Rabs_pos (amplitude ridged_weight (val (frGain fr) seed pos) (val (frWeight fr) seed pos) noise i)). nra.
  - intros Hg. apply sumR_geo. split; [apply Rabs_pos|exact Hg].
Qed.
(** one octave (or a count below one) of FBm is the source itself *)
Theorem C45_one_octave : forall (fr : fractal S_ scalar) (src : source) (seed : Z) (pos : list R), (frOctaves fr <= 1)%Z ->
  FBmGen fr src seed pos = src seed pos.
Proof.
  intros. unfold FBmGen, slet. replace (Z.to_nat (frOctaves fr - 1)) with O by lia. cbn [fbm_loop]. sunf. rlit. reflexivity.
Qed.
End Mod.
Print Assumptions C46_fbm.
Print Assumptions C46_fbm_unweighted.
Print Assumptions C46_ridged.
Print Assumptions C45_fractal_bound.
Print Assumptions C45_one_octave.
