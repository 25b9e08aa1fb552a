(** C33-C35: Value and Perlin noise. Real arithmetic, one lane (C51 carries the results to every lane).
    The conversion of a floored coordinate to int is exact in the model; in the code it is for
    |coordinate * frequency| < 2^31. *)
From Coq Require Import Reals ZArith List Bool Lia Lra Psatz.
From Verif Require Import Prelude Simd_Model Utils_Model Nodes_Model Setters_Model Simd_R Bits P_Hash P_Grad P_Blend Lattice.
Import ListNotations.
Open Scope R_scope.

Section Lat.
Variable inf : R.
Variable bits : R -> Z.
Notation S_ := (Rops inf bits).
Notation source := (source S_ scalar).

(** the output range after SetOutputMin( lo ) and SetOutputMax( hi ) *)
Definition out_range (lo hi : R) : range S_ := SetOutputMax (s:=S_) (SetOutputMin (s:=S_) range_default lo) hi.
Lemma out_range_eq : forall lo hi, (rMin (out_range lo hi) : R) = lo /\ (rScale (out_range lo hi) : R) = hi - lo.
Proof.
  intros. unfold out_range, SetOutputMax, SetOutputMin, range_default. cbn [rMin rScale]. sunf. rlit. split; [reflexivity|toR; ring].
Qed.
(** the output for a native value *)
Definition rescale (lo hi B v : R) : R := lo + (hi - lo) * ((v + B) / (2 * B)).
Lemma ScaleOutput_eq : forall lo hi (B v : R), B <> 0 ->
  ScaleOutput (s:=S_) (W:=scalar) (out_range lo hi) v (s_neg (s:=S_) B) B = rescale lo hi B v.
Proof.
  intros. unfold ScaleOutput. destruct (out_range_eq lo hi) as [E1 E2]. revert E1 E2.
  generalize (rMin (out_range lo hi)) (rScale (out_range lo hi)). sunf. intros a b -> ->. rlit. unfold rescale. toR. field. lra.
Qed.
Lemma rescale_range : forall lo hi B v, lo <= hi -> 0 < B -> - B <= v <= B -> lo <= rescale lo hi B v <= hi.
Proof.
  intros. unfold rescale. assert (0 < / (2 * B)) by (apply Rinv_0_lt_compat; lra).
  assert (0 <= (v + B) / (2 * B) <= 1).
  { unfold Rdiv. split; [apply Rmult_le_pos; lra|]. apply Rle_trans with ((2 * B) * / (2 * B)); [apply Rmult_le_compat_r; lra|right; field; lra]. }
  split; nra.
Qed.
Lemma rescale_dev : forall lo hi B v, 0 < B -> rescale lo hi B v - (lo + hi) / 2 = (hi - lo) / 2 * (v / B).
Proof. intros. unfold rescale. field. lra. Qed.

(** ** The nodes as lattice noises *)
Lemma mul_prime : forall n p, z_mul n (s32 p) = z_mul n p.
Proof. intros. unfold z_mul. apply s32_idem_mul_r. Qed.
Lemma next_prime : forall n p, z_add (z_mul n (s32 p)) (s32 p) = z_mul (n + 1) p.
Proof. intros. rewrite mul_prime. unfold z_add, z_mul. rewrite s32_idem_add_l, s32_idem_add_r. f_equal. ring. Qed.

Definition value_corner (seed : Z) (cs : list Z) (os : list R) : R := GetValueCoord (s:=S_) (W:=scalar) seed (primed PrimesLookup cs).
Definition perlin_corner (seed : Z) (cs : list Z) (os : list R) : R :=
  let h := hash31 seed cs in
  match os with
  | [x; y] => dot2 (perlin2_grad h) x y
  | [x; y; z] => dot3 (common_grad h) x y z
  | [x; y; z; w] => dot4 (perlin4_grad h) x y z w
  | _ => 0
  end.
Definition kPerlin (d : nat) : R := match d with 2%nat => 3621355 / 2097152 | 3%nat => 4346735 / 4194304 | _ => 11228875 / 8388608 end.
Definition scale (freq : R) (pos : list R) : list R := map (fun x => x * freq) pos.
Definition dims (pos : list R) : Prop := (2 <= length pos <= 4)%nat.

Lemma hermite_eq : forall t : R, InterpHermite (s:=S_) (W:=scalar) t = hermite t.
Proof. intros. unfold InterpHermite, hermite. sunf. rlit. toR. ring. Qed.
Lemma quintic_eq : forall t : R, InterpQuintic (s:=S_) (W:=scalar) t = quintic t.
Proof. intros. unfold InterpQuintic, quintic. sunf. rlit. toR. ring. Qed.

Lemma lerp2 : forall c00 c01 c10 c11 xs ys : R, (Lerp (s:=S_) (W:=scalar) (Lerp (s:=S_) (W:=scalar) c00 c10 xs) (Lerp (s:=S_) (W:=scalar) c01 c11 xs) ys) = ((1 - xs) * ((1 - ys) * c00 + ys * c01) + xs * ((1 - ys) * c10 + ys * c11)).
Proof. intros. unfold Lerp. sunf. toR. ring. Qed.
Lemma lerp3 : forall c000 c001 c010 c011 c100 c101 c110 c111 xs ys zs : R, (Lerp (s:=S_) (W:=scalar) (Lerp (s:=S_) (W:=scalar) (Lerp (s:=S_) (W:=scalar) c000 c100 xs) (Lerp (s:=S_) (W:=scalar) c010 c110 xs) ys) (Lerp (s:=S_) (W:=scalar) (Lerp (s:=S_) (W:=scalar) c001 c101 xs) (Lerp (s:=S_) (W:=scalar) c011 c111 xs) ys) zs) = ((1 - xs) * ((1 - ys) * ((1 - zs) * c000 + zs * c001) + ys * ((1 - zs) * c010 + zs * c011)) + xs * ((1 - ys) * ((1 - zs) * c100 + zs * c101) + ys * ((1 - zs) * c110 + zs * c111))).
Proof. intros. unfold Lerp. sunf. toR. ring. Qed.
Lemma lerp4 : forall c0000 c0001 c0010 c0011 c0100 c0101 c0110 c0111 c1000 c1001 c1010 c1011 c1100 c1101 c1110 c1111 xs ys zs ws : R, (Lerp (s:=S_) (W:=scalar) (Lerp (s:=S_) (W:=scalar) (Lerp (s:=S_) (W:=scalar) (Lerp (s:=S_) (W:=scalar) c0000 c1000 xs) (Lerp (s:=S_) (W:=scalar) c0100 c1100 xs) ys) (Lerp (s:=S_) (W:=scalar) (Lerp (s:=S_) (W:=scalar) c0010 c1010 xs) (Lerp (s:=S_) (W:=scalar) c0110 c1110 xs) ys) zs) (Lerp (s:=S_) (W:=scalar) (Lerp (s:=S_) (W:=scalar) (Lerp (s:=S_) (W:=scalar) c0001 c1001 xs) (Lerp (s:=S_) (W:=scalar) c0101 c1101 xs) ys) (Lerp (s:=S_) (W:=scalar) (Lerp (s:=S_) (W:=scalar) c0011 c1011 xs) (Lerp (s:=S_) (W:=scalar) c0111 c1111 xs) ys) zs) ws) = ((1 - xs) * ((1 - ys) * ((1 - zs) * ((1 - ws) * c0000 + ws * c0001) + zs * ((1 - ws) * c0010 + ws * c0011)) + ys * ((1 - zs) * ((1 - ws) * c0100 + ws * c0101) + zs * ((1 - ws) * c0110 + ws * c0111))) + xs * ((1 - ys) * ((1 - zs) * ((1 - ws) * c1000 + ws * c1001) + zs * ((1 - ws) * c1010 + ws * c1011)) + ys * ((1 - zs) * ((1 - ws) * c1100 + ws * c1101) + zs * ((1 - ws) * c1110 + ws * c1111)))).
Proof. intros. unfold Lerp. sunf. toR. ring. Qed.
Lemma kv_eq : (@kValueBounds S_ : R) = IZR (2^31).
Proof. unfold kValueBounds; cbn [lit Rops]; rewrite pow2_nonneg by lia; apply Rmult_1_l. Qed.
Lemma kv_nz : (@kValueBounds S_ : R) <> 0. Proof. rewrite kv_eq. apply not_0_IZR; lia. Qed.
(** the primed coordinates of the lower and upper corner along an axis *)
Lemma lower : forall (X : R) p, imul (W:=scalar) (to_int (s:=S_) (W:=scalar) (ffloor (s:=S_) (W:=scalar) X)) (iv (W:=scalar) p) = z_mul (Rfloor X) p.
Proof. intros. sunf. rewrite Rnear_IZR. apply mul_prime. Qed.
Lemma upper : forall (X : R) p, iadd (W:=scalar) (imul (W:=scalar) (to_int (s:=S_) (W:=scalar) (ffloor (s:=S_) (W:=scalar) X)) (iv (W:=scalar) p)) (iv (W:=scalar) p) = z_mul (Rfloor X + 1) p.
Proof. intros. sunf. rewrite Rnear_IZR. apply next_prime. Qed.
Lemma frac0 : forall X : R, fsub (s:=S_) (W:=scalar) X (ffloor (s:=S_) (W:=scalar) X) = X - IZR (Rfloor X).
Proof. reflexivity. Qed.
Lemma frac1 : forall X : R, fsub (s:=S_) (W:=scalar) (fsub (s:=S_) (W:=scalar) X (ffloor (s:=S_) (W:=scalar) X)) (num (s:=S_) (W:=scalar) 1) = X - IZR (Rfloor X + 1).
Proof. intros. sunf. rlit. rewrite plus_IZR. toR. ring. Qed.
Lemma so_eq : forall seed so : Z, iadd (W:=scalar) seed (iv (W:=scalar) so) = z_add seed (s32 so).
Proof. reflexivity. Qed.
Lemma value_eq2 : forall so (freq lo hi : R) (seed : Z) (x y : R),
  ValueGen (s:=S_) (W:=scalar) so freq (out_range lo hi) seed [x; y] =
  rescale lo hi (IZR (2^31)) (lattice hermite (value_corner (z_add seed (s32 so))) (scale freq [x; y])).
Proof.
  intros. cbn [ValueGen]. unfold ValueGen2, slet, prX, prY, prZ, prW.
  refine (eq_trans (ScaleOutput_eq _ _ _ _ kv_nz) _). rewrite kv_eq. f_equal.
  refine (eq_trans (lerp2 _ _ _ _ _ _ ) _).
  rewrite !hermite_eq. unfold lattice, scale. cbn [map]. change (x * freq) with (fmul (s:=S_) (W:=scalar) x (fv (s:=S_) (W:=scalar) freq)). change (y * freq) with (fmul (s:=S_) (W:=scalar) y (fv (s:=S_) (W:=scalar) freq)).
  generalize (fmul (s:=S_) (W:=scalar) x (fv (s:=S_) (W:=scalar) freq)) (fmul (s:=S_) (W:=scalar) y (fv (s:=S_) (W:=scalar) freq)). intros X0 Y0. rewrite so_eq, !upper, !lower. cbn [map wsum nth offs]. unfold value_corner. cbn [primed PrimesLookup].
  reflexivity.
Qed.
Lemma value_eq3 : forall so (freq lo hi : R) (seed : Z) (x y z : R),
  ValueGen (s:=S_) (W:=scalar) so freq (out_range lo hi) seed [x; y; z] =
  rescale lo hi (IZR (2^31)) (lattice hermite (value_corner (z_add seed (s32 so))) (scale freq [x; y; z])).
Proof.
  intros. cbn [ValueGen]. unfold ValueGen3, slet, prX, prY, prZ, prW.
  refine (eq_trans (ScaleOutput_eq _ _ _ _ kv_nz) _). rewrite kv_eq. f_equal.
  refine (eq_trans (lerp3 _ _ _ _ _ _ _ _ _ _ _ ) _).
  rewrite !hermite_eq. unfold lattice, scale. cbn [map]. change (x * freq) with (fmul (s:=S_) (W:=scalar) x (fv (s:=S_) (W:=scalar) freq)). change (y * freq) with (fmul (s:=S_) (W:=scalar) y (fv (s:=S_) (W:=scalar) freq)). change (z * freq) with (fmul (s:=S_) (W:=scalar) z (fv (s:=S_) (W:=scalar) freq)).
  generalize (fmul (s:=S_) (W:=scalar) x (fv (s:=S_) (W:=scalar) freq)) (fmul (s:=S_) (W:=scalar) y (fv (s:=S_) (W:=scalar) freq)) (fmul (s:=S_) (W:=scalar) z (fv (s:=S_) (W:=scalar) freq)). intros X0 Y0 Z0. rewrite so_eq, !upper, !lower. cbn [map wsum nth offs]. unfold value_corner. cbn [primed PrimesLookup].
  reflexivity.
Qed.
Lemma value_eq4 : forall so (freq lo hi : R) (seed : Z) (x y z w : R),
  ValueGen (s:=S_) (W:=scalar) so freq (out_range lo hi) seed [x; y; z; w] =
  rescale lo hi (IZR (2^31)) (lattice hermite (value_corner (z_add seed (s32 so))) (scale freq [x; y; z; w])).
Proof.
  intros. cbn [ValueGen]. unfold ValueGen4, slet, prX, prY, prZ, prW.
  refine (eq_trans (ScaleOutput_eq _ _ _ _ kv_nz) _). rewrite kv_eq. f_equal.
  refine (eq_trans (lerp4 _ _ _ _ _ _ _ _ _ _ _ _ _ _ _ _ _ _ _ _ ) _).
  rewrite !hermite_eq. unfold lattice, scale. cbn [map]. change (x * freq) with (fmul (s:=S_) (W:=scalar) x (fv (s:=S_) (W:=scalar) freq)). change (y * freq) with (fmul (s:=S_) (W:=scalar) y (fv (s:=S_) (W:=scalar) freq)). change (z * freq) with (fmul (s:=S_) (W:=scalar) z (fv (s:=S_) (W:=scalar) freq)). change (w * freq) with (fmul (s:=S_) (W:=scalar) w (fv (s:=S_) (W:=scalar) freq)).
  generalize (fmul (s:=S_) (W:=scalar) x (fv (s:=S_) (W:=scalar) freq)) (fmul (s:=S_) (W:=scalar) y (fv (s:=S_) (W:=scalar) freq)) (fmul (s:=S_) (W:=scalar) z (fv (s:=S_) (W:=scalar) freq)) (fmul (s:=S_) (W:=scalar) w (fv (s:=S_) (W:=scalar) freq)). intros X0 Y0 Z0 W0. rewrite so_eq, !upper, !lower. cbn [map wsum nth offs]. unfold value_corner. cbn [primed PrimesLookup].
  reflexivity.
Qed.
Lemma value_eq : forall so (freq lo hi : R) (seed : Z) (pos : list R), dims pos ->
  ValueGen (s:=S_) (W:=scalar) so freq (out_range lo hi) seed pos = rescale lo hi (IZR (2^31)) (lattice hermite (value_corner (z_add seed (s32 so))) (scale freq pos)).
Proof.
  intros so freq lo hi seed pos Hd. unfold dims in Hd.
  destruct pos as [|x [|y [|z [|w [|? ?]]]]]; cbn [length] in Hd; try lia; [apply value_eq2|apply value_eq3|apply value_eq4].
Qed.
Lemma Rminus_plus1 : forall a b : R, a - (b + 1) = a - b - 1. Proof. intros. ring. Qed.
Lemma E2 : (@kBoundPerlin2 S_ : R) = kPerlin 2.
Proof. unfold kBoundPerlin2, kPerlin; cbn [lit Rops]; change (-21)%Z with (- (21))%Z; rewrite (pow2_neg 21) by lia; reflexivity. Qed.
Lemma E3 : (@kBoundPerlin3 S_ : R) = kPerlin 3.
Proof. unfold kBoundPerlin3, kPerlin; cbn [lit Rops]; change (-22)%Z with (- (22))%Z; rewrite (pow2_neg 22) by lia; reflexivity. Qed.
Lemma E4 : (@kBoundPerlin4 S_ : R) = kPerlin 4.
Proof. unfold kBoundPerlin4, kPerlin; cbn [lit Rops]; change (-23)%Z with (- (23))%Z; rewrite (pow2_neg 23) by lia; reflexivity. Qed.
Lemma HB : forall d (B : R), B = kPerlin d -> B <> 0.
Proof. intros [|[|[|[|d]]]] B ->; unfold kPerlin; lra. Qed.
Lemma perlin_eq2 : forall ft so (freq lo hi : R) (seed : Z) (x y : R),
  PerlinGen (s:=S_) (W:=scalar) ft so freq (out_range lo hi) seed [x; y] =
  rescale lo hi (kPerlin 2) (lattice quintic (perlin_corner (z_add seed (s32 so))) (scale freq [x; y])).
Proof.
  intros. cbn [PerlinGen]. unfold PerlinGen2, slet, prX, prY, prZ, prW.
  refine (eq_trans (ScaleOutput_eq _ _ _ _ (HB 2 _ E2)) _). rewrite E2. f_equal.
  refine (eq_trans (lerp2 _ _ _ _ _ _ ) _).
  rewrite !quintic_eq, !C32_perlin2. unfold lattice, scale. cbn [map]. change (x * freq) with (fmul (s:=S_) (W:=scalar) x (fv (s:=S_) (W:=scalar) freq)). change (y * freq) with (fmul (s:=S_) (W:=scalar) y (fv (s:=S_) (W:=scalar) freq)).
  generalize (fmul (s:=S_) (W:=scalar) x (fv (s:=S_) (W:=scalar) freq)) (fmul (s:=S_) (W:=scalar) y (fv (s:=S_) (W:=scalar) freq)). intros X0 Y0. rewrite so_eq, !upper, !lower, !frac1, !frac0. cbn [map wsum nth offs]. unfold perlin_corner, hash31. cbn [primed PrimesLookup].
  reflexivity.
Qed.
Lemma perlin_eq3 : forall ft so (freq lo hi : R) (seed : Z) (x y z : R),
  PerlinGen (s:=S_) (W:=scalar) ft so freq (out_range lo hi) seed [x; y; z] =
  rescale lo hi (kPerlin 3) (lattice quintic (perlin_corner (z_add seed (s32 so))) (scale freq [x; y; z])).
Proof.
  intros. cbn [PerlinGen]. unfold PerlinGen3, slet, prX, prY, prZ, prW.
  refine (eq_trans (ScaleOutput_eq _ _ _ _ (HB 3 _ E3)) _). rewrite E3. f_equal.
  refine (eq_trans (lerp3 _ _ _ _ _ _ _ _ _ _ _ ) _).
  rewrite !quintic_eq, !C32_common. unfold lattice, scale. cbn [map]. change (x * freq) with (fmul (s:=S_) (W:=scalar) x (fv (s:=S_) (W:=scalar) freq)). change (y * freq) with (fmul (s:=S_) (W:=scalar) y (fv (s:=S_) (W:=scalar) freq)). change (z * freq) with (fmul (s:=S_) (W:=scalar) z (fv (s:=S_) (W:=scalar) freq)).
  generalize (fmul (s:=S_) (W:=scalar) x (fv (s:=S_) (W:=scalar) freq)) (fmul (s:=S_) (W:=scalar) y (fv (s:=S_) (W:=scalar) freq)) (fmul (s:=S_) (W:=scalar) z (fv (s:=S_) (W:=scalar) freq)). intros X0 Y0 Z0. rewrite so_eq, !upper, !lower, !frac1, !frac0. cbn [map wsum nth offs]. unfold perlin_corner, hash31. cbn [primed PrimesLookup].
  reflexivity.
Qed.
Lemma perlin_eq4 : forall ft so (freq lo hi : R) (seed : Z) (x y z w : R),
  PerlinGen (s:=S_) (W:=scalar) ft so freq (out_range lo hi) seed [x; y; z; w] =
  rescale lo hi (kPerlin 4) (lattice quintic (perlin_corner (z_add seed (s32 so))) (scale freq [x; y; z; w])).
Proof.
  intros. cbn [PerlinGen]. unfold PerlinGen4, slet, prX, prY, prZ, prW.
  refine (eq_trans (ScaleOutput_eq _ _ _ _ (HB 4 _ E4)) _). rewrite E4. f_equal.
  refine (eq_trans (lerp4 _ _ _ _ _ _ _ _ _ _ _ _ _ _ _ _ _ _ _ _ ) _).
  rewrite !quintic_eq, !C32_perlin4. unfold lattice, scale. cbn [map]. change (x * freq) with (fmul (s:=S_) (W:=scalar) x (fv (s:=S_) (W:=scalar) freq)). change (y * freq) with (fmul (s:=S_) (W:=scalar) y (fv (s:=S_) (W:=scalar) freq)). change (z * freq) with (fmul (s:=S_) (W:=scalar) z (fv (s:=S_) (W:=scalar) freq)). change (w * freq) with (fmul (s:=S_) (W:=scalar) w (fv (s:=S_) (W:=scalar) freq)).
  generalize (fmul (s:=S_) (W:=scalar) x (fv (s:=S_) (W:=scalar) freq)) (fmul (s:=S_) (W:=scalar) y (fv (s:=S_) (W:=scalar) freq)) (fmul (s:=S_) (W:=scalar) z (fv (s:=S_) (W:=scalar) freq)) (fmul (s:=S_) (W:=scalar) w (fv (s:=S_) (W:=scalar) freq)). intros X0 Y0 Z0 W0. rewrite so_eq, !upper, !lower, !frac1, !frac0. cbn [map wsum nth offs]. unfold perlin_corner, hash31. cbn [primed PrimesLookup].
  reflexivity.
Qed.
Lemma perlin_eq : forall ft so (freq lo hi : R) (seed : Z) (pos : list R), dims pos ->
  PerlinGen (s:=S_) (W:=scalar) ft so freq (out_range lo hi) seed pos =
  rescale lo hi (kPerlin (length pos)) (lattice quintic (perlin_corner (z_add seed (s32 so))) (scale freq pos)).
Proof.
  intros ft so freq lo hi seed pos Hd. unfold dims in Hd.
  destruct pos as [|x [|y [|z [|w [|? ?]]]]]; cbn [length] in Hd; try lia; [apply perlin_eq2|apply perlin_eq3|apply perlin_eq4].
Qed.

(** ** C33 *)
Lemma value_corner_range : forall seed cs os, - IZR (2^31) <= value_corner seed cs os <= IZR (2^31).
Proof.
  intros. assert (E : exists z, value_corner seed cs os = IZR (s32 z)).
  { eexists. unfold value_corner, GetValueCoord, slet, of_int, imul at 1, z_mul at 1. cbn [map1 map2 scalar s_ofint Rops]. reflexivity. }
  destruct E as [z ->]. pose proof (s32_range z) as [A B]. rewrite <- opp_IZR. split; apply IZR_le; [exact A|]. apply Z.lt_le_incl. exact B.
Qed.
Theorem C33_value_range : forall so (freq lo hi : R) (seed : Z) (pos : list R), dims pos -> lo <= hi ->
  lo <= ValueGen (s:=S_) (W:=scalar) so freq (out_range lo hi) seed pos <= hi.
Proof.
  intros so freq lo hi seed pos Hd H. rewrite value_eq by assumption. apply rescale_range; auto; [apply IZR_lt; lia|].
  assert (A : Rabs (lattice hermite (value_corner (z_add seed (s32 so))) (scale freq pos)) <= IZR (2^31)).
  { rewrite <- (wsum_const hermite (map Rfloor (scale freq pos)) 0 (scale freq pos) (IZR (2^31))).
    apply lattice_abs; try (intros; apply (interp_range Hermite); assumption).
    intros cs. apply Rabs_le, value_corner_range. }
  unfold Rabs in A. destruct (Rcase_abs _); lra.
Qed.

(** ** C34 *)
Lemma cont_poly : forall f xs, continuous_at f xs -> continuous_at (fun ys => hermite (f ys)) xs /\ continuous_at (fun ys => quintic (f ys)) xs.
Proof.
  intros f xs H. split; unfold hermite, quintic;
    repeat first [exact H | apply cont_mult | apply cont_plus | apply cont_minus | apply cont_opp | apply cont_const].
Qed.
Lemma cont_rescale : forall lo hi B f xs, continuous_at f xs -> continuous_at (fun ys => rescale lo hi B (f ys)) xs.
Proof.
  intros lo hi B f xs H. unfold rescale, Rdiv. repeat first [exact H | apply cont_mult | apply cont_plus | apply cont_minus | apply cont_opp | apply cont_const].
Qed.
Lemma nth_offs : forall ys cs k, (k < length ys)%nat -> (k < length cs)%nat -> nth k (offs ys cs) 0 = nth k ys 0 - IZR (nth k cs 0%Z).
Proof. induction ys; intros [|c cs] [|k]; cbn [length nth offs]; intros; try lia; auto. apply IHys; lia. Qed.
Lemma list_eta : forall (l : list R), l = map (fun k => nth k l 0) (seq 0 (length l)).
Proof. induction l; cbn [length seq map]; auto. f_equal; auto. rewrite IHl at 1. rewrite <- seq_shift, map_map. reflexivity. Qed.
Lemma offs_eta : forall ys cs, offs ys cs = map (fun k => nth k ys 0 - IZR (nth k cs 0%Z)) (seq 0 (Nat.min (length ys) (length cs))).
Proof.
  induction ys; intros [|c cs]; cbn [length offs Nat.min seq map]; auto. f_equal. rewrite IHys, <- seq_shift, map_map. reflexivity.
Qed.
Lemma perlin_corner_cont : forall seed cs xs, continuous_at (fun ys => perlin_corner seed cs (offs ys cs)) xs.
Proof.
  intros. assert (C : forall k, continuous_at (fun ys => nth k ys 0 - IZR (nth k cs 0%Z)) xs).
  { intros. apply cont_minus; [apply cont_nth|apply cont_const]. }
  eapply cont_ext with (f := fun ys => perlin_corner seed cs (map (fun k => nth k ys 0 - IZR (nth k cs 0%Z)) (seq 0 (Nat.min (length xs) (length cs))))).
  { intros ys E. rewrite offs_eta, E. reflexivity. }
  destruct (Nat.min (length xs) (length cs)) as [|[|[|[|[|n]]]]]; cbn [seq map perlin_corner]; try apply cont_const.
  - unfold dot2. apply cont_plus; apply cont_mult; auto using cont_const.
  - unfold dot3. destruct (common_grad _) as [[a b] c]. repeat apply cont_plus; apply cont_mult; auto using cont_const.
  - unfold dot4. destruct (perlin4_grad _) as [[[a b] c] d]. repeat apply cont_plus; apply cont_mult; auto using cont_const.
Qed.
(** Continuous everywhere, so in particular across every cell border. *)
Theorem C34_value_continuous : forall so (freq lo hi : R) (seed : Z) (pos : list R), dims pos ->
  continuous_at (fun p => ValueGen (s:=S_) (W:=scalar) so freq (out_range lo hi) seed p) pos.
Proof.
  intros so freq lo hi seed pos Hd.
  apply cont_ext with (f := fun p => rescale lo hi (IZR (2^31)) (lattice hermite (value_corner (z_add seed (s32 so))) (scale freq p))).
  { intros ys E. symmetry. apply value_eq. unfold dims in *. lia. }
  apply cont_rescale. unfold scale. apply cont_scale. apply lattice_continuous.
  - apply (interp_0 Hermite).
  - apply (interp_1 Hermite).
  - intros. apply cont_poly; auto.
  - intros. unfold value_corner. apply cont_const.
Qed.
Theorem C34_perlin_continuous : forall ft so (freq lo hi : R) (seed : Z) (pos : list R), dims pos ->
  continuous_at (fun p => PerlinGen (s:=S_) (W:=scalar) ft so freq (out_range lo hi) seed p) pos.
Proof.
  intros ft so freq lo hi seed pos Hd.
  apply cont_ext with (f := fun p => rescale lo hi (kPerlin (length pos)) (lattice quintic (perlin_corner (z_add seed (s32 so))) (scale freq p))).
  { intros ys E. symmetry. rewrite <- E. apply perlin_eq. unfold dims in *. lia. }
  apply cont_rescale. unfold scale. apply cont_scale. apply lattice_continuous.
  - apply (interp_0 Quintic).
  - apply (interp_1 Quintic).
  - intros. apply cont_poly; auto.
  - intros. apply perlin_corner_cont.
Qed.

(** ** C35 *)
Lemma kPerlin_pos : forall d, 0 < kPerlin d.
Proof. intros [|[|[|[|d]]]]; unfold kPerlin; lra. Qed.
(** the midpoint of the output range wherever all coordinates, times the frequency, are integers *)
Theorem C35_lattice_points : forall ft so (freq lo hi : R) (seed : Z) (pos : list R) (ks : list Z), dims pos ->
  map (fun x => x * freq) pos = map IZR ks ->
  PerlinGen (s:=S_) (W:=scalar) ft so freq (out_range lo hi) seed pos = (lo + hi) / 2.
Proof.
  intros ft so freq lo hi seed pos ks Hd H. rewrite perlin_eq by assumption. unfold scale. rewrite H.
  rewrite (lattice_at quintic) by (apply (interp_0 Quintic)).
  assert (E : perlin_corner (z_add seed (s32 so)) ks (map (fun _ => 0) ks) = 0).
  { destruct ks as [|a [|b [|c [|d [|? ?]]]]]; cbn [map perlin_corner]; auto; unfold dot2, dot3, dot4.
    - ring.
    - destruct (common_grad _) as [[? ?] ?]. ring.
    - destruct (perlin4_grad _) as [[[? ?] ?] ?]. ring. }
  rewrite E. pose proof (kPerlin_pos (length pos)). unfold rescale. toR. field. lra.
Qed.

(** the mean distance to the two neighbours along an axis is at most one half *)
Lemma fade_half : forall a, 0 <= a <= 1 -> (1 - quintic a) * a + quintic a * (1 - a) <= 1 / 2.
Proof.
  intros a Ha.
  assert (E : 1/2 - ((1 - quintic a) * a + quintic a * (1 - a)) = (1 - 2 * a) * (1/2 - quintic a)) by field.
  assert (0 <= (1 - 2 * a) * (1/2 - quintic a)); [|lra].
  assert (quintic (1/2) = 1/2) as Q by (unfold quintic; field).
  destruct (Rle_lt_dec a (1/2)).
  - pose proof (quintic_mono a (1/2) ltac:(lra) ltac:(lra) ltac:(lra)). apply Rmult_le_pos; lra.
  - pose proof (quintic_mono (1/2) a ltac:(lra) ltac:(lra) ltac:(lra)). nra.
Qed.
Lemma common_bound : forall h x y z, Rabs (dot3 (common_grad h) x y z) <= Rabs x + Rabs y + Rabs z.
Proof.
  intros. unfold common_grad. pose proof (Z.mod_pos_bound h 16 ltac:(lia)) as Hr. set (r := (h mod 16)%Z) in *. clearbody r.
  enum r Hr; cbv -[IZR Rmult Rplus Rminus Ropp Rabs dot3 Rle]; unfold dot3; apply Rabs_le;
    unfold Rabs; repeat destruct (Rcase_abs _); lra.
Qed.
Lemma perlin4_bound : forall h x y z w, Rabs (dot4 (perlin4_grad h) x y z w) <= Rabs x + Rabs y + Rabs z + Rabs w.
Proof.
  intros. pose proof (Rle_abs x); pose proof (Rle_abs y); pose proof (Rle_abs z); pose proof (Rle_abs w).
  pose proof (Rle_abs (-x)); pose proof (Rle_abs (-y)); pose proof (Rle_abs (-z)); pose proof (Rle_abs (-w)). rewrite !Rabs_Ropp in *.
  unfold perlin4_grad. apply Rabs_le. destruct ((h / 8) mod 4)%Z as [|[p|[p|p|]|]|p];
  destruct (Z.testbit h 0), (Z.testbit h 1), (Z.testbit h 2); cbn [sgn]; unfold dot4; lra.
Qed.
Lemma frac_range : forall z, 0 <= z - IZR (Rfloor z) <= 1.
Proof. intros. pose proof (Rfloor_spec z). lra. Qed.


(** 2D: the largest possible contribution of a corner at offset (x, y) *)
Definition reach2 (x y : R) : R := (1 + root2) * Rmax (Rabs x) (Rabs y) + Rmin (Rabs x) (Rabs y).
Lemma root2_pos : 1 < root2 < 2. Proof. unfold root2. change (IZR (2^23)) with 8388608. lra. Qed.
Lemma perlin2_bound : forall h x y, Rabs (dot2 (perlin2_grad h) x y) <= reach2 x y.
Proof.
  intros. unfold perlin2_grad. pose proof (Z.mod_pos_bound h 8 ltac:(lia)) as Hr. set (r := (h mod 8)%Z) in *. clearbody r.
  pose proof root2_pos. pose proof (Rle_abs x); pose proof (Rle_abs y); pose proof (Rle_abs (-x)); pose proof (Rle_abs (-y)). rewrite !Rabs_Ropp in *.
  assert (A : forall X Y : R, - Rabs x <= X <= Rabs x -> - Rabs y <= Y <= Rabs y -> Rabs ((1 + root2) * X + Y) <= reach2 x y /\ Rabs (X + (1 + root2) * Y) <= reach2 x y).
  { intros X Y HX HY. pose proof (Rabs_pos x). pose proof (Rabs_pos y). split; apply Rabs_le; unfold reach2, Rmax, Rmin; destruct (Rle_dec (Rabs x) (Rabs y)); nra. }
  enum r Hr; cbv -[IZR Rmult Rplus Rminus Ropp Rabs dot2 Rle root2 reach2]; unfold dot2; cbn [fst snd].
  - replace ((1 + root2) * x + 1 * y) with ((1 + root2) * x + y) by ring. apply A; lra.
  - replace ((-1 - root2) * x + 1 * y) with ((1 + root2) * - x + y) by ring. apply A; lra.
  - replace ((1 + root2) * x + -1 * y) with ((1 + root2) * x + - y) by ring. apply A; lra.
  - replace ((-1 - root2) * x + -1 * y) with ((1 + root2) * - x + - y) by ring. apply A; lra.
  - replace (1 * x + (1 + root2) * y) with (x + (1 + root2) * y) by ring. apply A; lra.
  - replace (-1 * x + (1 + root2) * y) with (- x + (1 + root2) * y) by ring. apply A; lra.
  - replace (1 * x + (-1 - root2) * y) with (x + (1 + root2) * - y) by ring. apply A; lra.
  - replace (-1 * x + (-1 - root2) * y) with (- x + (1 + root2) * - y) by ring. apply A; lra.
Qed.
(** the largest possible value at the point (a, b) of a cell *)
Definition peak2 (a b : R) : R :=
  (1 - quintic a) * ((1 - quintic b) * reach2 a b + quintic b * reach2 a (1 - b)) +
  quintic a * ((1 - quintic b) * reach2 (1 - a) b + quintic b * reach2 (1 - a) (1 - b)).
Lemma reach2_swap : forall x y, reach2 x y = reach2 y x.
Proof. intros. unfold reach2. rewrite Rmax_comm, Rmin_comm. reflexivity. Qed.
Lemma peak2_swap : forall a b, peak2 a b = peak2 b a.
Proof. intros. unfold peak2. rewrite (reach2_swap a b), (reach2_swap a (1-b)), (reach2_swap (1-a) b), (reach2_swap (1-a) (1-b)). ring. Qed.
Lemma quintic_flip : forall a, quintic (1 - a) = 1 - quintic a.
Proof. intros. unfold quintic. ring. Qed.
Lemma peak2_flip : forall a b, peak2 (1 - a) b = peak2 a b.
Proof. intros. unfold peak2. rewrite quintic_flip. replace (1 - (1 - a)) with a by ring. ring. Qed.
(** the one-variable bound on the middle line of a cell; the maximum is near b = 0.44383 *)
Lemma ridge : forall b, 0 <= b <= 1/2 ->
  (1 - quintic b) * ((1 + root2) / 2 + b) + quintic b * ((1 + root2) * (1 - b) + 1 / 2) <= kPerlin 2.
Proof.
  intros b Hb. set (q := (22130807879112779654237779986286374667302993897 / 8388608000000000000000000000000000000000000000) * b^0 + (7142681736591984545599889187197124429 / 1048576000000000000000000000000000000) * b^1 + (7257237542372287356190750659 / 419430400000000000000000000) * b^2 + (-907475520287254779 / 20971520000000000) * b^3 + (85921497 / 4194304) * b^4).
  assert (E : kPerlin 2 - ((1 - quintic b) * ((1 + root2) / 2 + b) + quintic b * ((1 + root2) * (1 - b) + 1 / 2)) =
    (121134403224752495794241860610793754485735691720965637971153 / 4194304000000000000000000000000000000000000000000000000000000000000) + (14380031606965844788811167830894218287371035263 / 209715200000000000000000000000000000000000000000000000000) * (b - (4438318093 / 10000000000)) + (b - (4438318093 / 10000000000))^2 * q).
  { unfold q, quintic, kPerlin, root2. change (IZR (2^23)) with 8388608. field. }
  assert (Q : 0 <= q).
  { assert (F : q = (22130807879112779654237779986286374667302993897 / 524288000000000000000000000000000000000000000) * (b^0 * (1/2 - b)^4) + (29273489615704764199837669173483499096302993897 / 131072000000000000000000000000000000000000000) * (b^1 * (1/2 - b)^3) + (127391607912820964626789551729541870575908981691 / 262144000000000000000000000000000000000000000) * (b^2 * (1/2 - b)^2) + (50358502941228766944014324195377747954302993897 / 131072000000000000000000000000000000000000000) * (b^3 * (1/2 - b)^1) + (52354133647979415667591090030074872383302993897 / 524288000000000000000000000000000000000000000) * (b^4 * (1/2 - b)^0)) by (unfold q; field). rewrite F.
    assert (P : forall n m, 0 <= b^n * (1/2 - b)^m) by (intros; apply Rmult_le_pos; apply pow_le; lra).
    repeat apply Rplus_le_le_0_compat; apply Rmult_le_pos; try apply P; lra. }
  assert (0 <= (b - (4438318093 / 10000000000))^2 * q) by (apply Rmult_le_pos; [apply pow2_ge_0|exact Q]).
  lra.
Qed.
Lemma peak2_wedge : forall a b, 0 <= b -> b <= a -> a <= 1/2 -> peak2 a b <= kPerlin 2.
Proof.
  intros a b Hb Hba Ha. eapply Rle_trans; [|apply (ridge b); lra].
  assert (R1 : reach2 a b = (1 + root2) * a + b) by (unfold reach2; rewrite !Rabs_right, Rmax_left, Rmin_right by lra; reflexivity).
  assert (R2 : reach2 (1 - a) b = (1 + root2) * (1 - a) + b) by (unfold reach2; rewrite !Rabs_right, Rmax_left, Rmin_right by lra; reflexivity).
  assert (R3 : reach2 a (1 - b) = (1 + root2) * (1 - b) + a) by (unfold reach2; rewrite !Rabs_right, Rmax_right, Rmin_left by lra; reflexivity).
  assert (R4 : reach2 (1 - a) (1 - b) = (1 + root2) * (1 - b) + (1 - a)) by (unfold reach2; rewrite !Rabs_right, Rmax_right, Rmin_left by lra; reflexivity).
  unfold peak2. rewrite R1, R2, R3, R4.
  pose proof (fade_half a ltac:(lra)) as U. set (u := (1 - quintic a) * a + quintic a * (1 - a)) in *.
  pose proof (interp_range Quintic b ltac:(lra)) as T. cbn [interp] in T. set (t := quintic b) in *.
  replace ((1 - quintic a) * ((1 - t) * ((1 + root2) * a + b) + t * ((1 + root2) * (1 - b) + a)) +
    quintic a * ((1 - t) * ((1 + root2) * (1 - a) + b) + t * ((1 + root2) * (1 - b) + (1 - a))))
    with ((1 - t) * ((1 + root2) * u + b) + t * ((1 + root2) * (1 - b) + u)) by (unfold u; ring).
  pose proof root2_pos. apply Rplus_le_compat; apply Rmult_le_compat_l; nra.
Qed.
Lemma peak2_bound : forall a b, 0 <= a <= 1 -> 0 <= b <= 1 -> peak2 a b <= kPerlin 2.
Proof.
  assert (H : forall a b, 0 <= a <= 1/2 -> 0 <= b <= 1/2 -> peak2 a b <= kPerlin 2).
  { intros a b Ha Hb. destruct (Rle_lt_dec b a); [|rewrite peak2_swap]; apply peak2_wedge; lra. }
  assert (H' : forall a b, 0 <= a <= 1 -> 0 <= b <= 1/2 -> peak2 a b <= kPerlin 2).
  { intros a b Ha Hb. destruct (Rle_lt_dec a (1/2)); [|rewrite <- peak2_flip]; apply H; lra. }
  intros a b Ha Hb. destruct (Rle_lt_dec b (1/2)); [apply H'; lra|].
  rewrite peak2_swap, <- peak2_flip, peak2_swap. apply H'; lra.
Qed.

Definition corner_abs (zs : list R) (cs : list Z) : R := fold_right (fun o acc => Rabs o + acc) 0 (offs zs cs).
Lemma lattice2_bound : forall seed X Y, Rabs (lattice quintic (perlin_corner seed) [X; Y]) <= kPerlin 2.
Proof.
  intros seed X Y. eapply Rle_trans.
  - apply (lattice_abs quintic) with (B := fun cs => match cs with [a; b] => reach2 (X - IZR a) (Y - IZR b) | _ => Rabs (perlin_corner seed cs (offs [X; Y] cs)) end);
      try (intros; apply (interp_range Quintic); assumption).
    intros [|a [|b [|? ?]]]; try apply Rle_refl. apply perlin2_bound.
  - cbn [map wsum nth].
    pose proof (peak2_bound _ _ (frac_range X) (frac_range Y)) as P. eapply Rle_trans; [right|exact P].
    unfold peak2. rewrite !plus_IZR.
    assert (A : forall x y, reach2 (x - 1) y = reach2 (1 - x) y) by (intros; unfold reach2; rewrite (Rabs_minus_sym x 1); reflexivity).
    assert (A' : forall x y, reach2 x (y - 1) = reach2 x (1 - y)) by (intros; unfold reach2; rewrite (Rabs_minus_sym y 1); reflexivity).
    rewrite !Rminus_plus1, !A, !A'. reflexivity.
Qed.
Lemma lattice3_bound : forall seed X Y Z, Rabs (lattice quintic (perlin_corner seed) [X; Y; Z]) <= 3 / 2.
Proof.
  intros seed X Y Z. eapply Rle_trans.
  - apply (lattice_abs quintic) with (B := fun cs => match cs with [a; b; c] => Rabs (X - IZR a) + Rabs (Y - IZR b) + Rabs (Z - IZR c) | _ => Rabs (perlin_corner seed cs (offs [X; Y; Z] cs)) end);
      try (intros; apply (interp_range Quintic); assumption).
    intros [|a [|b [|c [|? ?]]]]; try apply Rle_refl. apply common_bound.
  - cbn [map wsum nth]. rewrite !plus_IZR, !Rminus_plus1.
    pose proof (frac_range X) as HX. pose proof (frac_range Y) as HY. pose proof (frac_range Z) as HZ.
    set (a := X - IZR (Rfloor X)) in *. set (b := Y - IZR (Rfloor Y)) in *. set (c := Z - IZR (Rfloor Z)) in *.
    rewrite !(Rabs_right a), !(Rabs_right b), !(Rabs_right c), !(Rabs_left1 (a - 1)), !(Rabs_left1 (b - 1)), !(Rabs_left1 (c - 1)) by lra.
    pose proof (fade_half a HX). pose proof (fade_half b HY). pose proof (fade_half c HZ).
    match goal with |- ?l <= _ => replace l with (((1 - quintic a) * a + quintic a * (1 - a)) + ((1 - quintic b) * b + quintic b * (1 - b)) + ((1 - quintic c) * c + quintic c * (1 - c))) by ring end.
    lra.
Qed.
Lemma lattice4_bound : forall seed X Y Z W, Rabs (lattice quintic (perlin_corner seed) [X; Y; Z; W]) <= 2.
Proof.
  intros seed X Y Z W. eapply Rle_trans.
  - apply (lattice_abs quintic) with (B := fun cs => match cs with [a; b; c; d] => Rabs (X - IZR a) + Rabs (Y - IZR b) + Rabs (Z - IZR c) + Rabs (W - IZR d) | _ => Rabs (perlin_corner seed cs (offs [X; Y; Z; W] cs)) end);
      try (intros; apply (interp_range Quintic); assumption).
    intros [|a [|b [|c [|d [|? ?]]]]]; try apply Rle_refl. apply perlin4_bound.
  - cbn [map wsum nth]. rewrite !plus_IZR, !Rminus_plus1.
    pose proof (frac_range X) as HX. pose proof (frac_range Y) as HY. pose proof (frac_range Z) as HZ. pose proof (frac_range W) as HW.
    set (a := X - IZR (Rfloor X)) in *. set (b := Y - IZR (Rfloor Y)) in *. set (c := Z - IZR (Rfloor Z)) in *. set (d := W - IZR (Rfloor W)) in *.
    rewrite !(Rabs_right a), !(Rabs_right b), !(Rabs_right c), !(Rabs_right d), !(Rabs_left1 (a - 1)), !(Rabs_left1 (b - 1)), !(Rabs_left1 (c - 1)), !(Rabs_left1 (d - 1)) by lra.
    pose proof (fade_half a HX). pose proof (fade_half b HY). pose proof (fade_half c HZ). pose proof (fade_half d HW).
    match goal with |- ?l <= _ => replace l with (((1 - quintic a) * a + quintic a * (1 - a)) + ((1 - quintic b) * b + quintic b * (1 - b)) + ((1 - quintic c) * c + quintic c * (1 - c)) + ((1 - quintic d) * d + quintic d * (1 - d))) by ring end.
    lra.
Qed.

(** 2D: the output never leaves the configured range *)
Theorem C35_range_2d : forall ft so (freq lo hi : R) (seed : Z) (x y : R), lo <= hi ->
  lo <= PerlinGen (s:=S_) (W:=scalar) ft so freq (out_range lo hi) seed [x; y] <= hi.
Proof.
  intros. rewrite perlin_eq2. apply rescale_range; auto using kPerlin_pos.
  pose proof (lattice2_bound (z_add seed (s32 so)) (x * freq) (y * freq)) as A. unfold scale. cbn [map].
  unfold Rabs in A. destruct (Rcase_abs _); lra.
Qed.
(** Every dimension: the deviation from the midpoint is at most 1.5 times the nominal one. *)
Theorem C35_bound : forall ft so (freq lo hi : R) (seed : Z) (pos : list R), dims pos -> lo <= hi ->
  Rabs (PerlinGen (s:=S_) (W:=scalar) ft so freq (out_range lo hi) seed pos - (lo + hi) / 2) <= 3 / 2 * ((hi - lo) / 2).
Proof.
  intros ft so freq lo hi seed pos Hd H. rewrite perlin_eq by assumption. rewrite rescale_dev by apply kPerlin_pos.
  rewrite Rabs_mult, (Rabs_right ((hi - lo) / 2)) by lra. rewrite (Rmult_comm (3/2)). apply Rmult_le_compat_l; [lra|].
  unfold Rdiv. rewrite Rabs_mult, (Rabs_right (/ _)) by (left; apply Rinv_0_lt_compat, kPerlin_pos).
  pose proof (kPerlin_pos (length pos)) as K.
  apply Rmult_le_reg_r with (kPerlin (length pos)); [exact K|]. rewrite Rmult_assoc, Rinv_l, Rmult_1_r by lra.
  unfold dims in Hd. unfold scale. destruct pos as [|x [|y [|z [|w [|? ?]]]]]; cbn [length] in Hd; try lia; cbn [map length] in *.
  - eapply Rle_trans; [apply lattice2_bound|]. lra.
  - eapply Rle_trans; [apply lattice3_bound|]. unfold kPerlin. lra.
  - eapply Rle_trans; [apply lattice4_bound|]. unfold kPerlin. lra.
Qed.

(** In 3D and 4D the output does leave the configured range: two concrete positions. The 3D excess is 8e-6 of
    the half range, the 4D excess 4.8e-2 of it; both are far above the rounding error of a float. *)
Lemma above : forall hi B v, 0 < B -> 0 < hi -> hi * B < v -> hi < rescale (-1) 1 B v.
Proof.
  intros hi B v HB Hh H. unfold rescale. replace (-1 + (1 - -1) * ((v + B) / (2 * B))) with (v / B) by (field; lra).
  apply Rmult_lt_reg_r with B; auto. unfold Rdiv. rewrite Rmult_assoc, Rinv_l; lra.
Qed.
Lemma floor_frac : forall (n : Z) (f : R), 0 <= f < 1 -> Rfloor (IZR n + f) = n.
Proof. intros. apply Rfloor_unique. lra. Qed.
Theorem C35_range_3d_refuted : forall ft,
  1 < PerlinGen (s:=S_) (W:=scalar) ft 0 1 (out_range (-1) 1) 150186%Z [IZR 21 + 165/256; IZR 5 + 1/2; IZR 0 + 123/256].
Proof.
  intros ft. rewrite perlin_eq3. unfold scale. cbn [map]. rewrite !Rmult_1_r. change (z_add 150186 (s32 0)) with 150186%Z.
  apply above; [apply kPerlin_pos|lra|].
  unfold lattice. cbn [map]. rewrite !floor_frac by lra. cbn [wsum nth offs].
  change (21 + 1)%Z with 22%Z. change (5 + 1)%Z with 6%Z. change (0 + 1)%Z with 1%Z. unfold perlin_corner.
  repeat match goal with |- context [common_grad (hash31 ?s ?cs)] =>
    let h := eval vm_compute in (hash31 s cs) in replace (hash31 s cs) with h by (vm_compute; reflexivity) end.
  unfold common_grad.
  repeat match goal with |- context [Z.to_nat (?h mod 16)] => let k := eval vm_compute in (Z.to_nat (h mod 16)) in change (Z.to_nat (h mod 16)) with k end.
  cbn [nth dot3]. unfold quintic, kPerlin. lra.
Qed.
Theorem C35_range_4d_refuted : forall ft,
  1 + 48/1000 < PerlinGen (s:=S_) (W:=scalar) ft 0 1 (out_range (-1) 1) 232186%Z [IZR 1 + 17/32; IZR 8 + 1/2; IZR 13 + 15/32; IZR 0 + 9/32].
Proof.
  intros ft. rewrite perlin_eq4. unfold scale. cbn [map]. rewrite !Rmult_1_r. change (z_add 232186 (s32 0)) with 232186%Z.
  apply above; [apply kPerlin_pos|lra|].
  unfold lattice. cbn [map]. rewrite !floor_frac by lra. cbn [wsum nth offs].
  change (1 + 1)%Z with 2%Z. change (8 + 1)%Z with 9%Z. change (13 + 1)%Z with 14%Z. change (0 + 1)%Z with 1%Z. unfold perlin_corner.
  repeat match goal with |- context [perlin4_grad (hash31 ?s ?cs)] =>
    let h := eval vm_compute in (hash31 s cs) in replace (hash31 s cs) with h by (vm_compute; reflexivity) end.
  repeat match goal with |- context [perlin4_grad ?h] => let g := eval cbv -[IZR] in (perlin4_grad h) in change (perlin4_grad h) with g end.
  cbn [dot4]. unfold quintic, kPerlin. lra.
Qed.
End Lat.
Print Assumptions C33_value_range.
Print Assumptions C34_value_continuous.
Print Assumptions C34_perlin_continuous.
Print Assumptions C35_lattice_points.
Print Assumptions C35_range_2d.
Print Assumptions C35_bound.
Print Assumptions C35_range_3d_refuted.
Print Assumptions C35_range_4d_refuted.

(** concrete instances *)
Example C33_example : -1 <= ValueGen (s:=Rops 0 (fun _ => 0%Z)) (W:=scalar) 7 (1/10) (out_range 0 (fun _ => 0%Z) (-1) 3) 1337%Z [1/2; 25; -3] <= 3.
Proof. apply C33_value_range; [unfold dims; cbn; lia|lra]. Qed.
Example C35_example : PerlinGen (s:=Rops 0 (fun _ => 0%Z)) (W:=scalar) {| avx512 := false; avx2 := true; x86 := true; sse41 := true; relaxed := false |}
  7 (1/10) (out_range 0 (fun _ => 0%Z) (-1) 3) 1337%Z [50; -20] = 1.
Proof. rewrite (C35_lattice_points 0 (fun _ => 0%Z) _ 7 (1/10) (-1) 3 1337 [50; -20] [5; -2]%Z); [lra|unfold dims; cbn; lia|]. cbn [map]. repeat f_equal; lra. Qed.
