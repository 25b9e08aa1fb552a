(** C62, orthogonal gradient matrix in 2D and 3D: every SIMD code path applies the same matrix. *)
From Coq Require Import Reals ZArith List Bool Lia Lra.
From Verif Require Import Prelude Simd_Model Utils_Model Nodes_Model Simplex_Model Warp_Model SimplexWarp_Model Simd_R Bits P_Hash P_Grad SimplexWarp_Spec.
Import ListNotations.
Open Scope Z_scope.

Lemma grad12_ushr29 : forall X, (0 <= X < 2^32)%Z -> z_ushr 29 (s32 X) mod Z.of_nat 8 = X / 2^28 / 2.
Proof.
  intros X H. unfold z_ushr, u32. rewrite s32_mod, (Z.mod_small X) by lia.
  assert (0 <= X / 2^29 < 8) by (split; [apply Z.div_pos; lia|apply Z.div_lt_upper_bound; lia]).
  rewrite s32_id by lia. rewrite Z.mod_small by lia. rewrite Z.div_div by lia. reflexivity.
Qed.
Lemma grad12_ushr30 : forall X, (0 <= X < 2^32)%Z -> z_ushr 30 (s32 X) = X / 2^28 / 4.
Proof.
  intros X H. unfold z_ushr, u32. rewrite s32_mod, (Z.mod_small X) by lia.
  assert (0 <= X / 2^30 < 4) by (split; [apply Z.div_pos; lia|apply Z.div_lt_upper_bound; lia]).
  rewrite s32_id by lia. rewrite Z.div_div by lia. reflexivity.
Qed.

(** the low three and the top two bits of the facet index *)
Lemma facet_low : forall x i, 0 <= i < 3 -> Z.testbit (s32 (x * s32 0xAAAAAAAB)) i = Z.testbit ((3 * x) mod 2^3) i.
Proof.
  intros x i Hi. rewrite s32_idem_mul_r, s32_bit by lia. rewrite (bit_mod _ 3 i) by lia.
  rewrite <- Zmult_mod_idemp_r. change (0xAAAAAAAB mod 2^3) with 3. rewrite (Z.mul_comm x). reflexivity.
Qed.
Lemma facet_high : forall x i, 0 <= x < 2^30 -> 0 <= i < 2 -> Z.testbit (s32 (x * s32 0xAAAAAAAB)) (i + 30) = Z.testbit ((2 * x) mod 3) i.
Proof.
  intros x i Hx Hi. rewrite s32_idem_mul_r, s32_bit by lia. rewrite (bit_mod _ 32 (i + 30)) by lia.
  rewrite <- Z.div_pow2_bits by lia. rewrite third_top by lia. reflexivity.
Qed.
Lemma facet_rol2 : forall x k, 0 <= x < 2^30 -> 4 <= k <= 5 ->
  z_rol2 (s32 (x * s32 0xAAAAAAAB)) mod 2^k = (4 * ((3 * x) mod 2^3) + (2 * x) mod 3) mod 2^k.
Proof.
  intros x k Hx Hk. unfold z_rol2. rewrite (mod_mod_pow2 (s32 _) k 32), s32_mod, <- mod_mod_pow2 by lia.
  unfold u32. rewrite s32_idem_mul_r, s32_mod. rewrite third_top by lia.
  rewrite (mod_mod_pow2 _ k 5), (mod_mod_pow2 (4 * _ + _) k 5) by lia. f_equal.
  rewrite <- Z.add_mod_idemp_l, <- (Z.add_mod_idemp_l (4 * _)) by lia. f_equal. f_equal.
  change (2^5) with (2^3 * 4). rewrite (Z.mul_comm 4), !Z.mul_mod_distr_r by lia. f_equal.
  rewrite <- mod_mod_pow2, Zmod_mod by lia. rewrite <- Zmult_mod_idemp_r. change (0xAAAAAAAB mod 2^3) with 3. rewrite (Z.mul_comm x). reflexivity.
Qed.
Lemma land_min_neg : forall z, (Z.land z (s32 (2^31)) <? 0) = (z <? 0).
Proof.
  intros z. change (s32 (2^31)) with (- 2^31).
  destruct (Z.ltb_spec z 0) as [L|L].
  - apply Z.ltb_lt, Z.land_neg. split; [exact L|reflexivity].
  - apply Z.ltb_ge, Z.land_nonneg. left. exact L.
Qed.
Lemma lor_neg_b : forall a b, (Z.lor a b <? 0) = ((a <? 0) || (b <? 0)).
Proof.
  intros a b. pose proof (Z.lor_neg a b).
  destruct (Z.ltb_spec (Z.lor a b) 0), (Z.ltb_spec a 0), (Z.ltb_spec b 0); cbn; try reflexivity; lia.
Qed.

Section C62.
Variable inf : R.
Variable bits : R -> Z.
Notation S := (Rops inf bits).

Theorem C62_ortho2 : forall ft (h : Z) (fX fY m vX vY : R), (0 <= h < 2^31)%Z ->
  ApplyOrthogonalGradientMatrixVectorProductSimplex2 (s:=S) (W:=scalar) ft h fX fY m vX vY =
    (vX + m * dot2 (fst (ortho2_rows h)) fX fY, vY + m * dot2 (snd (ortho2_rows h)) fX fY)%R.
Proof.
  intros ft h fX fY m vX vY H. unfold ApplyOrthogonalGradientMatrixVectorProductSimplex2, ftable. rewrite sk2. sunf. rewrite !pow2_0, !Rmult_1_r.
  rewrite !(ushr_small h) by lia. change (s32 0) with 0%Z. change (s32 1) with 1%Z. change (s32 3) with 3%Z. unfold z_mul. cbn [length].
  pose proof (simplex2_index_range h H) as Hj. unfold ortho2_rows, ortho2_grad.
  set (X := (h / 2^1 * 3)%Z).
  assert (0 <= X < 2^32)%Z as HX.
  { unfold X. change (2^1)%Z with 2%Z. assert (0 <= h / 2 < 2^30)%Z by (split; [apply Z.div_pos; lia|apply Z.div_lt_upper_bound; lia]). lia. }
  assert (X / 2^28 = simplex2_index h)%Z as E by (unfold X, simplex2_index; f_equal; rewrite Z.mul_comm; reflexivity).
  rewrite <- E in *. clear E. clearbody X.
  rewrite ?grad12_ushr29, ?grad12_ushr30, ?grad12_nonneg by lia. rewrite ?grad12_ushr by lia.
  rewrite !shl_neg by lia. change (31 - 31)%Z with 0%Z. rewrite ?shr_bit by lia. rewrite (Z.bit0_odd h). bits28 X.
  set (b := Z.odd h). clearbody b. clear H h.
  set (j := (X / 2^28)%Z) in *. clearbody j. clear X HX. destruct ft as [[] [] ? ? ?]; cbn [avx512 avx2]; destruct b;
  enum j Hj; cbv -[IZR Rmult Rplus Rminus Ropp root2 root3 skew2]; apply (f_equal2 pair); ring.
Qed.

Theorem C62_ortho3 : forall ft (h : Z) (fX fY fZ m vX vY vZ : R), (0 <= h < 2^31)%Z ->
  ApplyOrthogonalGradientMatrixVectorProductCommon3 (s:=S) (W:=scalar) ft h fX fY fZ m vX vY vZ =
    let '(a, b, c) := ortho3_rows h in (vX + m * dot3 a fX fY fZ, vY + m * dot3 b fX fY fZ, vZ + m * dot3 c fX fY fZ)%R.
Proof.
  intros ft h fX fY fZ m vX vY vZ H. unfold ApplyOrthogonalGradientMatrixVectorProductCommon3, ftable, ortho3_rows.
  rewrite kA, kB. unfold kComponentC, kComponentsDE, kComponentF. sunf. rewrite !pow2_0, !Rmult_1_r.
  rewrite !(ushr_small h) by lia. change (s32 0) with 0%Z. change (s32 1) with 1%Z. change (s32 2) with 2%Z. change (s32 3) with 3%Z. unfold z_mul.
  cbn [length app]. change (Z.of_nat 32) with (2^5)%Z. change (Z.of_nat 16) with (2^4)%Z. change (2^1)%Z with 2%Z.
  assert (0 <= h / 2 < 2^30)%Z as Hh by (split; [apply Z.div_pos; lia|apply Z.div_lt_upper_bound; lia]).
  set (x := (h / 2)%Z) in *. clearbody x. rewrite !facet_rol2 by lia. rewrite !land_min_neg, !lor_neg_b.
  assert (s32 (x * s32 0xAAAAAAAB) <? 0 = Z.testbit ((2 * x) mod 3) 1)%Z as ->.
  { rewrite s32_neg_bit, <- (s32_bit _ 31) by lia. apply (facet_high x 1); lia. }
  rewrite !shl_neg by lia. change (31 - 1)%Z with (0 + 30)%Z. change (31 - 29)%Z with 2%Z. change (31 - 30)%Z with 1%Z. change (31 - 31)%Z with 0%Z.
  rewrite !facet_high, !facet_low by lia. rewrite (Z.bit0_odd h).
  rewrite (bit_mod (3 * x) 3 0), (bit_mod (3 * x) 3 1), (bit_mod (3 * x) 3 2) by lia.
  assert (z_ushr 30 (s32 (x * 3)) = 3 * x / 2^30)%Z as ->.
  { rewrite grad12_ushr30 by lia. rewrite Z.div_div by lia. rewrite (Z.mul_comm x). reflexivity. }
  assert (0 <= 3 * x / 2^30 < 3)%Z as Hc by (split; [apply Z.div_pos; lia|apply Z.div_lt_upper_bound; lia]).
  pose proof (Z.mod_pos_bound (3 * x) (2^3) ltac:(lia)) as Hb. pose proof (Z.mod_pos_bound (2 * x) 3 ltac:(lia)) as Ha.
  set (o := Z.odd h). clearbody o. clear H h.
  set (a := ((2 * x) mod 3)%Z) in *. set (b := ((3 * x) mod 2^3)%Z) in *. set (c := (3 * x / 2^30)%Z) in *. clearbody a b c. clear Hh x.
  destruct ft as [[] ? ? ? ?]; cbn [avx512]; destruct o; enum c Hc; enum a Ha; enum b Hb; cbv -[IZR Rmult Rplus Rminus Ropp compA compB];
  repeat apply (f_equal2 pair); ring.
Qed.
End C62.
Print Assumptions C62_ortho2.
Print Assumptions C62_ortho3.
