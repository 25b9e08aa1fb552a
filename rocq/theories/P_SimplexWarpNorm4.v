(** C63 in 4D, and C62 for the orthogonal gradient matrix in 4D: on AVX512 the four rows the code builds are
    orthogonal, but their assignment to the axes is a permutation only for some hashes; the other code paths
    build other rows. *)
From Coq Require Import Reals ZArith List Bool Lia Lra Psatz.
From Verif Require Import Prelude Simd_Model Utils_Model Nodes_Model Simplex_Model Warp_Model SimplexWarp_Model Simd_R Bits P_Hash P_Grad SimplexWarp_Spec P_SimplexWarpNorm.
Import ListNotations.
Open Scope R_scope.

(** The three bits of the hash that place the second row *)
Definition perm3 (h : Z) : Z := ((h / 4 * 0xD5555556) mod 2^32 / 2^29)%Z.

Lemma z_add_mod4 : forall a b, (z_add a b mod 4 = (a mod 4 + b mod 4) mod 4)%Z.
Proof.
  intros a b. unfold z_add. change 4%Z with (2^2)%Z. rewrite (mod_mod_pow2 (s32 _) 2 32), s32_mod, <- mod_mod_pow2 by lia. apply Zplus_mod.
Qed.
Lemma bit_mod4 : forall a i, (0 <= i < 2)%Z -> Z.testbit a i = Z.testbit (a mod 4) i.
Proof. intros. change 4%Z with (2^2)%Z. apply bit_mod. lia. Qed.

Section C63.
Variable inf : R.
Variable bits : R -> Z.
Notation S := (Rops inf bits).

Lemma k_r2 : @kRoot2f S = root2. Proof. apply r2. Qed.
Lemma neglit : forall m n, (0 <= n)%Z -> IZR m * pow2 (- n) = IZR m / IZR (2 ^ n).
Proof. intros. rewrite pow2_neg by assumption. reflexivity. Qed.

(** the rows of the AVX512 tables *)
Lemma core4 : forall j (x y z w : R), (0 <= j < 20)%Z ->
  let '(gA, gB, gC, gD) := ortho4_avx512 (s:=S) (W:=scalar) j in
  let A := row_dot (s:=S) (W:=scalar) gA x y z w in let B := row_dot (s:=S) (W:=scalar) gB x y z w in
  let C := row_dot (s:=S) (W:=scalar) gC x y z w in let D := row_dot (s:=S) (W:=scalar) gD x y z w in
  Rabs (A*A + B*B + C*C + D*D - 2 * sq4 (x, y, z, w)) <= / 2^18 * sq4 (x, y, z, w).
Proof.
  intros j x y z w Hj. rewrite e18. unfold ortho4_avx512, ftable.
  unfold sIdxABC, sDiagABC, sFillABC, sIdxD, sFillD, pIdxPosAB, pIdxNegAB, pFillAB, pDiagAB, pIdxPosC, pIdxNegC, pFillC, pIdxPosD, pIdxNegD, pFillD,
    eIdxABC, eDiagABC, eFillABC, eIdxD, eFillD, kDeltaPairwiseToSingleExtraAB, kDeltaPairwiseToSingleExtraD, kComponentPairwiseIndexedNegativeAB,
    kComponentPairwiseUnindexedFillerAB, kComponentPairwiseIndexedPositiveD, kComponentPairwiseUnindexedD, kDeltaPairwiseToSingleAB, kDeltaPairwiseToSingleD,
    kDeltaSingleToExtra, kDeltaPairwiseABToC, kDeltaUnindexedFillerToDiagonal.
  rewrite sk4, k_r2. unfold row_dot. sunf. rewrite !pow2_0, !Rmult_1_r.
  change (-22)%Z with (- (22))%Z. change (-25)%Z with (- (25))%Z. change (-26)%Z with (- (26))%Z. change (-21)%Z with (- (21))%Z.
  rewrite !neglit by lia. unfold skew4, root2. cbn [Z.pow Z.pow_pos Pos.iter Z.mul Pos.mul]. cbn [length app].
  change (Z.of_nat 32) with 32%Z.
  pose proof (pow2_ge_0 (x + y)). pose proof (pow2_ge_0 (x - y)). pose proof (pow2_ge_0 (x + z)). pose proof (pow2_ge_0 (x - z)).
  pose proof (pow2_ge_0 (x + w)). pose proof (pow2_ge_0 (x - w)). pose proof (pow2_ge_0 (y + z)). pose proof (pow2_ge_0 (y - z)).
  pose proof (pow2_ge_0 (y + w)). pose proof (pow2_ge_0 (y - w)). pose proof (pow2_ge_0 (z + w)). pose proof (pow2_ge_0 (z - w)).
  pose proof (pow2_ge_0 x). pose proof (pow2_ge_0 y). pose proof (pow2_ge_0 z). pose proof (pow2_ge_0 w). unfold sq4.
  enum j Hj; nthz; cbn [nth]; apply Rabs_le; split; nra.
Qed.

Lemma ortho4_avx512_mod : forall i j, (i mod 32 = j mod 32)%Z -> ortho4_avx512 (s:=S) (W:=scalar) i = ortho4_avx512 (s:=S) (W:=scalar) j.
Proof.
  intros i j E. unfold ortho4_avx512, ftable. cbn [length app]. change (Z.of_nat 32) with 32%Z. unfold slet.
  cbn [map1 scalar]. rewrite E. reflexivity.
Qed.

Theorem C63_length4_partial : forall ft h (x y z w m : R), avx512 ft = true -> (0 <= h < 2^31)%Z -> In (perm3 h) [0; 1; 2; 4]%Z ->
  Rabs (sq4 (ApplyOrthogonalGradientMatrixVectorProductSimplex4 (s:=S) (W:=scalar) ft h x y z w m 0 0 0 0) - 2 * (m * m) * sq4 (x, y, z, w))
    <= / 2^18 * ((m * m) * sq4 (x, y, z, w)).
Proof.
  intros ft h x y z w m Hft H Hp. unfold ApplyOrthogonalGradientMatrixVectorProductSimplex4. rewrite Hft.
  assert (0 <= h / 4 < 2^29)%Z as Hh by (split; [apply Z.div_pos; lia|apply Z.div_lt_upper_bound; lia]).
  unfold slet at 1 2 3 4 5. unfold imul, iand, iushr, ishr, iv. cbn [map1 map2 pure scalar].
  rewrite !(ushr_small h) by lia. change (s32 5) with 5%Z. unfold z_mul. change (2^2)%Z with 4%Z.
  pose proof (simplex4_index_range h H) as Hj.
  assert (h / 4 * 5 / 2^27 = simplex4_index h)%Z as E by (unfold simplex4_index; f_equal; lia).
  rewrite (ortho4_avx512_mod (z_shr 27 (s32 (h / 4 * 5))) (simplex4_index h)).
  2:{ unfold z_shr. change 32%Z with (2^5)%Z. rewrite s32_div_mod by lia. rewrite E. reflexivity. }
  pose proof (core4 (simplex4_index h) x y z w Hj) as K.
  destruct (ortho4_avx512 (s:=S) (W:=scalar) (simplex4_index h)) as [[[gA gB] gC] gD].
  set (A := row_dot gA x y z w) in *. set (B := row_dot gB x y z w) in *. set (C := row_dot gC x y z w) in *. set (D := row_dot gD x y z w) in *.
  cbv zeta in K. clearbody A B C D. clear gA gB gC gD E Hj.
  set (vx := z_shr 1 (z_shr 24 (s32 (h / 4 * 5)))). set (zz := z_shr 24 (s32 (h / 4 * 5))).
  assert (Z.land zz (s32 1) = zz mod 2)%Z as Ez by (change (s32 1) with (Z.ones 1); rewrite Z.land_ones by lia; reflexivity).
  assert (0 <= zz mod 2 < 2)%Z as Hz by (apply Z.mod_pos_bound; lia).
  assert (0 <= vx mod 4 < 4)%Z as Hx by (apply Z.mod_pos_bound; lia).
  set (p := z_shr 29 (s32 (h / 4 * s32 0xD5555556))).
  assert (In p [0; 1; 2; -4]%Z) as Hp'.
  { assert (p mod 2^3 = perm3 h)%Z as Ep.
    { unfold p, z_shr, perm3. rewrite s32_idem_mul_r. rewrite s32_div_mod by lia.
      apply Z.bits_inj'. intros i Hi. destruct (Z.ltb_spec i 3).
      - rewrite Z.mod_pow2_bits_low, !Z.div_pow2_bits by lia. rewrite Z.mod_pow2_bits_low by lia. reflexivity.
      - rewrite Z.mod_pow2_bits_high by lia. rewrite Z.div_pow2_bits by lia. rewrite Z.mod_pow2_bits_high by lia. reflexivity. }
    assert (-4 <= p < 4)%Z as Hp4.
    { unfold p, z_shr. pose proof (s32_range (h / 4 * s32 0xD5555556)). split; [apply Z.div_le_lower_bound; lia|apply Z.div_lt_upper_bound; lia]. }
    clearbody p. assert (p = -4 \/ p = -3 \/ p = -2 \/ p = -1 \/ p = 0 \/ p = 1 \/ p = 2 \/ p = 3)%Z as Hc by lia.
    rewrite <- Ep in Hp. clear Ep Hp4. cbn [In] in Hp |- *.
    destruct Hc as [->|[->|[->|[->|[->|[->|[->| ->]]]]]]]; cbv in Hp; lia. }
  sunf. rewrite Ez. rewrite !shl_neg by lia.
  change (31 - 31)%Z with 0%Z. change (31 - 30)%Z with 1%Z. set (o := Z.odd h). rewrite (Z.bit0_odd h). fold o.
  set (zb := (zz mod 2)%Z) in *. clearbody vx zb p o. clear Ez zz Hp.
  repeat match goal with
  | |- context [Z.testbit (z_add ?a ?b) ?i] => rewrite (bit_mod4 (z_add a b) i) by lia
  | |- context [Z.testbit vx ?i] => rewrite (bit_mod4 vx i) by lia
  end.
  rewrite !z_add_mod4. set (xb := (vx mod 4)%Z) in *. clearbody xb. clear vx.
  assert (forall P Q : R, P = m * m * Q -> Rabs (Q - 2 * sq4 (x, y, z, w)) <= / 2^18 * sq4 (x, y, z, w) ->
     Rabs (P - 2 * (m * m) * sq4 (x, y, z, w)) <= / 2^18 * (m * m * sq4 (x, y, z, w))) as Fin.
  { intros P Q -> HQ. assert (0 <= m * m) by nra. set (q := sq4 (x, y, z, w)) in *.
    replace (m * m * Q - 2 * (m * m) * q) with ((m * m) * (Q - 2 * q)) by ring.
    rewrite Rabs_mult, (Rabs_right (m * m)) by lra. replace (/ 2^18 * (m * m * q)) with ((m * m) * (/ 2^18 * q)) by ring.
    apply Rmult_le_compat_l; [lra|exact HQ]. }
  eapply Fin; [|exact K]. clear K Fin. unfold sq4.
  cbn [In] in Hp'. destruct o, Hp' as [<-|[<-|[<-|[<-|[]]]]]; enum xb Hx; enum zb Hz; cbv -[IZR Rmult Rplus Rminus Ropp]; ring.
Qed.
End C63.
Print Assumptions C63_length4_partial.
