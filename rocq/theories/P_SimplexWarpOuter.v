(** C62, gradient outer product: the vector a lattice vertex contributes to a simplex domain warp. Every SIMD
    code path applies the same matrix, given by explicit tables. *)
From Coq Require Import Reals ZArith List Bool Lia Lra.
From Verif Require Import Prelude Simd_Model Utils_Model Nodes_Model Simplex_Model Warp_Model SimplexWarp_Model Simd_R Bits P_Hash P_Grad SimplexWarp_Spec.
Import ListNotations.
Open Scope Z_scope.

Section C62.
Variable inf : R.
Variable bits : R -> Z.
Notation S := (Rops inf bits).

Theorem C62_outer2 : forall ft (h : Z) (fX fY m vX vY : R), (0 <= h < 2^31)%Z ->
  ApplyGradientOuterProductVectorProductSimplex2 (s:=S) (W:=scalar) ft h fX fY m vX vY =
    (vX + m * dot2 (simplex2_grad h) fX fY * fst (outer2_vec h), vY + m * dot2 (simplex2_grad h) fX fY * snd (outer2_vec h))%R.
Proof.
  intros ft h fX fY m vX vY H. unfold ApplyGradientOuterProductVectorProductSimplex2, ftable. rewrite r3. sunf. rewrite !pow2_0, !Rmult_1_r.
  rewrite !ushr_small by lia. change (s32 0) with 0%Z. change (s32 3) with 3%Z. unfold z_mul.
  rewrite outer2_masked by lia. cbn [length].
  pose proof (outer2_index_range h) as Hk. pose proof (simplex2_index_range h H) as Hj.
  unfold simplex2_grad, outer2_vec.
  set (X := (h / 2^1 * 3)%Z).
  assert (X / 2^28 = simplex2_index h)%Z as E by (unfold X, simplex2_index; f_equal; rewrite Z.mul_comm; reflexivity).
  rewrite <- E in *. clear E.
  set (k := outer2_index h) in *. clearbody k. clearbody X. clear H h.
  rewrite ?grad12_shr, ?grad12_shr29, ?grad12_nonneg by lia.
  rewrite !shl_neg, ?Z.lxor_spec, ?shr_bit by lia. bits28 X. rewrite ?grad12_bit31.
  set (j := (X / 2^28)%Z) in *. 
  clearbody j. clear X. destruct ft as [[] [] ? ? ?]; cbn [avx512 avx2];
  enum j Hj; enum k Hk; cbv -[IZR Rmult Rplus Rminus Ropp root2 root3 skew4]; apply (f_equal2 pair); ring.
Qed.

Theorem C62_outer3 : forall ft (h : Z) (fX fY fZ m vX vY vZ : R), (0 <= h < 2^31)%Z ->
  ApplyGradientOuterProductVectorProductCommon3 (s:=S) (W:=scalar) ft h fX fY fZ m vX vY vZ =
    let d := (m * dot3 (warp3_grad h) fX fY fZ)%R in let '(a, b, c) := outer3_vec h in
    (vX + d * a, vY + d * b, vZ + d * c)%R.
Proof.
  intros ft h fX fY fZ m vX vY vZ H. unfold ApplyGradientOuterProductVectorProductCommon3, ftable. sunf. rewrite !pow2_0, !Rmult_1_r.
  rewrite !(ushr_small h) by lia. change (s32 0) with 0%Z. change (s32 3) with 3%Z. unfold z_mul.
  rewrite outer2_masked by lia. cbn [length].
  pose proof (outer2_index_range h) as Hk. pose proof (simplex2_index_range h H) as Hj.
  unfold warp3_grad, outer3_vec.
  set (X := (h / 2^1 * 3)%Z).
  assert (0 <= X < 2^32)%Z as HX.
  { unfold X. change (2^1)%Z with 2%Z. assert (0 <= h / 2 < 2^30)%Z by (split; [apply Z.div_pos; lia|apply Z.div_lt_upper_bound; lia]). lia. }
  assert (X / 2^28 = simplex2_index h)%Z as E by (unfold X, simplex2_index; f_equal; rewrite Z.mul_comm; reflexivity).
  rewrite <- E in *. clear E.
  set (k := outer2_index h) in *. clearbody k. clearbody X. clear H h.
  rewrite !grad12_ushr by lia. 
  set (j := (X / 2^28)%Z) in *. clearbody j. clear X HX. destruct ft as [[] ? ? [] ?]; cbn [avx512 sse41];
  enum j Hj; enum k Hk; cbv -[IZR Rmult Rplus Rminus Ropp root2 root3 skew4]; repeat apply (f_equal2 pair); ring.
Qed.
End C62.
Print Assumptions C62_outer2.
Print Assumptions C62_outer3.
