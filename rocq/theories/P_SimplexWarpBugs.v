(** C62 and C63 fail for the orthogonal gradient matrix in 4D. *)
From Coq Require Import Reals ZArith List Bool Lia Lra Psatz.
From Verif Require Import Prelude Simd_Model Utils_Model Nodes_Model Simplex_Model Warp_Model SimplexWarp_Model Simd_R Bits P_Hash P_Grad SimplexWarp_Spec P_SimplexWarpNorm P_SimplexWarpNorm4.
Import ListNotations.
Open Scope R_scope.
Section Bugs.
Variable inf : R.
Variable bits : R -> Z.
Notation S := (Rops inf bits).

Lemma hash_2 : hash31 2 [0; 0; 0; 0]%Z = 1874957416%Z. Proof. vm_compute. reflexivity. Qed.
Lemma hash_0 : hash31 0 [0; 0; 0; 0]%Z = 0%Z. Proof. vm_compute. reflexivity. Qed.

Ltac unfold_rows :=
  unfold ApplyOrthogonalGradientMatrixVectorProductSimplex4, ortho4_avx512, ortho4_avx2, ortho4_else, ftable, row_dot,
    sIdxABC, sDiagABC, sFillABC, sIdxD, sFillD, pIdxPosAB, pIdxNegAB, pFillAB, pDiagAB, pIdxPosC, pIdxNegC, pFillC, pIdxPosD, pIdxNegD, pFillD,
    eIdxABC, eDiagABC, eFillABC, eIdxD, eFillD, kDeltaPairwiseToSingleExtraAB, kDeltaPairwiseToSingleExtraD, kComponentPairwiseIndexedNegativeAB,
    kComponentPairwiseUnindexedFillerAB, kComponentPairwiseIndexedPositiveD, kComponentPairwiseUnindexedD, kDeltaPairwiseToSingleAB, kDeltaPairwiseToSingleD,
    kDeltaSingleToExtra, kDeltaPairwiseABToC, kDeltaUnindexedFillerToDiagonal.
Ltac rows_compute :=
  unfold_rows; rewrite sk4, k_r2; unfold row_dot; sunf; rewrite ?pow2_0, ?Rmult_1_r;
  change (-22)%Z with (- (22))%Z; change (-25)%Z with (- (25))%Z; change (-26)%Z with (- (26))%Z; change (-21)%Z with (- (21))%Z;
  rewrite !neglit by lia; unfold skew4, root2;
  cbv -[IZR Rmult Rplus Rminus Ropp Rdiv Rabs Rle Rlt not].

(** A vertex (seed 2, the origin of the lattice) whose matrix is singular: on AVX512 the offset (1, 0, 0, -1)
    contributes nothing. *)
Theorem C63_length4_refuted : exists seed cs, forall ft (m : R), avx512 ft = true ->
  ApplyOrthogonalGradientMatrixVectorProductSimplex4 (s:=S) (W:=scalar) ft (hash31 seed cs) 1 0 0 (-1) m 0 0 0 0 = (0, 0, 0, 0).
Proof.
  exists 2%Z, [0; 0; 0; 0]%Z. intros ft m Hft. rewrite hash_2. destruct ft as [a b c d e]. cbn [avx512] in Hft. subst a.
  rows_compute. repeat apply (f_equal2 pair); ring.
Qed.

(** At the origin of the lattice with seed 0, AVX512, AVX2 and the other targets apply three different matrices. *)
Theorem C62_ortho4_levels_refuted : exists seed cs, forall x86 sse41 relaxed,
  let f a b := ApplyOrthogonalGradientMatrixVectorProductSimplex4 (s:=S) (W:=scalar) {| avx512 := a; avx2 := b; x86 := x86; sse41 := sse41; relaxed := relaxed |}
                 (hash31 seed cs) 1 0 0 0 1 0 0 0 0 in
  f true true <> f false true /\ f true true <> f false false /\ f false true <> f false false.
Proof.
  exists 0%Z, [0; 0; 0; 0]%Z. intros c d e f. subst f. cbv beta. rewrite hash_0. rows_compute.
  split; [|split]; intros E; apply (f_equal (fun t => fst (fst (fst t)))) in E; cbn [fst snd] in E; lra.
Qed.
End Bugs.
Print Assumptions C63_length4_refuted.
Print Assumptions C62_ortho4_levels_refuted.
