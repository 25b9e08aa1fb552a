(** DomainWarpSimplex.inl: DomainWarpSimplex and DomainWarpSuperSimplex.

    The search for the lattice vertices around the position (DomainWarpSimplex.inl:774-819, 838-899,
    936-1046, 1134-1194, 1223-1410, 1451-1800) is the same text as in Simplex.inl and is modelled by
    [simplexN] / [supersimplexN] of Simplex_Model.v; here are the vector contribution of a vertex,
    with every SIMD branch, and the tails of Warp_ND. *)
From Coq Require Import ZArith List Bool.
From Verif Require Import Prelude Simd_Model Utils_Model Nodes_Model Simplex_Model Warp_Model.
Import ListNotations.
Open Scope Z_scope.

(** Utils.inl:30 *)
Definition kSkew2f {s : sops} : V s := lit 12281775 (-25).
(** _mm512_rol_epi32( a, 2 ) *)
Definition z_rol2 (a : Z) : Z := s32 (u32 a * 4 + u32 a / 2^30).
(** DomainWarpSimplex.h:7-11 *)
Inductive VectorizationScheme := OrthogonalGradientMatrix | GradientOuterProduct.

Section SimplexWarp.
Context {s : sops} {W : simd}.
Variable ft : feat.
Notation F := (F s W). Notation I := (I W). Notation M := (M W). Notation V := (V s).
Notation contrib := (contrib s W).
Local Open Scope f_scope.

(** DomainWarpSimplex.inl:6-59. [avx2 ft] stands for the AVX flag: the x86 feature sets of the build
    have both or none. The vector registers valueX... are in/out parameters. *)
Definition ApplyGradientOuterProductVectorProductSimplex2 (hash31 : I) (fX fY multiplier valueX valueY : F) : F * F :=
  let r := kRoot3f in let mr := s_neg kRoot3f in
  let* hashShifted := iushr hash31 1 in
  let* indexGradient := imul hashShifted (iv 3) in
  let* indexOuterVector := iand (imul hashShifted (iv 0xAAAAAAAB)) (iv 0xC0000003) in
  if avx512 ft then
    let* indexGradient := ishr indexGradient 28 in
    let* indexOuterVector := ior indexOuterVector (ishr indexOuterVector 28) in
    let* gX := ftable [r; mr; c1; cm1; r; mr; cm1; c1; c2; cm2; c0; c0; c0; c0; c0; c0] indexGradient in
    let* gY := ftable [c1; cm1; r; mr; cm1; c1; r; mr; c0; c0; c2; cm2; c0; c0; c0; c0] indexGradient in
    let* multiplier := multiplier * fmadd fY gY (fX * gX) in
    (fmadd multiplier (ftable [r; mr; c1; cm1; r; mr; cm1; c1; c2; cm2; c0; c0; c0; c0; c0; c0] indexOuterVector) valueX,
     fmadd multiplier (ftable [c1; cm1; r; mr; cm1; c1; r; mr; c0; c0; c2; cm2; c0; c0; c0; c0] indexOuterVector) valueY)
  else if avx2 ft then
    let* finalSign := ishl (ixor (ishr indexGradient 28) indexOuterVector) 31 in
    let* indexGradient := ishr indexGradient 29 in
    let* indexOuterVector := ior (ishr indexOuterVector 1) (ishr indexOuterVector 29) in
    let* gX := ftable [r; c1; r; cm1; c2; c0; c0; c0] indexGradient in
    let* gY := ftable [c1; r; cm1; r; c0; c2; c0; c0] indexGradient in
    let* multiplier := multiplier * fxor_sign (fmadd fY gY (fX * gX)) finalSign in
    (fmadd multiplier (ftable [r; c1; r; cm1; c2; c0; c0; c0] indexOuterVector) valueX,
     fmadd multiplier (ftable [c1; r; cm1; r; c0; c2; c0; c0] indexOuterVector) valueY)
  else
    let* u := fsel_hb (ishl indexGradient 2) fY fX in
    let* v := fsel_hb (ishl indexGradient 2) fX fY in
    let* a := u * fsel_hb indexGradient (num 2) (fv kRoot3f) in
    let* b := fxor_sign v (ishl (ishr indexGradient 30) 31) in
    let* multiplier := multiplier * fxor_sign (fmasked_add (ige indexGradient (iv 0)) a b)
                                              (ishl (ixor (ishr indexGradient 28) indexOuterVector) 31) in
    let* a := multiplier * fsel_hb indexOuterVector (num 2) (fv kRoot3f) in
    let* b := fxor_sign (fmasked (ige indexOuterVector (iv 0)) multiplier) (ishl (ishr indexOuterVector 30) 31) in
    (valueX + fsel_hb (ishl indexOuterVector 30) b a, valueY + fsel_hb (ishl indexOuterVector 30) a b).

(** DomainWarpSimplex.inl:62-116 *)
Definition ApplyGradientOuterProductVectorProductCommon3 (hash31 : I) (fX fY fZ multiplier valueX valueY valueZ : F) : F * F * F :=
  let* hashShifted := iushr hash31 1 in
  let* indexGradient := iushr (imul hashShifted (iv 3)) 28 in
  let* indexOuterVector := iand (imul hashShifted (iv 0xAAAAAAAB)) (iv 0xC0000003) in
  let* indexOuterVector := ior indexOuterVector (ishr indexOuterVector 28) in
  let tX := [c1; cm1; c1; cm1; c1; cm1; c1; cm1; c0; c0; c0; c0; c0; c0; c0; c0] in
  let tY := [c1; c1; cm1; cm1; c0; c0; c0; c0; c1; cm1; c1; cm1; c0; c0; c0; c0] in
  let tZ := [c0; c0; c0; c0; c1; c1; cm1; cm1; c1; c1; cm1; cm1; c0; c0; c0; c0] in
  if avx512 ft then
    let* gX := ftable tX indexGradient in
    let* gY := ftable tY indexGradient in
    let* gZ := ftable tZ indexGradient in
    let* multiplier := multiplier * fmadd gZ fZ (fmadd fY gY (fX * gX)) in
    (fmadd multiplier (ftable tX indexOuterVector) valueX,
     fmadd multiplier (ftable tY indexOuterVector) valueY,
     fmadd multiplier (ftable tZ indexOuterVector) valueZ)
  else
    let* sign0 := ishl indexGradient 31 in
    let* sign1 := ishl (ishr indexGradient 1) 31 in
    let* u := if sse41 ft then fsel_hb (ishl indexGradient 28) fY fX else fsel (ige indexGradient (iv 8)) fY fX in
    let* v := fsel (ige indexGradient (iv 4)) fZ fY in
    let* multiplier := multiplier * (fxor_sign u sign0 + fxor_sign v sign1) in
    let* indexOuterVector := iand indexOuterVector (iv 0xF) in
    let* signed0 := fxor_sign multiplier (ishl indexOuterVector 31) in
    let* signed1 := fxor_sign multiplier (ishl (ishr indexOuterVector 1) 31) in
    let* notYZ := ilt indexOuterVector (iv 8) in
    let* notXY := ige indexOuterVector (iv 4) in
    (fmasked_add notYZ valueX signed0,
     finvmasked_add (mand notYZ notXY) valueY (fsel notXY signed0 signed1),
     fmasked_add notXY valueZ signed1).

(** The four gradient components of an index in the upper five bits, DomainWarpSimplex.inl:150-163 and
    again 169-182 (the same text) *)
Definition outer4_vector (index : I) : F * F * F * F :=
  let* indexA := iand index (iv (3 * 2^27)) in
  let* indexB := iand (ishr index 2) (iv (7 * 2^27)) in
  let* indexB := ixor indexB indexA in
  let* extra := ige indexB (iv (4 * 2^27)) in
  let* equal := ieq indexA indexB in
  let* indexA := ior indexA (cast_m equal) in
  let* neutral := fmasked (mor equal extra) (fmasked_mul extra (fv kSkew4f) (num (-1))) in
  let* gX := fmasked_inc (ieq indexB (iv (0 * 2^27))) (fmasked_dec (ieq indexA (iv (0 * 2^27))) neutral) in
  let* gY := fmasked_inc (ieq indexB (iv (1 * 2^27))) (fmasked_dec (ieq indexA (iv (1 * 2^27))) neutral) in
  let* gZ := fmasked_inc (ieq indexB (iv (2 * 2^27))) (fmasked_dec (ieq indexA (iv (2 * 2^27))) neutral) in
  let* gW := fmasked_inc (ieq indexB (iv (3 * 2^27))) (fmasked_dec (ieq indexA (iv (3 * 2^27))) neutral) in
  (gX, gY, gZ, gW).
(** DomainWarpSimplex.inl:118-190 *)
Definition ApplyGradientOuterProductVectorProductSimplex4 (hash : I) (fX fY fZ fW multiplier valueX valueY valueZ valueW : F) : F * F * F * F :=
  let k := kSkew4f in let k1 := s_add kSkew4f c1 in
  let* hashShifted := iushr hash 2 in
  let* indexGradient := imul hashShifted (iv 5) in
  let* indexOuterVector := imul hashShifted (iv 0xCCCCCCCD) in
  let* indexOuterVector := imul (iand indexOuterVector (iv 0xE0000003)) (iv (3 + 2^27)) in
  if avx512 ft then
    let* indexGradient := iushr indexGradient 27 in
    let* indexOuterVector := iushr indexOuterVector 27 in
    let tableX := [k1; k; k; k; cm1; c1; c0; c0; cm1; c0; c1; c0; cm1; c0; c0; c1] in
    let tableY := [k; k1; k; k; c1; cm1; c0; c0; c0; cm1; c0; c1; c0; cm1; c1; c0] in
    let tableZ := [k; k; k1; k; c0; c0; cm1; c1; c1; c0; cm1; c0; c0; c1; cm1; c0] in
    let tableW := [k; k; k; k1; c0; c0; c1; cm1; c0; c1; c0; cm1; c1; c0; c0; cm1] in
    let* gX := ftable (tableX ++ map s_neg tableX) indexGradient in
    let* gY := ftable (tableY ++ map s_neg tableY) indexGradient in
    let* gZ := ftable (tableZ ++ map s_neg tableZ) indexGradient in
    let* gW := ftable (tableW ++ map s_neg tableW) indexGradient in
    let* multiplier := multiplier * fmadd gW fW (fmadd gZ fZ (fmadd gY fY (gX * fX))) in
    (fmadd multiplier (ftable (tableX ++ map s_neg tableX) indexOuterVector) valueX,
     fmadd multiplier (ftable (tableY ++ map s_neg tableY) indexOuterVector) valueY,
     fmadd multiplier (ftable (tableZ ++ map s_neg tableZ) indexOuterVector) valueZ,
     fmadd multiplier (ftable (tableW ++ map s_neg tableW) indexOuterVector) valueW)
  else
    let '(gX, gY, gZ, gW) := outer4_vector indexGradient in
    let* multiplier := multiplier * fmadd gW fW (fmadd gZ fZ (fmadd gY fY (gX * fX))) in
    let '(gX, gY, gZ, gW) := outer4_vector indexOuterVector in
    (fmadd multiplier gX valueX, fmadd multiplier gY valueY, fmadd multiplier gZ valueZ, fmadd multiplier gW valueW).

(** DomainWarpSimplex.inl:193-235 *)
Definition ApplyOrthogonalGradientMatrixVectorProductSimplex2 (hash31 : I) (fX fY multiplier valueX valueY : F) : F * F :=
  let k := kSkew2f in let mk := s_neg kSkew2f in let k1 := s_add kSkew2f c1 in let mk1 := s_sub (s_neg kSkew2f) c1 in
  let* index := imul (iushr hash31 1) (iv 3) in
  let finish (gX gY : F) :=
    let* valueX := fmadd multiplier (fmadd fY gY (fX * gX)) valueX in
    let* multiplier := fxor_sign multiplier (ishl hash31 31) in
    let* valueY := fmadd multiplier (fmsub fY gX (fX * gY)) valueY in
    (valueX, valueY) in
  if avx512 ft then
    let* index := iushr index 28 in
    let* gX := ftable [k; mk; k; mk; k1; mk1; k1; mk1; c1; cm1; c1; cm1; c0; c0; c0; c0] index in
    let* gY := ftable [k1; k1; mk1; mk1; k; k; mk; mk; c1; c1; cm1; cm1; c0; c0; c0; c0] index in
    finish gX gY
  else if avx2 ft then
    let* signX := ishl (ishr index 28) 31 in
    let* index := iushr index 29 in
    let* gX := fxor_sign (ftable [k; k; k1; k1; c1; c1; c0; c0] index) signX in
    let* gY := ftable [k1; mk1; k; mk; c1; cm1; c0; c0] index in
    finish gX gY
  else
    let* ofThree := iushr index 30 in
    let* signX := ishl (ishr index 28) 31 in
    let* signY := ishl (ishr index 29) 31 in
    let* masked := fmasked (ige index (iv 0)) (fv kSkew2f) in
    let* gX := fxor_sign (fmasked_inc (ine ofThree (iv 0)) masked) signX in
    let* gY := fxor_sign (fmasked_inc (ine ofThree (iv 1)) masked) signY in
    finish gX gY.

(** DomainWarpSimplex.inl:240-244 *)
Definition kComponentA : V := lit 1166407 (-19).
Definition kComponentB : V := lit (-15082373) (-26).
Definition kComponentC : V := cm1.
Definition kComponentsDE : V := c1.
Definition kComponentF : V := c2.
(** DomainWarpSimplex.inl:237-316 *)
Definition ApplyOrthogonalGradientMatrixVectorProductCommon3 (hash31 : I) (fX fY fZ multiplier valueX valueY valueZ : F) : F * F * F :=
  let A := kComponentA in let B := kComponentB in let C := kComponentC in let D := kComponentsDE in let E := kComponentF in
  let mA := s_neg kComponentA in let mB := s_neg kComponentB in
  let* hashShifted := iushr hash31 1 in
  let* indexFacetBasisWithPermute2 := imul hashShifted (iv 0xAAAAAAAB) in
  let* indexPermutation2HighBit := ishl indexFacetBasisWithPermute2 29 in
  let* indexPermutation3 := iushr (imul hashShifted (iv 3)) 30 in
  let* finalSign := ishl hash31 31 in
  let finish (valueAB valueBA valueC : F) :=
    let* multiplier := fxor_sign multiplier finalSign in
    (fmadd multiplier (fsel (ieq indexPermutation3 (iv 0)) valueC valueAB) valueX,
     fmadd multiplier (fsel (ieq indexPermutation3 (iv 1)) valueC (fsel (ieq indexPermutation3 (iv 2)) valueBA valueAB)) valueY,
     fmadd multiplier (fsel (ieq indexPermutation3 (iv 2)) valueC valueBA) valueZ) in
  if avx512 ft then
    let* index := map1 z_rol2 indexFacetBasisWithPermute2 in
    let tableA_gX := [A; A; C; C; mA; mA; C; C; A; A; C; C; mA; mA; C; C] in
    let tableA_gY := [C; B; A; A; C; B; mA; mA; C; mB; A; A; C; mB; mA; mA] in
    let tableA_gZ := [B; C; B; B; B; C; B; B; mB; C; mB; mB; mB; C; mB; mB] in
    let tableB_gX := [B; B; C; C; mB; mB; C; C; B; B; C; C; mB; mB; C; C] in
    let tableB_gY := [C; A; B; B; C; A; mB; mB; C; mA; B; B; C; mA; mB; mB] in
    let tableB_gZ := [A; C; A; A; A; C; A; A; mA; C; mA; mA; mA; C; mA; mA] in
    let tableC_gX := [D; D; E; E; C; C; E; E; D; D; E; E; C; C; E; E] in
    let tableC_gY := [E; D; D; D; E; D; C; C; E; C; D; D; E; C; C; C] in
    let tableC_gZ := [D; E; D; D; D; E; D; D; C; E; C; C; C; E; C; C] in
    let* valueAB := fmadd (ftable (tableA_gZ ++ tableB_gZ) index) fZ (fmadd fY (ftable (tableA_gY ++ tableB_gY) index) (fX * ftable (tableA_gX ++ tableB_gX) index)) in
    let* valueBA := fmadd (ftable (tableB_gZ ++ tableA_gZ) index) fZ (fmadd fY (ftable (tableB_gY ++ tableA_gY) index) (fX * ftable (tableB_gX ++ tableA_gX) index)) in
    let* valueC := fmadd (ftable tableC_gZ index) fZ (fmadd fY (ftable tableC_gY index) (fX * ftable tableC_gX index)) in
    finish valueAB valueBA valueC
  else
    let* sign0 := ishl indexFacetBasisWithPermute2 31 in
    let* sign1 := iand (ishl indexFacetBasisWithPermute2 30) (iv (2^31)) in
    let* notYZ := indexFacetBasisWithPermute2 in
    let* notXY := ishl indexFacetBasisWithPermute2 1 in
    let* valueA_gX := fsel_hb notYZ (fv C) (fxor_sign (fv A) sign0) in
    let* valueA_gY := fsel_hb (ior notYZ notXY) (fsel_hb notXY (fxor_sign (fv B) sign1) (fxor_sign (fv A) sign0)) (fv C) in
    let* valueA_gZ := fsel_hb notXY (fv C) (fxor_sign (fv B) sign1) in
    let* valueA := fmadd valueA_gZ fZ (fmadd fY valueA_gY (fX * valueA_gX)) in
    let* valueB_gX := fsel_hb notYZ (fv C) (fxor_sign (fv B) sign0) in
    let* valueB_gY := fsel_hb (ior notYZ notXY) (fsel_hb notXY (fxor_sign (fv A) sign1) (fxor_sign (fv B) sign0)) (fv C) in
    let* valueB_gZ := fsel_hb notXY (fv C) (fxor_sign (fv A) sign1) in
    let* valueB := fmadd valueB_gZ fZ (fmadd fY valueB_gY (fX * valueB_gX)) in
    let* valueC_gX := fsel_hb notYZ (fv E) (fxor_sign (fv D) sign0) in
    let* valueC_gY := fsel_hb (ior notYZ notXY) (fsel_hb notXY (fxor_sign (fv D) sign1) (fxor_sign (fv D) sign0)) (fv E) in
    let* valueC_gZ := fsel_hb notXY (fv E) (fxor_sign (fv D) sign1) in
    let* valueC := fmadd valueC_gZ fZ (fmadd fY valueC_gY (fX * valueC_gX)) in
    let* valueAB := fsel_hb indexPermutation2HighBit valueB valueA in
    let* valueBA := fsel_hb indexPermutation2HighBit valueA valueB in
    finish valueAB valueBA valueC.

(** DomainWarpSimplex.inl:321-356, constexpr floats *)
Definition kComponentPairwiseIndexedNegativeAB : V := lit (-1577057) (-22).
Definition kComponentPairwiseUnindexedFillerAB : V := lit 7473473 (-25).
Definition kComponentPairwiseIndexedPositiveD : V := s_neg kSkew4f.
Definition kComponentPairwiseUnindexedD : V := kSkew4f.
Definition kDeltaPairwiseToSingleAB : V := lit (-8321521) (-26).
Definition kDeltaPairwiseToSingleD : V := lit 12816653 (-26).
Definition kDeltaSingleToExtra : V := kSkew4f.
Definition kDeltaPairwiseABToC : V := lit 916489 (-21).
Definition kDeltaUnindexedFillerToDiagonal : V := s_neg kRoot2f.
Definition kDeltaPairwiseToSingleExtraAB : V := s_add kDeltaPairwiseToSingleAB kDeltaSingleToExtra.
Definition kDeltaPairwiseToSingleExtraD : V := s_add kDeltaPairwiseToSingleD kDeltaSingleToExtra.
Definition sIdxABC : V := s_add kComponentPairwiseIndexedNegativeAB kDeltaPairwiseToSingleAB.
Definition sDiagABC : V := s_add (s_add kComponentPairwiseUnindexedFillerAB kDeltaPairwiseToSingleAB) kDeltaUnindexedFillerToDiagonal.
Definition sFillABC : V := s_add kComponentPairwiseUnindexedFillerAB kDeltaPairwiseToSingleAB.
Definition sIdxD : V := s_sub (s_add kComponentPairwiseIndexedPositiveD kDeltaPairwiseToSingleD) c1.
Definition sFillD : V := s_add kComponentPairwiseUnindexedD kDeltaPairwiseToSingleD.
Definition pIdxPosAB : V := s_add kComponentPairwiseIndexedNegativeAB c1.
Definition pIdxNegAB : V := kComponentPairwiseIndexedNegativeAB.
Definition pFillAB : V := kComponentPairwiseUnindexedFillerAB.
Definition pDiagAB : V := s_add kComponentPairwiseUnindexedFillerAB kDeltaUnindexedFillerToDiagonal.
Definition pIdxPosC : V := s_add (s_add kComponentPairwiseIndexedNegativeAB kDeltaPairwiseABToC) c1.
Definition pIdxNegC : V := s_add kComponentPairwiseIndexedNegativeAB kDeltaPairwiseABToC.
Definition pFillC : V := s_add kComponentPairwiseUnindexedFillerAB kDeltaPairwiseABToC.
Definition pIdxPosD : V := kComponentPairwiseIndexedPositiveD.
Definition pIdxNegD : V := s_sub kComponentPairwiseIndexedPositiveD c1.
Definition pFillD : V := kComponentPairwiseUnindexedD.
Definition eIdxABC : V := s_add (s_add kComponentPairwiseIndexedNegativeAB kDeltaPairwiseToSingleExtraAB) c1.
Definition eDiagABC : V := s_add (s_add kComponentPairwiseUnindexedFillerAB kDeltaPairwiseToSingleExtraAB) kDeltaUnindexedFillerToDiagonal.
Definition eFillABC : V := s_add kComponentPairwiseUnindexedFillerAB kDeltaPairwiseToSingleExtraAB.
Definition eIdxD : V := s_add kComponentPairwiseIndexedPositiveD kDeltaPairwiseToSingleExtraD.
Definition eFillD : V := s_add kComponentPairwiseUnindexedD kDeltaPairwiseToSingleExtraD.

Definition row4 : Type := F * F * F * F.
(** The rows valueA_g..., valueB_g..., valueC_g..., valueD_g... *)
(** DomainWarpSimplex.inl:370-461, the tables of the AVX512 branch; [indexBasis] already shifted right *)
Definition ortho4_avx512 (indexBasis : I) : row4 * row4 * row4 * row4 :=
    let* valueA_gX := ftable ([sIdxABC; sDiagABC; sDiagABC; sDiagABC; pIdxPosAB; pIdxNegAB; pDiagAB; pDiagAB; pIdxPosAB; pDiagAB; pIdxNegAB; pDiagAB; pIdxPosAB; pDiagAB; pDiagAB; pIdxNegAB]
      ++ [eIdxABC; eDiagABC; eDiagABC; eDiagABC; c0; c0; c0; c0; c0; c0; c0; c0; c0; c0; c0; c0]) indexBasis in
    let* valueB_gX := ftable ([sIdxABC; sFillABC; sFillABC; sFillABC; pIdxPosAB; pIdxNegAB; pFillAB; pFillAB; pIdxPosAB; pFillAB; pIdxNegAB; pFillAB; pIdxPosAB; pFillAB; pFillAB; pIdxNegAB]
      ++ [eIdxABC; eFillABC; eFillABC; eFillABC; c0; c0; c0; c0; c0; c0; c0; c0; c0; c0; c0; c0]) indexBasis in
    let* valueC_gX := ftable ([sIdxABC; sFillABC; sFillABC; sFillABC; pIdxPosC; pIdxNegC; pFillC; pFillC; pIdxPosC; pFillC; pIdxNegC; pFillC; pIdxPosC; pFillC; pFillC; pIdxNegC]
      ++ [eIdxABC; eFillABC; eFillABC; eFillABC; c0; c0; c0; c0; c0; c0; c0; c0; c0; c0; c0; c0]) indexBasis in
    let* valueD_gX := ftable ([sIdxD; sFillD; sFillD; sFillD; pIdxPosD; pIdxNegD; pFillD; pFillD; pIdxPosD; pFillD; pIdxNegD; pFillD; pIdxPosD; pFillD; pFillD; pIdxNegD]
      ++ [eIdxD; eFillD; eFillD; eFillD; c0; c0; c0; c0; c0; c0; c0; c0; c0; c0; c0; c0]) indexBasis in
    let* valueA_gY := ftable ([sDiagABC; sIdxABC; sFillABC; sFillABC; pIdxNegAB; pIdxPosAB; pFillAB; pFillAB; pDiagAB; pIdxPosAB; pDiagAB; pIdxNegAB; pDiagAB; pIdxPosAB; pIdxNegAB; pDiagAB]
      ++ [eDiagABC; eIdxABC; eFillABC; eFillABC; c0; c0; c0; c0; c0; c0; c0; c0; c0; c0; c0; c0]) indexBasis in
    let* valueB_gY := ftable ([sFillABC; sIdxABC; sDiagABC; sDiagABC; pIdxNegAB; pIdxPosAB; pDiagAB; pDiagAB; pFillAB; pIdxPosAB; pFillAB; pIdxNegAB; pFillAB; pIdxPosAB; pIdxNegAB; pFillAB]
      ++ [eFillABC; eIdxABC; eDiagABC; eDiagABC; c0; c0; c0; c0; c0; c0; c0; c0; c0; c0; c0; c0]) indexBasis in
    let* valueC_gY := ftable ([sFillABC; sIdxABC; sFillABC; sFillABC; pIdxNegC; pIdxPosC; pFillC; pFillC; pFillC; pIdxPosC; pFillC; pIdxNegC; pFillC; pIdxPosC; pIdxNegC; pFillC]
      ++ [eFillABC; eIdxABC; eFillABC; eFillABC; c0; c0; c0; c0; c0; c0; c0; c0; c0; c0; c0; c0]) indexBasis in
    let* valueD_gY := ftable ([sFillD; sIdxD; sFillD; sFillD; pIdxNegD; pIdxPosD; pFillD; pFillD; pFillD; pIdxPosD; pFillD; pIdxNegD; pFillD; pIdxPosD; pIdxNegD; pFillD]
      ++ [eFillD; eIdxD; eFillD; eFillD; c0; c0; c0; c0; c0; c0; c0; c0; c0; c0; c0; c0]) indexBasis in
    let* valueA_gZ := ftable ([sFillABC; sFillABC; sIdxABC; sFillABC; pDiagAB; pDiagAB; pIdxPosAB; pIdxNegAB; pIdxNegAB; pFillAB; pIdxPosAB; pFillAB; pFillAB; pIdxNegAB; pIdxPosAB; pFillAB]
      ++ [eFillABC; eFillABC; eIdxABC; eFillABC; c0; c0; c0; c0; c0; c0; c0; c0; c0; c0; c0; c0]) indexBasis in
    let* valueB_gZ := ftable ([sDiagABC; sDiagABC; sIdxABC; sFillABC; pFillAB; pFillAB; pIdxPosAB; pIdxNegAB; pIdxNegAB; pDiagAB; pIdxPosAB; pDiagAB; pDiagAB; pIdxNegAB; pIdxPosAB; pDiagAB]
      ++ [eDiagABC; eDiagABC; eIdxABC; eFillABC; c0; c0; c0; c0; c0; c0; c0; c0; c0; c0; c0; c0]) indexBasis in
    let* valueC_gZ := ftable ([sFillABC; sFillABC; sIdxABC; sDiagABC; pFillC; pFillC; pIdxPosC; pIdxNegC; pIdxNegC; pFillC; pIdxPosC; pFillC; pFillC; pIdxNegC; pIdxPosC; pFillC]
      ++ [eFillABC; eFillABC; eIdxABC; eDiagABC; c0; c0; c0; c0; c0; c0; c0; c0; c0; c0; c0; c0]) indexBasis in
    let* valueD_gZ := ftable ([sFillD; sFillD; sIdxD; sFillD; pFillD; pFillD; pIdxPosD; pIdxNegD; pIdxNegD; pFillD; pIdxPosD; pFillD; pFillD; pIdxNegD; pIdxPosD; pFillD]
      ++ [eFillD; eFillD; eIdxD; eFillD; c0; c0; c0; c0; c0; c0; c0; c0; c0; c0; c0; c0]) indexBasis in
    let* valueA_gW := ftable ([sFillABC; sFillABC; sFillABC; sIdxABC; pFillAB; pFillAB; pIdxNegAB; pIdxPosAB; pFillAB; pIdxNegAB; pFillAB; pIdxPosAB; pIdxNegAB; pFillAB; pFillAB; pIdxPosAB]
      ++ [eFillABC; eFillABC; eFillABC; eIdxABC; c0; c0; c0; c0; c0; c0; c0; c0; c0; c0; c0; c0]) indexBasis in
    let* valueB_gW := ftable ([sFillABC; sFillABC; sFillABC; sIdxABC; pDiagAB; pDiagAB; pIdxNegAB; pIdxPosAB; pDiagAB; pIdxNegAB; pDiagAB; pIdxPosAB; pIdxNegAB; pDiagAB; pDiagAB; pIdxPosAB]
      ++ [eFillABC; eFillABC; eFillABC; eIdxABC; c0; c0; c0; c0; c0; c0; c0; c0; c0; c0; c0; c0]) indexBasis in
    let* valueC_gW := ftable ([sDiagABC; sDiagABC; sDiagABC; sIdxABC; pFillC; pFillC; pIdxNegC; pIdxPosC; pFillC; pIdxNegC; pFillC; pIdxPosC; pIdxNegC; pFillC; pFillC; pIdxPosC]
      ++ [eDiagABC; eDiagABC; eDiagABC; eIdxABC; c0; c0; c0; c0; c0; c0; c0; c0; c0; c0; c0; c0]) indexBasis in
    let* valueD_gW := ftable ([sFillD; sFillD; sFillD; sIdxD; pFillD; pFillD; pIdxNegD; pIdxPosD; pFillD; pIdxNegD; pFillD; pIdxPosD; pIdxNegD; pFillD; pFillD; pIdxPosD]
      ++ [eFillD; eFillD; eFillD; eIdxD; c0; c0; c0; c0; c0; c0; c0; c0; c0; c0; c0; c0]) indexBasis in
    ((valueA_gX, valueA_gY, valueA_gZ, valueA_gW), (valueB_gX, valueB_gY, valueB_gZ, valueB_gW),
     (valueC_gX, valueC_gY, valueC_gZ, valueC_gW), (valueD_gX, valueD_gY, valueD_gZ, valueD_gW)).
(** DomainWarpSimplex.inl:462-559, the AVX2 branch. [int32v( 0x10 << 27 )] is the int -2^31. *)
Definition ortho4_avx2 (indexBasis : I) : row4 * row4 * row4 * row4 :=
    let tableAB := [pFillAB; pIdxNegAB; pFillAB; pIdxPosAB; sFillABC; sIdxABC; eFillABC; eIdxABC] in
    let tableC := [pFillC; pIdxNegC; pFillC; pIdxPosC; sFillABC; sIdxABC; eFillABC; eIdxABC] in
    let tableD := [pFillD; pIdxNegD; pFillD; pIdxPosD; sFillD; sIdxD; eFillD; eIdxD] in
    let* indexPositive := iand indexBasis (iv (3 * 2^27)) in
    let* indexNegative := iand (ishr indexBasis 2) (iv (3 * 2^27)) in
    let* indexNegative := ixor indexNegative indexPositive in
    let* extraCase := ige indexBasis (iv (16 * 2^27)) in
    let* singleCase := ieq indexPositive indexNegative in
    let* indexPositive := ior indexPositive (cast_m singleCase) in
    let* indexSelectBase := ior (imasked singleCase (iv 4)) (imasked extraCase (iv 2)) in
    let* indexedCounter := iv (-1) in
    let* indexedPositive := ieq indexPositive (iv (0 * 2^27)) in
    let* indexed := mor indexedPositive (ieq indexNegative (iv (0 * 2^27))) in
    let* indexSelect := imasked_inc indexed (ior indexSelectBase (imasked indexedPositive (iv 2))) in
    let* valueA_gX := ftable [pDiagAB; pIdxNegAB; pDiagAB; pIdxPosAB; sDiagABC; sIdxABC; eDiagABC; eIdxABC] indexSelect in
    let* valueB_gX := ftable tableAB indexSelect in
    let* valueC_gX := ftable tableC indexSelect in
    let* valueD_gX := ftable tableD indexSelect in
    let* indexedCounter := imasked_dec indexed indexedCounter in
    let* indexedPositive := ieq indexPositive (iv (1 * 2^27)) in
    let* indexed := mor indexedPositive (ieq indexNegative (iv (1 * 2^27))) in
    let* indexSelect := imasked_inc indexed (ior indexSelectBase (imasked indexedPositive (iv 2))) in
    let* valueB_gY := ftable tableAB indexSelect in
    let* valueA_gY := valueB_gY in
    let* valueC_gY := ftable tableC indexSelect in
    let* valueD_gY := ftable tableD indexSelect in
    let* maskedIndexedCounter := iinvmasked indexed indexedCounter in
    let* valueA_gY := fmasked_add (ieq maskedIndexedCounter (iv (-2))) valueA_gY (fv kDeltaUnindexedFillerToDiagonal) in
    let* valueB_gY := fmasked_add (ieq maskedIndexedCounter (iv (-1))) valueB_gY (fv kDeltaUnindexedFillerToDiagonal) in
    let* indexedCounter := imasked_dec indexed indexedCounter in
    let* indexedPositive := ieq indexPositive (iv (2 * 2^27)) in
    let* indexed := mor indexedPositive (ieq indexNegative (iv (2 * 2^27))) in
    let* indexSelect := imasked_inc indexed (ior indexSelectBase (imasked indexedPositive (iv 2))) in
    let* valueB_gZ := ftable tableAB indexSelect in
    let* valueA_gZ := valueB_gZ in
    let* valueC_gZ := ftable tableC indexSelect in
    let* valueD_gZ := ftable tableD indexSelect in
    let* maskedIndexedCounter := iinvmasked indexed indexedCounter in
    let* valueA_gZ := fmasked_add (ieq maskedIndexedCounter (iv (-3))) valueA_gZ (fv kDeltaUnindexedFillerToDiagonal) in
    let* valueB_gZ := fmasked_add (ieq maskedIndexedCounter (iv (-2))) valueB_gZ (fv kDeltaUnindexedFillerToDiagonal) in
    let* valueC_gZ := fmasked_add (ieq maskedIndexedCounter (iv (-1))) valueC_gZ (fv kDeltaUnindexedFillerToDiagonal) in
    let* indexedCounter := imasked_dec indexed indexedCounter in
    let* indexedPositive := ieq indexPositive (iv (3 * 2^27)) in
    let* indexed := mor indexedPositive (ieq indexNegative (iv (3 * 2^27))) in
    let* indexSelect := imasked_inc indexed (ior indexSelectBase (imasked indexedPositive (iv 2))) in
    let* valueB_gW := ftable tableAB indexSelect in
    let* valueA_gW := valueB_gW in
    let* valueC_gW := ftable tableC indexSelect in
    let* valueD_gW := ftable tableD indexSelect in
    let* maskedIndexedCounter := iinvmasked indexed indexedCounter in
    let* valueB_gW := fmasked_add (ieq maskedIndexedCounter (iv (-3))) valueB_gW (fv kDeltaUnindexedFillerToDiagonal) in
    let* valueC_gW := fmasked_add (ieq maskedIndexedCounter (iv (-2))) valueC_gW (fv kDeltaUnindexedFillerToDiagonal) in
    ((valueA_gX, valueA_gY, valueA_gZ, valueA_gW), (valueB_gX, valueB_gY, valueB_gZ, valueB_gW),
     (valueC_gX, valueC_gY, valueC_gZ, valueC_gW), (valueD_gX, valueD_gY, valueD_gZ, valueD_gW)).
(** DomainWarpSimplex.inl:560-681, the other branch *)
Definition ortho4_else (indexBasis : I) : row4 * row4 * row4 * row4 :=
    let* indexPositive := iand indexBasis (iv (3 * 2^27)) in
    let* indexNegative := iand (ishr indexBasis 2) (iv (3 * 2^27)) in
    let* indexNegative := ixor indexNegative indexPositive in
    let* extraCase := ige indexBasis (iv (16 * 2^27)) in
    let* singleCase := ieq indexPositive indexNegative in
    let* singleNonExtraCase := ilt indexBasis (iv (4 * 2^27)) in
    let* indexPositive := ior indexPositive (cast_m singleNonExtraCase) in
    let* singleOffsetAB := fmasked_add extraCase (fv kDeltaPairwiseToSingleAB) (fv kDeltaSingleToExtra) in
    let* componentIndexedNegativeAB := fmasked_add singleCase (fv kComponentPairwiseIndexedNegativeAB) singleOffsetAB in
    let* componentUnindexedFillerAB := fmasked_add singleCase (fv kComponentPairwiseUnindexedFillerAB) singleOffsetAB in
    let* componentIndexedNegativeC := finvmasked_add singleCase componentIndexedNegativeAB (fv kDeltaPairwiseABToC) in
    let* componentUnindexedFillerC := finvmasked_add singleCase componentUnindexedFillerAB (fv kDeltaPairwiseABToC) in
    let* singleOffsetD := fmasked_add extraCase (fv kDeltaPairwiseToSingleD) (fv kDeltaSingleToExtra) in
    let* componentIndexedPositiveD := fmasked_add singleCase (fv kComponentPairwiseIndexedPositiveD) singleOffsetD in
    let* componentUnindexedD := fmasked_add singleCase (fv kComponentPairwiseUnindexedD) singleOffsetD in
    let* indexedCounter := iv (-1) in
    let* indexedPositive := ieq indexPositive (iv (0 * 2^27)) in
    let* indexed := mor indexedPositive (ieq indexNegative (iv (0 * 2^27))) in
    let* indexedComponentAB := fmasked_inc indexedPositive componentIndexedNegativeAB in
    let* indexedComponentC := fmasked_inc indexedPositive componentIndexedNegativeC in
    let* indexedComponentD := fmasked_dec (mnot indexedPositive) componentIndexedPositiveD in
    let* unindexedComponentA := componentUnindexedFillerAB + fv kDeltaUnindexedFillerToDiagonal in
    let* unindexedComponentB := componentUnindexedFillerAB in
    let* unindexedComponentC := componentUnindexedFillerC in
    let* valueA_gX := fsel indexed indexedComponentAB unindexedComponentA in
    let* valueB_gX := fsel indexed indexedComponentAB unindexedComponentB in
    let* valueC_gX := fsel indexed indexedComponentC unindexedComponentC in
    let* valueD_gX := fsel indexed indexedComponentD componentUnindexedD in
    let* indexedCounter := imasked_dec indexed indexedCounter in
    let* indexedPositive := ieq indexPositive (iv (1 * 2^27)) in
    let* indexed := mor indexedPositive (ieq indexNegative (iv (1 * 2^27))) in
    let* indexedComponentAB := fmasked_inc indexedPositive componentIndexedNegativeAB in
    let* indexedComponentC := fmasked_inc indexedPositive componentIndexedNegativeC in
    let* indexedComponentD := fmasked_dec (mnot indexedPositive) componentIndexedPositiveD in
    let* unindexedComponentA := fmasked_add (ieq indexedCounter (iv (-2))) componentUnindexedFillerAB (fv kDeltaUnindexedFillerToDiagonal) in
    let* unindexedComponentB := fmasked_add (ieq indexedCounter (iv (-1))) componentUnindexedFillerAB (fv kDeltaUnindexedFillerToDiagonal) in
    let* unindexedComponentC := componentUnindexedFillerC in
    let* valueA_gY := fsel indexed indexedComponentAB unindexedComponentA in
    let* valueB_gY := fsel indexed indexedComponentAB unindexedComponentB in
    let* valueC_gY := fsel indexed indexedComponentC unindexedComponentC in
    let* valueD_gY := fsel indexed indexedComponentD componentUnindexedD in
    let* indexedCounter := imasked_dec indexed indexedCounter in
    let* indexedPositive := ieq indexPositive (iv (2 * 2^27)) in
    let* indexed := mor indexedPositive (ieq indexNegative (iv (2 * 2^27))) in
    let* indexedComponentAB := fmasked_inc indexedPositive componentIndexedNegativeAB in
    let* indexedComponentC := fmasked_inc indexedPositive componentIndexedNegativeC in
    let* indexedComponentD := fmasked_dec (mnot indexedPositive) componentIndexedPositiveD in
    let* unindexedComponentA := fmasked_add (ieq indexedCounter (iv (-3))) componentUnindexedFillerAB (fv kDeltaUnindexedFillerToDiagonal) in
    let* unindexedComponentB := fmasked_add (ieq indexedCounter (iv (-2))) componentUnindexedFillerAB (fv kDeltaUnindexedFillerToDiagonal) in
    let* unindexedComponentC := fmasked_add (ieq indexedCounter (iv (-1))) componentUnindexedFillerC (fv kDeltaUnindexedFillerToDiagonal) in
    let* valueA_gZ := fsel indexed indexedComponentAB unindexedComponentA in
    let* valueB_gZ := fsel indexed indexedComponentAB unindexedComponentB in
    let* valueC_gZ := fsel indexed indexedComponentC unindexedComponentC in
    let* valueD_gZ := fsel indexed indexedComponentD componentUnindexedD in
    let* indexedCounter := imasked_dec indexed indexedCounter in
    let* indexedPositive := ieq indexPositive (iv (3 * 2^27)) in
    let* indexed := mor indexedPositive (ieq indexNegative (iv (3 * 2^27))) in
    let* indexedComponentAB := fmasked_inc indexedPositive componentIndexedNegativeAB in
    let* indexedComponentC := fmasked_inc indexedPositive componentIndexedNegativeC in
    let* indexedComponentD := fmasked_dec (mnot indexedPositive) componentIndexedPositiveD in
    let* unindexedComponentA := componentUnindexedFillerAB in
    let* unindexedComponentB := fmasked_add (ieq indexedCounter (iv (-3))) componentUnindexedFillerAB (fv kDeltaUnindexedFillerToDiagonal) in
    let* unindexedComponentC := fmasked_add (ieq indexedCounter (iv (-2))) componentUnindexedFillerC (fv kDeltaUnindexedFillerToDiagonal) in
    let* valueA_gW := fsel indexed indexedComponentAB unindexedComponentA in
    let* valueB_gW := fsel indexed indexedComponentAB unindexedComponentB in
    let* valueC_gW := fsel indexed indexedComponentC unindexedComponentC in
    let* valueD_gW := fsel indexed indexedComponentD componentUnindexedD in
    ((valueA_gX, valueA_gY, valueA_gZ, valueA_gW), (valueB_gX, valueB_gY, valueB_gZ, valueB_gW),
     (valueC_gX, valueC_gY, valueC_gZ, valueC_gW), (valueD_gX, valueD_gY, valueD_gZ, valueD_gW)).
(** valueA = valueA_gX * fX; valueA = FMulAdd( valueA_gY, fY, valueA ); ... *)
Definition row_dot (g : row4) (fX fY fZ fW : F) : F :=
  let '(gX, gY, gZ, gW) := g in fmadd gW fW (fmadd gZ fZ (fmadd gY fY (gX * fX))).
(** DomainWarpSimplex.inl:318-694. [indexPermutation8], the value indices and their sum are not masked:
    only their low bits are looked at, except in [valueIndexZ >= indexPermutation3]. *)
Definition ApplyOrthogonalGradientMatrixVectorProductSimplex4 (hash31 : I) (fX fY fZ fW multiplier valueX valueY valueZ valueW : F) : F * F * F * F :=
  let* hashShifted := iushr hash31 2 in
  let* indexBasis := imul hashShifted (iv 5) in
  let* indexPermutation3 := ishr (imul hashShifted (iv 0xD5555556)) 29 in
  let* indexPermutation8 := ishr indexBasis 24 in
  let* finalSign := ishl hash31 31 in
  let '(gA, gB, gC, gD) :=
    if avx512 ft then ortho4_avx512 (ishr indexBasis 27) else if avx2 ft then ortho4_avx2 indexBasis else ortho4_else indexBasis in
  let* valueA := row_dot gA fX fY fZ fW in
  let* valueB := row_dot gB fX fY fZ fW in
  let* valueC := row_dot gC fX fY fZ fW in
  let* valueD := row_dot gD fX fY fZ fW in
  let* valueIndexX := ishr indexPermutation8 1 in
  let* valueIndexY := iadd (iadd valueIndexX (iv 1)) indexPermutation3 in
  let* valueIndexZ := iand indexPermutation8 (iv 1) in
  let* valueIndexZ := iadd (iadd valueIndexX (iv 1)) (imasked_inc (ige valueIndexZ indexPermutation3) valueIndexZ) in
  let* valueIndexSumXYZ := iadd (iadd valueIndexX valueIndexY) valueIndexZ in
  let* multiplier := fxor_sign multiplier finalSign in
  let pick (i : I) (vD vB vC vA : F) := fsel_hb (ishl i 31) (fsel_hb (ishl i 30) vD vB) (fsel_hb (ishl i 30) vC vA) in
  (fmadd multiplier (pick valueIndexX valueD valueB valueC valueA) valueX,
   fmadd multiplier (pick valueIndexY valueD valueB valueC valueA) valueY,
   fmadd multiplier (pick valueIndexZ valueD valueB valueC valueA) valueZ,
   fmadd multiplier (pick valueIndexSumXYZ valueD valueB valueA valueC) valueW).

(** DomainWarpSimplex.inl:697-724 ApplyVectorContribution*, for one visited vertex: the vector registers
    are a list with one element per dimension *)
Definition ApplyVectorContribution (scheme : VectorizationScheme) (seed : I) (c : contrib) (value : list F) : list F :=
  match cd c, value with
  | [x; y], [vx; vy] =>
      let '(vx, vy) := match scheme with
        | OrthogonalGradientMatrix => ApplyOrthogonalGradientMatrixVectorProductSimplex2 (HashPrimes seed (cp c)) x y (cf c) vx vy
        | GradientOuterProduct => ApplyGradientOuterProductVectorProductSimplex2 (HashPrimes seed (cp c)) x y (cf c) vx vy end in
      [vx; vy]
  | [x; y; z], [vx; vy; vz] =>
      let '(vx, vy, vz) := match scheme with
        | OrthogonalGradientMatrix => ApplyOrthogonalGradientMatrixVectorProductCommon3 (HashPrimes seed (cp c)) x y z (cf c) vx vy vz
        | GradientOuterProduct => ApplyGradientOuterProductVectorProductCommon3 (HashPrimes seed (cp c)) x y z (cf c) vx vy vz end in
      [vx; vy; vz]
  | [x; y; z; w], [vx; vy; vz; vw] =>
      let '(vx, vy, vz, vw) := match scheme with
        | OrthogonalGradientMatrix => ApplyOrthogonalGradientMatrixVectorProductSimplex4 (HashPrimes seed (cp c)) x y z w (cf c) vx vy vz vw
        | GradientOuterProduct => ApplyGradientOuterProductVectorProductSimplex4 (HashPrimes seed (cp c)) x y z w (cf c) vx vy vz vw end in
      [vx; vy; vz; vw]
  | _, _ => value
  end.
(** The sequence of ApplyVectorContribution calls of Warp_ND, from valueX( 0 ), valueY( 0 ), ... *)
Definition vector_sum (scheme : VectorizationScheme) (seed : I) (d : nat) (l : list contrib) : list F :=
  fold_left (fun value c => ApplyVectorContribution scheme seed c value) l (repeat (num 0) d).

(** DomainWarpSimplex.inl:909-917 and 1424-1432, "Match gradient orientation", only in 3D and only for
    GradientOuterProduct; [k] is kReflect3D *)
Definition reflect3 (k : V) (value : list F) : list F :=
  match value with
  | [vx; vy; vz] => let* d := fv k * (vx + vy + vz) in [vx + d; vy + d; vz + d]
  | _ => value
  end.
(** kReflect3D, DomainWarpSimplex.inl:912 and 1427 *)
Definition kReflectSimplex : V := cm1.
Definition kReflectSuper : V := lit (-11184811) (-24).

(** DomainWarpSimplex.inl:823-833, 919-931, 1073-1086, 1208-1218, ...: kBounding, the axis scales, the
    amplitude, and the returned squared strength *)
Definition warp_tail (kBounding : V) (axis : list V) (warpAmp : F) (value out : list F) : F * list F :=
  let scaled := map (fun '(v, a) => v * fv (s_mul kBounding a)) (combine value axis) in
  (match scaled with
   | [] => num 0
   | v0 :: l => fold_left (fun acc v => fmadd v v acc) l (v0 * v0)
   end,
   map (fun '(v, o) => fmadd v warpAmp o) (combine scaled out)).

(** kBounding, DomainWarpSimplex.inl:823-825, 919-921, 1073-1075 *)
Definition kBoundWarp (scheme : VectorizationScheme) (d : nat) : V :=
  match scheme, d with
  | GradientOuterProduct, 2%nat => lit 1635727 (-16) | OrthogonalGradientMatrix, 2%nat => lit 4597223 (-16)
  | GradientOuterProduct, 3%nat => lit 12120673 (-19) | OrthogonalGradientMatrix, 3%nat => lit 1067033 (-16)
  | GradientOuterProduct, _ => lit 6238071 (-18) | OrthogonalGradientMatrix, _ => lit 8095431 (-18)
  end.
(** kBounding, DomainWarpSimplex.inl:1208-1210, 1434-1436, 1821-1823 *)
Definition kBoundWarpSuper (scheme : VectorizationScheme) (d : nat) : V :=
  match scheme, d with
  | GradientOuterProduct, 2%nat => lit 9741205 (-21) | OrthogonalGradientMatrix, 2%nat => lit 6561 (-9)
  | GradientOuterProduct, 3%nat => lit 13414447 (-17) | OrthogonalGradientMatrix, 3%nat => lit 4933155 (-17)
  | GradientOuterProduct, _ => lit 10678461 (-17) | OrthogonalGradientMatrix, _ => lit 3198195 (-16)
  end.
Definition reflected (scheme : VectorizationScheme) (k : V) (value : list F) : list F :=
  match scheme with OrthogonalGradientMatrix => value | GradientOuterProduct => reflect3 k value end.

(** The constants of the lattice search (sxNk_code, ssNk_code for the code) *)
Record swk := { sw2 : sx2k s; sw3 : sx3k s; sw4 : sx4k s; sws2 : ss2k s; sws3 : ss3k s; sws4 : ss4k s }.
Definition swk_code : swk := {| sw2 := sx2k_code; sw3 := sx3k_code; sw4 := sx4k_code; sws2 := ss2k_code; sws3 := ss3k_code; sws4 := ss4k_code |}.

(** DomainWarpSimplex.inl:731-1087 DomainWarpSimplex::Warp. Warp adds mSeedOffset to the seed. *)
Definition SimplexWarpK (K : swk) (scheme : VectorizationScheme) (so : Z) (axis : list V) : warp_fn s W := fun seed warpAmp p out =>
  let* seed := iadd seed (iv so) in
  match p with
  | [x; y] => warp_tail (kBoundWarp scheme 2) (firstn 2 axis) warpAmp (vector_sum scheme seed 2 (simplex2 (sw2 K) x y)) out
  | [x; y; z] => warp_tail (kBoundWarp scheme 3) (firstn 3 axis) warpAmp
                   (reflected scheme kReflectSimplex (vector_sum scheme seed 3 (simplex3 (sw3 K) x y z))) out
  | [x; y; z; w] => warp_tail (kBoundWarp scheme 4) (firstn 4 axis) warpAmp (vector_sum scheme seed 4 (simplex4 (sw4 K) x y z w)) out
  | _ => (num 0, out)
  end.
Definition SimplexWarp := SimplexWarpK swk_code.
(** DomainWarpSimplex.inl:1094-1836 DomainWarpSuperSimplex::Warp. Warp does not add mSeedOffset. *)
Definition SuperSimplexWarpK (K : swk) (scheme : VectorizationScheme) (axis : list V) : warp_fn s W := fun seed warpAmp p out =>
  match p with
  | [x; y] => warp_tail (kBoundWarpSuper scheme 2) (firstn 2 axis) warpAmp (vector_sum scheme seed 2 (supersimplex2 (sws2 K) x y)) out
  | [x; y; z] => warp_tail (kBoundWarpSuper scheme 3) (firstn 3 axis) warpAmp
                   (reflected scheme kReflectSuper (vector_sum scheme seed 3 (supersimplex3 (sws3 K) x y z))) out
  | [x; y; z; w] => warp_tail (kBoundWarpSuper scheme 4) (firstn 4 axis) warpAmp (vector_sum scheme seed 4 (supersimplex4 (sws4 K) x y z w)) out
  | _ => (num 0, out)
  end.
Definition SuperSimplexWarp := SuperSimplexWarpK swk_code.
End SimplexWarp.
Arguments swk s : clear implicits.
