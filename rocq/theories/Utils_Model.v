(** include/FastNoise/Generators/Utils.inl: hashing, gradients, interpolation, distances;
    Generator.inl:48-67 GetSourceValue. *)
From Coq Require Import ZArith List Bool.
From Verif Require Import Prelude Simd_Model.
Import ListNotations.
Open Scope Z_scope.

(** Utils.inl:6-14 Primes *)
Definition PrimeX : Z := 0xF797C5C7.
Definition PrimeY : Z := 0x6C060C89.
Definition PrimeZ : Z := 0x465FD04F.
Definition PrimeW : Z := 0xF7A62279.
Definition PrimesLookup : list Z := [PrimeX; PrimeY; PrimeZ; PrimeW].
(** Utils.inl:16-19 HashMultiplier::A *)
Definition HashA : Z := 0xB7E0A5F5.

(** Utils.inl:27-31 the float constants (double values rounded to float), as exact dyadics *)
Definition kValueBounds {s : sops} : V s := lit 1 31.
Definition kRoot2f {s : sops} : V s := lit 11863283 (-23).
Definition kRoot3f {s : sops} : V s := lit 14529495 (-23).
Definition kSkew4f {s : sops} : V s := lit 5184445 (-24).

(** The compile-time feature tests of Utils.inl ([SIMD & FeatureFlag::...]) and
    FastSIMD::IsRelaxed(). *)
Record feat := { avx512 : bool; avx2 : bool; x86 : bool; sse41 : bool; relaxed : bool }.

Section Utils.
Context {s : sops} {W : simd}.
Notation F := (F s W). Notation I := (I W). Notation M := (M W).
Local Open Scope f_scope.

Definition num (z : Z) : F := fv (lit z 0).                     (* float32v( z ) *)
Definition half : F := fv (lit 1 (-1)).                         (* float32v( 0.5f ) *)

(** Utils.inl:221-230 HashPrimes; [primedPos] has at least one element, the fold is
    p1 ^ (p2 ^ (p3 ^ p4)) *)
Fixpoint xor_fold (p : list I) : I :=
  match p with [] => iv 0 | [x] => x | x :: p' => ixor x (xor_fold p') end.
Definition HashPrimes (seed : I) (p : list I) : I :=
  let* hash := ixor seed (xor_fold p) in
  let* hash := imul hash (iv HashA) in
  ixor (ishr hash 15) hash.
(** Utils.inl:232-240 HashPrimesHB *)
Definition HashPrimesHB (seed : I) (p : list I) : I :=
  let* hash := ixor seed (xor_fold p) in
  imul hash (iv HashA).
(** Utils.inl:242-250 GetValueCoord: [hash *= hash * A] *)
Definition GetValueCoord (seed : I) (p : list I) : F :=
  let* hash := ixor seed (xor_fold p) in
  let* hash := imul hash (imul hash (iv HashA)) in
  of_int hash.

(** Utils.inl:252-255 Lerp *)
Definition Lerp (a b t : F) : F := fmadd t (b - a) a.
(** Utils.inl:257-260 InterpHermite *)
Definition InterpHermite (t : F) : F := t * t * fnmadd t (num 2) (num 3).
(** Utils.inl:262-265 InterpQuintic *)
Definition InterpQuintic (t : F) : F := t * t * t * fmadd t (fmadd t (num 6) (num (-15))) (num 10).

(** Utils.inl:267-279 FastLengthSqrt *)
Definition FastLengthSqrt (ft : feat) (sqrDist : F) : F :=
  if relaxed ft
  then let* invSqrt := finvsqrt sqrDist in fmasked (fne sqrDist (num 0)) (sqrDist * invSqrt)
  else fsqrt sqrDist.

Definition c0 : V s := lit 0 0. Definition c1 : V s := lit 1 0. Definition cm1 : V s := lit (-1) 0.
Definition c2 : V s := lit 2 0. Definition cm2 : V s := lit (-2) 0.

(** Utils.inl:33-76 GetGradientDotSimplex, 2D *)
Definition GetGradientDotSimplex2 (ft : feat) (hash31 : I) (fX fY : F) : F :=
  let r := kRoot3f in let mr := s_neg kRoot3f in
  let* index := imul (iushr hash31 1) (iv 3) in
  if avx512 ft then
    let* index := ishr index 28 in
    let* gX := ftable [r; mr; c1; cm1; r; mr; cm1; c1; c2; cm2; c0; c0; c0; c0; c0; c0] index in
    let* gY := ftable [c1; cm1; r; mr; cm1; c1; r; mr; c0; c0; c2; cm2; c0; c0; c0; c0] index in
    fmadd gX fX (fY * gY)
  else if avx2 ft then
    let* finalSign := ishl (ishr index 28) 31 in
    let* index := ishr index 29 in
    let* gX := ftable [r; c1; r; cm1; c2; c0; c0; c0] index in
    let* gY := ftable [c1; r; cm1; r; c0; c2; c0; c0] index in
    fxor_sign (fmadd gX fX (fY * gY)) finalSign
  else
    let* u := fsel_hb (ishl index 2) fY fX in
    let* v := fsel_hb (ishl index 2) fX fY in
    let* a := u * fsel_hb index (num 2) (fv kRoot3f) in
    let* b := fxor_sign v (ishl (ishr index 30) 31) in
    if x86 ft then
      let* indexNegativeMask := mask_hb (ishr index 31) in
      fxor_sign (finvmasked_add indexNegativeMask a b) (ishl (ishr index 28) 31)
    else
      fxor_sign (fmasked_add (ige index (iv 0)) a b) (ishl (ishr index 28) 31).

(** Utils.inl:78-119 GetGradientDotSimplex, 4D *)
Definition GetGradientDotSimplex4 (ft : feat) (hash31 : I) (fX fY fZ fW : F) : F :=
  let k := kSkew4f in let k1 := s_add kSkew4f c1 in
  let* hashShifted := iushr hash31 2 in
  let* index := imul hashShifted (iv 5) in
  if avx512 ft then
    let* index := iushr index 27 in
    let tableX := [k1; k; k; k; cm1; c1; c0; c0; cm1; c0; c1; c0; cm1; c0; c0; c1] in
    let tableY := [k; k1; k; k; c1; cm1; c0; c0; c0; cm1; c0; c1; c0; cm1; c1; c0] in
    let tableZ := [k; k; k1; k; c0; c0; cm1; c1; c1; c0; cm1; c0; c0; c1; cm1; c0] in
    let tableW := [k; k; k; k1; c0; c0; c1; cm1; c0; c1; c0; cm1; c1; c0; c0; cm1] in
    let* gX := ftable (tableX ++ map s_neg tableX) index in
    let* gY := ftable (tableY ++ map s_neg tableY) index in
    let* gZ := ftable (tableZ ++ map s_neg tableZ) index in
    let* gW := ftable (tableW ++ map s_neg tableW) index in
    fmadd gW fW (fmadd gZ fZ (fmadd gY fY (gX * fX)))
  else
    let* indexA := iand index (iv (3 * 2^27)) in
    let* indexB := iand (ishr index 2) (iv (7 * 2^27)) in
    let* indexB := ixor indexB indexA in
    let* extra := ige indexB (iv (4 * 2^27)) in
    let* equal := ieq indexA indexB in
    let* indexA := ior indexA (cast_m equal) in
    let* neutral := fmasked (mor equal extra) (fmasked_mul extra (fv kSkew4f) (num (-1))) in
    let* gX := fmasked_inc (ieq indexB (iv (0 * 2^27))) (fmasked_dec (ieq indexA (iv (0 * 2^27))) neutral) in
    let* gY := fmasked_inc (ieq indexB (iv (1 * 2^27))) (fmasked_dec (ieq indexA (iv (1 * 2^27))) neutral) in
    let* gZ := fmasked_inc (ieq indexB (iv (2 * 2^27))) (fmasked_dec (ieq indexA (iv (2 * 2^27))) neutral) in
    let* gW := fmasked_inc (ieq indexB (iv (3 * 2^27))) (fmasked_dec (ieq indexA (iv (3 * 2^27))) neutral) in
    fmadd gW fW (fmadd gZ fZ (fmadd gY fY (gX * fX))).

(** Utils.inl:121-159 GetGradientDotCommon, 3D *)
Definition GetGradientDotCommon (ft : feat) (hash : I) (fX fY fZ : F) : F :=
  if avx512 ft then
    let* gX := ftable [c1; cm1; c1; cm1; c1; cm1; c1; cm1; c0; c0; c0; c0; c1; c0; cm1; c0] hash in
    let* gY := ftable [c1; c1; cm1; cm1; c0; c0; c0; c0; c1; cm1; c1; cm1; c1; cm1; c1; cm1] hash in
    let* gZ := ftable [c0; c0; c0; c0; c1; c1; cm1; cm1; c1; c1; cm1; cm1; c0; c1; c0; cm1] hash in
    fmadd gX fX (fmadd fY gY (fZ * gZ))
  else
    let* hasha13 := iand hash (iv 13) in
    let* gt7 := if sse41 ft then mask_hb (ishl hash 28) else igt hasha13 (iv 7) in
    let* u := fsel gt7 fY fX in
    let* v := fsel (ieq hasha13 (iv 12)) fX fZ in
    let* v := fsel (ilt hasha13 (iv 2)) fY v in
    let* h1 := ishl hash 31 in
    let* h2 := ishl (ishr hash 1) 31 in
    fxor_sign u h1 + fxor_sign v h2.

(** Utils.inl:161-191 GetGradientDotPerlin, 2D *)
Definition GetGradientDotPerlin2 (ft : feat) (hash : I) (fX fY : F) : F :=
  let r := s_add c1 kRoot2f in let mr := s_sub cm1 kRoot2f in
  if avx512 ft then
    let* gX := ftable [r; mr; r; mr; c1; cm1; c1; cm1; r; mr; r; mr; c1; cm1; c1; cm1] hash in
    let* gY := ftable [c1; c1; cm1; cm1; r; r; mr; mr; c1; c1; cm1; cm1; r; r; mr; mr] hash in
    fmadd gX fX (fY * gY)
  else if avx2 ft then
    let* gX := ftable [r; mr; r; mr; c1; cm1; c1; cm1] hash in
    let* gY := ftable [c1; c1; cm1; cm1; r; r; mr; mr] hash in
    fmadd gX fX (fY * gY)
  else
    let* fX := fxor_sign fX (ishl hash 31) in
    let* fY := fxor_sign fY (ishl (ishr hash 1) 31) in
    let* u := fsel_hb (ishl hash 29) fY fX in
    let* v := fsel_hb (ishl hash 29) fX fY in
    fmadd (fv r) u v.

(** Utils.inl:193-219 GetGradientDotPerlin, 4D *)
Definition GetGradientDotPerlin4 (ft : feat) (hash : I) (fX fY fZ fW : F) : F :=
  if avx512 ft then
    let* gX := ftable ([c0; c0; c0; c0; c0; c0; c0; c0; c1; cm1; c1; cm1; c1; cm1; c1; cm1] ++ [c1; cm1; c1; cm1; c1; cm1; c1; cm1; c1; cm1; c1; cm1; c1; cm1; c1; cm1]) hash in
    let* gY := ftable ([c1; cm1; c1; cm1; c1; cm1; c1; cm1; c0; c0; c0; c0; c0; c0; c0; c0] ++ [c1; c1; cm1; cm1; c1; c1; cm1; cm1; c1; c1; cm1; cm1; c1; c1; cm1; cm1]) hash in
    let* gZ := ftable ([c1; c1; cm1; cm1; c1; c1; cm1; cm1; c1; c1; cm1; cm1; c1; c1; cm1; cm1] ++ [c0; c0; c0; c0; c0; c0; c0; c0; c1; c1; c1; c1; cm1; cm1; cm1; cm1]) hash in
    let* gW := ftable ([c1; c1; c1; c1; cm1; cm1; cm1; cm1; c1; c1; c1; c1; cm1; cm1; cm1; cm1] ++ [c1; c1; c1; c1; cm1; cm1; cm1; cm1; c0; c0; c0; c0; c0; c0; c0; c0]) hash in
    fmadd gX fX (fmadd fY gY (fmadd fZ gZ (fW * gW)))
  else
    let* p := iand hash (iv 24) in
    let* a := fsel (igt p (iv 0)) fX fY in
    let* b := fsel_hb (ishl hash 27) fY fZ in
    let* c := fsel (igt p (iv 16)) fZ fW in
    let* aSign := ishl hash 31 in
    let* bSign := ishl (ishr hash 1) 31 in
    let* cSign := ishl (ishr hash 2) 31 in
    fxor_sign a aSign + fxor_sign b bSign + fxor_sign c cSign.

(** ** Sources *)
(** A node as seen by its users: the virtual function Gen( seed, pos... ) *)
Definition source := I -> list F -> F.
(** HybridSourceT (Generator.h): a source or, when there is none, a constant *)
Inductive hyb := HConst (c : V s) | HSrc (g : source).
(** Generator.inl:48-58 GetSourceValue of a hybrid *)
Definition GetSourceValue (h : hyb) : source :=
  match h with HSrc g => g | HConst c => fun _ _ => fv c end.

(** Generator.h:40-48 *)
Inductive DistanceFunction := Euclidean | EuclideanSquared | Manhattan | Hybrid | MaxAxis | Minkowski.

(** Utils.inl:281-335 CalcDistance; [pos] are the coordinates after pX (at least one). The fold
    over [pos] in Manhattan and Minkowski is the right fold p1 + (p2 + p3), the others are
    sequential updates. For Euclidean without DO_SQRT the switch falls through to EuclideanSquared.
    Note that the Minkowski exponent is evaluated at the offsets. *)
Fixpoint sum_r (l : list F) : F := match l with [] => num 0 | [x] => x | x :: l' => x + sum_r l' end.
Definition CalcDistance (ft : feat) (DO_SQRT : bool) (distFunc : DistanceFunction) (minkowskiP : hyb) (seed : I) (pX : F) (pos : list F) : F :=
  let squared := fold_left (fun distSqr p => fmadd p p distSqr) pos (pX * pX) in
  match distFunc with
  | Euclidean => if DO_SQRT then FastLengthSqrt ft squared else squared
  | EuclideanSquared => squared
  | Manhattan => fabs pX + sum_r (map fabs pos)
  | Hybrid => fold_left (fun both p => both + fmadd p p (fabs p)) pos (fmadd pX pX (fabs pX))
  | MaxAxis => fold_left (fun mx p => fmax (fabs p) mx) pos (fabs pX)
  | Minkowski =>
      let* minkowski := GetSourceValue minkowskiP seed (pX :: pos) in
      fpow (fpow (fabs pX) minkowski + sum_r (map (fun p => fpow (fabs p) minkowski) pos)) (frecip minkowski)
  end.
End Utils.
Arguments source s W : clear implicits.
Arguments hyb s W : clear implicits.
Arguments xor_fold {W} p. Arguments HashPrimes {W} seed p. Arguments HashPrimesHB {W} seed p.
