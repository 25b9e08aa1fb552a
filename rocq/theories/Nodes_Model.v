(** The node bodies (GenT / Gen) of BasicGenerators.inl, Value.inl, Perlin.inl, Fractal.inl,
    Blends.inl and Modifiers.inl (all but GeneratorCache), over arbitrary sources. Positions are
    the list of the 2, 3 or 4 coordinates; other lengths do not exist in the code and give 0. *)
From Coq Require Import ZArith List Bool.
From Verif Require Import Prelude Simd_Model Utils_Model.
Import ListNotations.
Open Scope Z_scope.

Section Nodes.
Context {s : sops} {W : simd}.
Variable ft : feat.
Notation F := (F s W). Notation I := (I W). Notation M := (M W). Notation V := (V s).
Notation source := (source s W). Notation hyb := (hyb s W).
Local Open Scope f_scope.
Notation gsv := GetSourceValue.

(** Element-wise combination of the coordinates with per-dimension members *)
Fixpoint zipw {A B C} (f : A -> B -> C) (a : list A) (b : list B) : list C :=
  match a, b with x :: a', y :: b' => f x y :: zipw f a' b' | _, _ => [] end.

(** ** BasicGenerators.inl *)
(** BasicGenerators.inl:15-20 ScalePositions; [freq] is mFrequency *)
Definition ScalePositions (freq : V) (pos : list F) : list F :=
  let* vFrequency := fv freq in map (fun p => p * vFrequency) pos.
(** VariableRange members (BasicGenerators.h:111-113): mRangeMin, mRangeScale *)
Record range := { rMin : V; rScale : V }.
(** BasicGenerators.inl:27-30 ScaleOutput *)
Definition ScaleOutput (r : range) (value : F) (nativeMin nativeMax : V) : F :=
  fmadd (fv (s_div (lit 1 0) (s_sub nativeMax nativeMin)) * fv (rScale r)) (value - fv nativeMin) (fv (rMin r)).
(** BasicGenerators.inl:39-42 Constant *)
Definition ConstantGen (mValue : V) : source := fun seed pos => fv mValue.
(** BasicGenerators.inl:51-58 White *)
Definition WhiteGen (so : Z) (r : range) : source := fun seed pos =>
  let* seed := iadd seed (iv so) in
  let* pos := zipw (fun p prime => (cast_f (imul (ixor (cast_i p) (ishr (cast_i p) 16)) (iv prime)) : F)) pos PrimesLookup in
  ScaleOutput r (GetValueCoord seed (map cast_i pos)) (s_neg kValueBounds) kValueBounds.
(** BasicGenerators.inl:67-74 Checkerboard *)
Definition CheckerboardGen (freq : V) (r : range) : source := fun seed pos =>
  let* pos := ScalePositions freq pos in
  let* value := xor_fold (map to_int pos) in
  ScaleOutput r (cast_f (ishl (iand value (iv 1)) 30)) (lit 0 0) (lit 2 0).
(** BasicGenerators.inl:83-88 SineWave; the fold is a right fold *)
Fixpoint prod_r (l : list F) : F := match l with [] => num 1 | [x] => x | x :: l' => x * prod_r l' end.
Definition SineWaveGen (freq : V) (r : range) : source := fun seed pos =>
  let* pos := ScalePositions freq pos in
  ScaleOutput r (prod_r (map fsin pos)) (lit (-1) 0) (lit 1 0).
(** BasicGenerators.inl:97-105 Gradient *)
Definition GradientGen (mOffset : list hyb) (mMultiplier : list V) : source := fun seed pos =>
  fold_left (fun r (t : F * (hyb * V)) => fmadd (fst t + gsv (fst (snd t)) seed pos) (fv (snd (snd t))) r)
    (zipw pair pos (zipw pair mOffset mMultiplier)) (num 0).
(** BasicGenerators.inl:114-124 DistanceToPoint *)
Definition DistanceToPointGen (df : DistanceFunction) (mMinkowskiP : hyb) (mPoint : list hyb) : source := fun seed pos =>
  match zipw (fun p h => p - gsv h seed pos) pos mPoint with
  | pX :: rest => CalcDistance ft true df mMinkowskiP seed pX rest
  | [] => num 0
  end.

(** ** Value.inl *)
Definition prX := iv (W := W) PrimeX. Definition prY := iv (W := W) PrimeY.
Definition prZ := iv (W := W) PrimeZ. Definition prW := iv (W := W) PrimeW.
(** Value.inl:7-27 *)
Definition ValueGen2 (so : Z) (freq : V) (r : range) (seed : I) (x y : F) : F :=
  let* seed := iadd seed (iv so) in
  let* x := x * fv freq in
  let* y := y * fv freq in
  let* xs := ffloor x in
  let* ys := ffloor y in
  let* x0 := imul (to_int xs) prX in
  let* y0 := imul (to_int ys) prY in
  let* x1 := iadd x0 prX in
  let* y1 := iadd y0 prY in
  let* xs := InterpHermite (x - xs) in
  let* ys := InterpHermite (y - ys) in
  ScaleOutput r (Lerp
    (Lerp (GetValueCoord seed [x0; y0]) (GetValueCoord seed [x1; y0]) xs)
    (Lerp (GetValueCoord seed [x0; y1]) (GetValueCoord seed [x1; y1]) xs) ys)
    (s_neg kValueBounds) kValueBounds.
(** Value.inl:29-56 *)
Definition ValueGen3 (so : Z) (freq : V) (r : range) (seed : I) (x y z : F) : F :=
  let* seed := iadd seed (iv so) in
  let* x := x * fv freq in
  let* y := y * fv freq in
  let* z := z * fv freq in
  let* xs := ffloor x in
  let* ys := ffloor y in
  let* zs := ffloor z in
  let* x0 := imul (to_int xs) prX in
  let* y0 := imul (to_int ys) prY in
  let* z0 := imul (to_int zs) prZ in
  let* x1 := iadd x0 prX in
  let* y1 := iadd y0 prY in
  let* z1 := iadd z0 prZ in
  let* xs := InterpHermite (x - xs) in
  let* ys := InterpHermite (y - ys) in
  let* zs := InterpHermite (z - zs) in
  ScaleOutput r (Lerp (Lerp
    (Lerp (GetValueCoord seed [x0; y0; z0]) (GetValueCoord seed [x1; y0; z0]) xs)
    (Lerp (GetValueCoord seed [x0; y1; z0]) (GetValueCoord seed [x1; y1; z0]) xs) ys)
    (Lerp
    (Lerp (GetValueCoord seed [x0; y0; z1]) (GetValueCoord seed [x1; y0; z1]) xs)
    (Lerp (GetValueCoord seed [x0; y1; z1]) (GetValueCoord seed [x1; y1; z1]) xs) ys) zs)
    (s_neg kValueBounds) kValueBounds.
(** Value.inl:58-95 *)
Definition ValueGen4 (so : Z) (freq : V) (r : range) (seed : I) (x y z w : F) : F :=
  let* seed := iadd seed (iv so) in
  let* x := x * fv freq in
  let* y := y * fv freq in
  let* z := z * fv freq in
  let* w := w * fv freq in
  let* xs := ffloor x in
  let* ys := ffloor y in
  let* zs := ffloor z in
  let* ws := ffloor w in
  let* x0 := imul (to_int xs) prX in
  let* y0 := imul (to_int ys) prY in
  let* z0 := imul (to_int zs) prZ in
  let* w0 := imul (to_int ws) prW in
  let* x1 := iadd x0 prX in
  let* y1 := iadd y0 prY in
  let* z1 := iadd z0 prZ in
  let* w1 := iadd w0 prW in
  let* xs := InterpHermite (x - xs) in
  let* ys := InterpHermite (y - ys) in
  let* zs := InterpHermite (z - zs) in
  let* ws := InterpHermite (w - ws) in
  ScaleOutput r (Lerp (Lerp (Lerp
    (Lerp (GetValueCoord seed [x0; y0; z0; w0]) (GetValueCoord seed [x1; y0; z0; w0]) xs)
    (Lerp (GetValueCoord seed [x0; y1; z0; w0]) (GetValueCoord seed [x1; y1; z0; w0]) xs) ys)
    (Lerp
    (Lerp (GetValueCoord seed [x0; y0; z1; w0]) (GetValueCoord seed [x1; y0; z1; w0]) xs)
    (Lerp (GetValueCoord seed [x0; y1; z1; w0]) (GetValueCoord seed [x1; y1; z1; w0]) xs) ys) zs)
    (Lerp (Lerp
    (Lerp (GetValueCoord seed [x0; y0; z0; w1]) (GetValueCoord seed [x1; y0; z0; w1]) xs)
    (Lerp (GetValueCoord seed [x0; y1; z0; w1]) (GetValueCoord seed [x1; y1; z0; w1]) xs) ys)
    (Lerp
    (Lerp (GetValueCoord seed [x0; y0; z1; w1]) (GetValueCoord seed [x1; y0; z1; w1]) xs)
    (Lerp (GetValueCoord seed [x0; y1; z1; w1]) (GetValueCoord seed [x1; y1; z1; w1]) xs) ys) zs) ws)
    (s_neg kValueBounds) kValueBounds.
Definition ValueGen (so : Z) (freq : V) (r : range) : source := fun seed pos =>
  match pos with
  | [x; y] => ValueGen2 so freq r seed x y
  | [x; y; z] => ValueGen3 so freq r seed x y z
  | [x; y; z; w] => ValueGen4 so freq r seed x y z w
  | _ => num 0
  end.

(** ** Perlin.inl *)
(** The kBounding constants, Perlin.inl:32,71,122; the second is a double passed as float *)
Definition kBoundPerlin2 : V := lit 3621355 (-21).
Definition kBoundPerlin3 : V := lit 4346735 (-22).
Definition kBoundPerlin4 : V := lit 11228875 (-23).
(** Perlin.inl:7-35 *)
Definition PerlinGen2 (so : Z) (freq : V) (r : range) (seed : I) (x y : F) : F :=
  let* seed := iadd seed (iv so) in
  let* x := x * fv freq in
  let* y := y * fv freq in
  let* xs := ffloor x in
  let* ys := ffloor y in
  let* x0 := imul (to_int xs) prX in
  let* y0 := imul (to_int ys) prY in
  let* x1 := iadd x0 prX in
  let* y1 := iadd y0 prY in
  let* xf0 := x - xs in
  let* yf0 := y - ys in
  let* xf1 := xf0 - num 1 in
  let* yf1 := yf0 - num 1 in
  let* xs := InterpQuintic xf0 in
  let* ys := InterpQuintic yf0 in
  let* value := Lerp
    (Lerp (GetGradientDotPerlin2 ft (HashPrimes seed [x0; y0]) xf0 yf0) (GetGradientDotPerlin2 ft (HashPrimes seed [x1; y0]) xf1 yf0) xs)
    (Lerp (GetGradientDotPerlin2 ft (HashPrimes seed [x0; y1]) xf0 yf1) (GetGradientDotPerlin2 ft (HashPrimes seed [x1; y1]) xf1 yf1) xs) ys in
  ScaleOutput r value (s_neg kBoundPerlin2) kBoundPerlin2.
(** Perlin.inl:37-74 *)
Definition PerlinGen3 (so : Z) (freq : V) (r : range) (seed : I) (x y z : F) : F :=
  let* seed := iadd seed (iv so) in
  let* x := x * fv freq in
  let* y := y * fv freq in
  let* z := z * fv freq in
  let* xs := ffloor x in
  let* ys := ffloor y in
  let* zs := ffloor z in
  let* x0 := imul (to_int xs) prX in
  let* y0 := imul (to_int ys) prY in
  let* z0 := imul (to_int zs) prZ in
  let* x1 := iadd x0 prX in
  let* y1 := iadd y0 prY in
  let* z1 := iadd z0 prZ in
  let* xf0 := x - xs in
  let* yf0 := y - ys in
  let* zf0 := z - zs in
  let* xf1 := xf0 - num 1 in
  let* yf1 := yf0 - num 1 in
  let* zf1 := zf0 - num 1 in
  let* xs := InterpQuintic xf0 in
  let* ys := InterpQuintic yf0 in
  let* zs := InterpQuintic zf0 in
  let g a b c xf yf zf := GetGradientDotCommon ft (HashPrimes seed [a; b; c]) xf yf zf in
  let* value := Lerp (Lerp
    (Lerp (g x0 y0 z0 xf0 yf0 zf0) (g x1 y0 z0 xf1 yf0 zf0) xs)
    (Lerp (g x0 y1 z0 xf0 yf1 zf0) (g x1 y1 z0 xf1 yf1 zf0) xs) ys)
    (Lerp
    (Lerp (g x0 y0 z1 xf0 yf0 zf1) (g x1 y0 z1 xf1 yf0 zf1) xs)
    (Lerp (g x0 y1 z1 xf0 yf1 zf1) (g x1 y1 z1 xf1 yf1 zf1) xs) ys) zs in
  ScaleOutput r value (s_neg kBoundPerlin3) kBoundPerlin3.
(** Perlin.inl:76-125 *)
Definition PerlinGen4 (so : Z) (freq : V) (r : range) (seed : I) (x y z w : F) : F :=
  let* seed := iadd seed (iv so) in
  let* x := x * fv freq in
  let* y := y * fv freq in
  let* z := z * fv freq in
  let* w := w * fv freq in
  let* xs := ffloor x in
  let* ys := ffloor y in
  let* zs := ffloor z in
  let* ws := ffloor w in
  let* x0 := imul (to_int xs) prX in
  let* y0 := imul (to_int ys) prY in
  let* z0 := imul (to_int zs) prZ in
  let* w0 := imul (to_int ws) prW in
  let* x1 := iadd x0 prX in
  let* y1 := iadd y0 prY in
  let* z1 := iadd z0 prZ in
  let* w1 := iadd w0 prW in
  let* xf0 := x - xs in
  let* yf0 := y - ys in
  let* zf0 := z - zs in
  let* wf0 := w - ws in
  let* xf1 := xf0 - num 1 in
  let* yf1 := yf0 - num 1 in
  let* zf1 := zf0 - num 1 in
  let* wf1 := wf0 - num 1 in
  let* xs := InterpQuintic xf0 in
  let* ys := InterpQuintic yf0 in
  let* zs := InterpQuintic zf0 in
  let* ws := InterpQuintic wf0 in
  let g a b c d xf yf zf wf := GetGradientDotPerlin4 ft (HashPrimes seed [a; b; c; d]) xf yf zf wf in
  let* value := Lerp (Lerp (Lerp
    (Lerp (g x0 y0 z0 w0 xf0 yf0 zf0 wf0) (g x1 y0 z0 w0 xf1 yf0 zf0 wf0) xs)
    (Lerp (g x0 y1 z0 w0 xf0 yf1 zf0 wf0) (g x1 y1 z0 w0 xf1 yf1 zf0 wf0) xs) ys)
    (Lerp
    (Lerp (g x0 y0 z1 w0 xf0 yf0 zf1 wf0) (g x1 y0 z1 w0 xf1 yf0 zf1 wf0) xs)
    (Lerp (g x0 y1 z1 w0 xf0 yf1 zf1 wf0) (g x1 y1 z1 w0 xf1 yf1 zf1 wf0) xs) ys) zs)
    (Lerp (Lerp
    (Lerp (g x0 y0 z0 w1 xf0 yf0 zf0 wf1) (g x1 y0 z0 w1 xf1 yf0 zf0 wf1) xs)
    (Lerp (g x0 y1 z0 w1 xf0 yf1 zf0 wf1) (g x1 y1 z0 w1 xf1 yf1 zf0 wf1) xs) ys)
    (Lerp
    (Lerp (g x0 y0 z1 w1 xf0 yf0 zf1 wf1) (g x1 y0 z1 w1 xf1 yf0 zf1 wf1) xs)
    (Lerp (g x0 y1 z1 w1 xf0 yf1 zf1 wf1) (g x1 y1 z1 w1 xf1 yf1 zf1 wf1) xs) ys) zs) ws in
  ScaleOutput r value (s_neg kBoundPerlin4) kBoundPerlin4.
Definition PerlinGen (so : Z) (freq : V) (r : range) : source := fun seed pos =>
  match pos with
  | [x; y] => PerlinGen2 so freq r seed x y
  | [x; y; z] => PerlinGen3 so freq r seed x y z
  | [x; y; z; w] => PerlinGen4 so freq r seed x y z w
  | _ => num 0
  end.

(** ** Fractal.inl *)
(** Fractal members, Fractal.h:18-24 *)
Record fractal := { frGain : hyb; frWeight : hyb; frOctaves : Z; frLacunarity : V }.
(** Fractal.inl:27-33, the loop of FractalFBm; [n] iterations remain *)
Fixpoint fbm_loop (n : nat) (src : source) (gain weightedStrength lacunarity : F) (seed : I) (pos : list F) (amp noise sum : F) : F :=
  match n with
  | O => sum
  | S n' =>
      let* seed := isub seed (iv (-1)) in
      let* amp := amp * Lerp (num 1) ((noise + num 1) * half) weightedStrength in
      let* amp := amp * gain in
      let* pos := map (fun p => p * lacunarity) pos in
      let* noise := src seed pos in
      let* sum := sum + noise * amp in
      fbm_loop n' src gain weightedStrength lacunarity seed pos amp noise sum
  end.
(** Fractal.inl:15-36 FractalFBm *)
Definition FBmGen (fr : fractal) (src : source) : source := fun seed pos =>
  let* gain := gsv (frGain fr) seed pos in
  let* weightedStrength := gsv (frWeight fr) seed pos in
  let* lacunarity := fv (frLacunarity fr) in
  let* amp := num 1 in
  let* noise := src seed pos in
  let* sum := noise * amp in
  fbm_loop (Z.to_nat (frOctaves fr - 1)) src gain weightedStrength lacunarity seed pos amp noise sum.
(** Fractal.inl:57-65, the loop of FractalRidged *)
Fixpoint ridged_loop (n : nat) (src : source) (gain weightedStrength lacunarity : F) (seed : I) (pos : list F) (amp noise sum : F) : F :=
  match n with
  | O => sum
  | S n' =>
      let* seed := isub seed (iv (-1)) in
      let* amp := amp * Lerp (num 1) (num 1 - noise) weightedStrength in
      let* amp := amp * gain in
      let* pos := map (fun p => p * lacunarity) pos in
      let* noise := fabs (src seed pos) in
      let* sum := sum + (noise * num (-2) + num 1) * amp in
      ridged_loop n' src gain weightedStrength lacunarity seed pos amp noise sum
  end.
(** Fractal.inl:45-66 FractalRidged *)
Definition RidgedGen (fr : fractal) (src : source) : source := fun seed pos =>
  let* gain := gsv (frGain fr) seed pos in
  let* weightedStrength := gsv (frWeight fr) seed pos in
  let* lacunarity := fv (frLacunarity fr) in
  let* amp := num 1 in
  let* noise := fabs (src seed pos) in
  let* sum := (noise * num (-2) + num 1) * amp in
  ridged_loop (Z.to_nat (frOctaves fr - 1)) src gain weightedStrength lacunarity seed pos amp noise sum.

(** ** Blends.inl *)
(** <cfloat> FLT_MIN *)
Definition FLT_MIN : V := lit 1 (-126).
(** Blends.inl:9-12 *)
Definition AddGen (lhs : source) (rhs : hyb) : source := fun seed pos => lhs seed pos + gsv rhs seed pos.
(** Blends.inl:21-24 *)
Definition SubtractGen (lhs rhs : hyb) : source := fun seed pos => gsv lhs seed pos - gsv rhs seed pos.
(** Blends.inl:33-36 *)
Definition MultiplyGen (lhs : source) (rhs : hyb) : source := fun seed pos => lhs seed pos * gsv rhs seed pos.
(** Blends.inl:45-48 *)
Definition DivideGen (lhs rhs : hyb) : source := fun seed pos => gsv lhs seed pos / gsv rhs seed pos.
(** Blends.inl:57-63 *)
Definition ModulusGen (lhs rhs : hyb) : source := fun seed pos =>
  let* a := gsv lhs seed pos in let* b := gsv rhs seed pos in ffmod a b.
(** Blends.inl:72-77 *)
Definition PowFloatGen (mValue mPow : hyb) : source := fun seed pos =>
  let* value := fmax (fabs (gsv mValue seed pos)) (fv FLT_MIN) in fpow value (gsv mPow seed pos).
(** Blends.inl:86-97: for( i = 2; i < mPow; i++ ) pow *= value *)
Fixpoint pow_loop (n : nat) (value pow : F) : F :=
  match n with O => pow | S n' => let* pow := pow * value in pow_loop n' value pow end.
Definition PowIntGen (mValue : source) (mPow : Z) : source := fun seed pos =>
  let* value := mValue seed pos in
  let* pow := value * value in
  pow_loop (Z.to_nat (mPow - 2)) value pow.
(** Blends.inl:106-109 *)
Definition MinGen (lhs : source) (rhs : hyb) : source := fun seed pos => fmin (lhs seed pos) (gsv rhs seed pos).
(** Blends.inl:118-121 *)
Definition MaxGen (lhs : source) (rhs : hyb) : source := fun seed pos => fmax (lhs seed pos) (gsv rhs seed pos).
(** Blends.inl:130-141 *)
Definition MinSmoothGen (lhs : source) (rhs mSmoothness : hyb) : source := fun seed pos =>
  let* a := lhs seed pos in
  let* b := gsv rhs seed pos in
  let* smoothness := fmax (fv FLT_MIN) (fabs (gsv mSmoothness seed pos)) in
  let* h := fmax (smoothness - fabs (a - b)) (num 0) in
  let* h := h * frecip smoothness in
  fnmadd (fv (s_div (lit 1 0) (lit 6 0))) (h * h * h * smoothness) (fmin a b).
(** Blends.inl:150-161 *)
Definition MaxSmoothGen (lhs : source) (rhs mSmoothness : hyb) : source := fun seed pos =>
  let* a := fneg (lhs seed pos) in
  let* b := fneg (gsv rhs seed pos) in
  let* smoothness := fmax (fv FLT_MIN) (fabs (gsv mSmoothness seed pos)) in
  let* h := fmax (smoothness - fabs (a - b)) (num 0) in
  let* h := h * frecip smoothness in
  fneg (fnmadd (fv (s_div (lit 1 0) (lit 6 0))) (h * h * h * smoothness) (fmin a b)).
(** Blends.h:294-299 *)
Inductive Interpolation := Linear | Hermite | Quintic.
(** Blends.inl:170-198 *)
Definition FadeGen (mA mB : source) (mFade mFadeMin mFadeMax : hyb) (ip : Interpolation) : source := fun seed pos =>
  let* fade := gsv mFade seed pos in
  let* fadeMin := gsv mFadeMin seed pos in
  let* fadeMax := gsv mFadeMax seed pos in
  let* fadeRange := fadeMax - fadeMin in
  let* fade := (fade - fadeMin) / fadeRange in
  let* fade := fmax (num 0) (fmin (num 1) fade) in
  let* fade := match ip with Linear => fade | Hermite => InterpHermite fade | Quintic => InterpQuintic fade end in
  let* fade := fsel (feq fadeRange (num 0)) half fade in
  Lerp (mA seed pos) (mB seed pos) fade.

(** ** Modifiers.inl *)
(** Modifiers.inl:9-12 *)
Definition DomainScaleGen (src : source) (mScale : V) : source := fun seed pos => src seed (map (fun p => p * fv mScale) pos).
(** Modifiers.inl:21-30: all offsets are evaluated at the original position *)
Definition DomainOffsetGen (src : source) (mOffset : list hyb) : source := fun seed pos =>
  src seed (zipw (fun p h => p + gsv h seed pos) pos mOffset).
(** Modifiers.h:90-105 *)
Record rotation := { mYawCos : V; mYawSin : V; mPitchCos : V; mPitchSin : V; mRollCos : V; mRollSin : V;
  mXa : V; mXb : V; mXc : V; mYa : V; mYb : V; mYc : V; mZa : V; mZb : V; mZc : V }.
(** Modifiers.inl:48-54 *)
Definition DomainRotateGen3 (src : source) (m : rotation) (seed : I) (x y z : F) : F :=
  src seed [fmadd x (fv (mXa m)) (fmadd y (fv (mXb m)) (z * fv (mXc m)));
            fmadd x (fv (mYa m)) (fmadd y (fv (mYb m)) (z * fv (mYc m)));
            fmadd x (fv (mZa m)) (fmadd y (fv (mZb m)) (z * fv (mZc m)))].
(** Modifiers.inl:36-60 *)
Definition DomainRotateGen (src : source) (m : rotation) : source := fun seed pos =>
  match pos with
  | [x; y] =>
      if s_eq (mPitchSin m) (lit 0 0) && s_eq (mRollSin m) (lit 0 0)
      then src seed [fnmadd y (fv (mYawSin m)) (x * fv (mYawCos m)); fmadd x (fv (mYawSin m)) (y * fv (mYawCos m))]
      else DomainRotateGen3 src m seed x y (num 0)
  | [x; y; z] => DomainRotateGen3 src m seed x y z
  | _ => src seed pos
  end.
(** Modifiers.inl:69-72 *)
Definition SeedOffsetGen (src : source) (mOffset : Z) : source := fun seed pos => src (iadd seed (iv mOffset)) pos.
(** Modifiers.inl:81-99 *)
Definition RemapGen (src : source) (mFromMin mFromMax mToMin mToMax : hyb) (clamp : bool) : source := fun seed pos =>
  let* v := src seed pos in
  let* fromMin := gsv mFromMin seed pos in
  let* fromMax := gsv mFromMax seed pos in
  let* toMin := gsv mToMin seed pos in
  let* toMax := gsv mToMax seed pos in
  let* result := toMin + ((v - fromMin) / (fromMax - fromMin) * (toMax - toMin)) in
  if clamp then let* result := fmax result toMin in fmin result toMax else result.
(** Modifiers.inl:108-126 *)
Definition ConvertRGBA8Gen (src : source) (mMin mMax : V) : source := fun seed pos =>
  let* v := src seed pos in
  let* v := fmin v (fv mMax) in
  let* v := fmax v (fv mMin) in
  let* v := v - fv mMin in
  let* v := v * fv (s_div (lit 255 0) (s_sub mMax mMin)) in
  let* byteVal := to_int v in
  let* output := iv (255 * 2^24) in
  let* output := ior output byteVal in
  let* output := ior output (ishl byteVal 8) in
  let* output := ior output (ishl byteVal 16) in
  cast_f output.
(** Terrace members, Modifiers.h:295-299 *)
Record terrace := { tSmoothness : hyb; tSmoothnessRecip : V; tStepCount : V; tStepCountRecip : V }.
(** Modifiers.inl:149-159 and 167-175: the common part of the two branches *)
Definition terrace_diff (rounded v smoothnessRecip : F) : F :=
  let* diff := rounded - v in
  let* diffSign := flt diff (num 0) in
  let* diff := fabs diff in
  let* diff := half - diff in
  let* diff := diff * smoothnessRecip in
  let* diff := fmin diff half in
  fsel diffSign (half - diff) (diff - half).
(** Modifiers.inl:135-181 *)
Definition TerraceGen (src : source) (t : terrace) : source := fun seed pos =>
  let* v := src seed pos in
  let* v := v * fv (tStepCount t) in
  let* rounded := fround v in
  let* rounded :=
    match tSmoothness t with
    | HSrc g =>
        let* smoothness := g seed pos in
        let* smoothnessMask := fne smoothness (num 0) in
        if any smoothnessMask
        then fsel smoothnessMask (rounded + terrace_diff rounded v (num 1 + frecip smoothness)) rounded
        else rounded
    | HConst c =>
        if negb (s_eq c (lit 0 0)) then rounded + terrace_diff rounded v (fv (tSmoothnessRecip t)) else rounded
    end in
  rounded * fv (tStepCountRecip t).
(** Modifiers.inl:189-193 *)
Definition PingPong (t : F) : F :=
  let* t := t - ffloor (t * half) * num 2 in
  fsel (flt t (num 1)) t (num 2 - t).
(** Modifiers.inl:196-200 *)
Definition PingPongGen (src : source) (mPingPongStrength : hyb) : source := fun seed pos =>
  let* pingPongStrength := gsv mPingPongStrength seed pos in PingPong (src seed pos * pingPongStrength).
(** Modifiers.inl:209-215 *)
Definition DomainAxisScaleGen (src : source) (mScale : list V) : source := fun seed pos =>
  src seed (zipw (fun p k => p * fv k) pos mScale).
(** Modifiers.inl:224-234 *)
Definition AddDimensionGen (src : source) (mNew : hyb) : source := fun seed pos =>
  match pos with
  | [x; y; z; w] => src seed pos
  | _ => src seed (pos ++ [gsv mNew seed pos])
  end.
(** Generator.h:24-28 *)
Inductive Dim := DX | DY | DZ | DW.
(** Modifiers.inl:240-275 *)
Definition RemoveDimensionGen (src : source) (d : Dim) : source := fun seed pos =>
  match pos with
  | [x; y; z] => match d with DX => src seed [y; z] | DY => src seed [x; z] | DZ => src seed [x; y] | DW => src seed [x; y; z] end
  | [x; y; z; w] => match d with DX => src seed [y; z; w] | DY => src seed [x; z; w] | DZ => src seed [x; y; w] | DW => src seed [x; y; z] end
  | _ => src seed pos
  end.
(** Modifiers.inl:329-334 *)
Definition SignedSquareRootGen (src : source) : source := fun seed pos =>
  let* value := src seed pos in for_sign (FastLengthSqrt ft (fabs value)) value.
(** Modifiers.inl:343-348 *)
Definition AbsGen (src : source) : source := fun seed pos => let* value := src seed pos in fabs value.
(** Modifiers.h:545-549 *)
Inductive PlaneRotationType := ImproveXYPlanes | ImproveXZPlanes.
Definition kRotS2 : V := lit (-3545443) (-24).    (* -0.211324865405187f *)
Definition kRotZ : V := lit 4843165 (-23).        (* 0.577350269189626f *)
(** Modifiers.inl:354-388 *)
Definition RotateCoords (ty : PlaneRotationType) (x y z : F) : F * F * F :=
  match ty with
  | ImproveXYPlanes =>
      let* xy := x + y in
      let* s2 := xy * fv kRotS2 in
      let* newZ := z * fv kRotZ in
      let* newX := x + s2 - newZ in
      let* newY := y + s2 - newZ in
      let* newZ := newZ + xy * fv kRotZ in
      (newX, newY, newZ)
  | ImproveXZPlanes =>
      let* xz := x + z in
      let* s2 := xz * fv kRotS2 in
      let* newY := y * fv kRotZ in
      let* newX := x + s2 - newY in
      let* newZ := z + s2 - newY in
      let* newY := newY + xz * fv kRotZ in
      (newX, newY, newZ)
  end.
(** Modifiers.inl:390-408 *)
Definition DomainRotatePlaneGen (src : source) (ty : PlaneRotationType) : source := fun seed pos =>
  match pos with
  | [x; y] => let '(x, y, z) := RotateCoords ImproveXYPlanes x y (num 0) in src seed [x; y; z]
  | [x; y; z] => let '(x, y, z) := RotateCoords ty x y z in src seed [x; y; z]
  | [x; y; z; w] => let '(x, y, z) := RotateCoords ty x y z in src seed [x; y; z; w]
  | _ => src seed pos
  end.
End Nodes.
Arguments range s : clear implicits. Arguments rotation s : clear implicits.
Arguments fractal s W : clear implicits. Arguments terrace s W : clear implicits.
