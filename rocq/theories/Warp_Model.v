(** DomainWarp.inl (DomainWarp::GenT, DomainWarpGradient) and DomainWarpFractal.inl. *)
From Coq Require Import ZArith List Bool.
From Verif Require Import Prelude Simd_Model Utils_Model Nodes_Model.
Import ListNotations.
Open Scope Z_scope.

Section Warp.
Context {s : sops} {W : simd}.
Variable ft : feat.
Notation F := (F s W). Notation I := (I W). Notation M := (M W). Notation V := (V s).
Notation source := (source s W). Notation hyb := (hyb s W).
Local Open Scope f_scope.
Notation gsv := GetSourceValue.

(** The virtual function Warp( seed, warpAmp, x..., &xOut... ) of DomainWarp.inl:24-26: from the
    scaled coordinates and the in/out coordinates to the returned squared strength and the out
    coordinates. *)
Definition warp_fn := I -> F -> list F -> list F -> F * list F.

(** DomainWarp members, DomainWarp.h:17-19, Seeded and ScalableGenerator members, and the source *)
Record warp_node := { wSource : source; wAmplitude : hyb; wAxisScale : list V; wSeedOffset : Z; wFrequency : V; wWarp : warp_fn }.

(** DomainWarp.inl:10-17 DomainWarp::GenT *)
Definition DomainWarpGen (w : warp_node) : source := fun seed pos =>
  let* sourceSeed := seed in
  let* seed := iadd seed (iv (wSeedOffset w)) in
  let r := wWarp w seed (gsv (wAmplitude w) sourceSeed pos) (map (fun p => p * fv (wFrequency w)) pos) pos in
  wSource w sourceSeed (snd r).

(** ** DomainWarpGradient *)
(** GRADIENT_COORD, DomainWarp.inl:54-58: [c] is contrib##_x##_y *)
Definition grad2 (seed : I) (a b : I) (c : F) (w : F * F) : F * F :=
  let* hash := HashPrimesHB seed [a; b] in
  (fmadd c (of_int (iand hash (iv 0xffff))) (fst w), fmadd c (of_int (iushr hash 16)) (snd w)).
(** DomainWarp.inl:33-75. The axis scales are mAxisScale[0..3]. *)
Definition GradientWarp2 (so : Z) (axis : list V) (seed : I) (warpAmp x y xOut yOut : F) : F * list F :=
  let* seed := iadd seed (iv so) in
  let* xs := ffloor x in
  let* ys := ffloor y in
  let* x0 := imul (to_int xs) prX in
  let* y0 := imul (to_int ys) prY in
  let* x1 := iadd x0 prX in
  let* y1 := iadd y0 prY in
  let* xs1 := InterpHermite (x - xs) in
  let* ys1 := InterpHermite (y - ys) in
  let* xs0 := num 1 - xs1 in
  let* ys0 := num 1 - ys1 in
  let* normalise := fv (s_div (lit 1 0) (s_div (lit 0xffff 0) (lit 2 0))) in
  let* hash00 := HashPrimesHB seed [x0; y0] in
  let* contrib00 := xs0 * ys0 in
  let w := (contrib00 * of_int (iand hash00 (iv 0xffff)), contrib00 * of_int (iushr hash00 16)) in
  let w := grad2 seed x1 y0 (xs1 * ys0) w in
  let w := grad2 seed x0 y1 (xs0 * ys1) w in
  let w := grad2 seed x1 y1 (xs1 * ys1) w in
  let* xWarp := fmsub (fst w) normalise (num 1) in
  let* yWarp := fmsub (snd w) normalise (num 1) in
  (fmadd xWarp xWarp (yWarp * yWarp),
   [fmadd xWarp (warpAmp * fv (nth 0 axis (lit 0 0))) xOut; fmadd yWarp (warpAmp * fv (nth 1 axis (lit 0 0))) yOut]).
(** DomainWarp.inl:102-107 *)
Definition grad3 (seed : I) (a b c : I) (k : F) (w : F * F * F) : F * F * F :=
  let '(xw, yw, zw) := w in
  let* hash := HashPrimesHB seed [a; b; c] in
  (fmadd k (of_int (iand hash (iv 0x3ff))) xw, fmadd k (of_int (iand (ishr hash 11) (iv 0x3ff))) yw, fmadd k (of_int (iushr hash 22)) zw).
(** DomainWarp.inl:77-132 *)
Definition GradientWarp3 (so : Z) (axis : list V) (seed : I) (warpAmp x y z xOut yOut zOut : F) : F * list F :=
  let* seed := iadd seed (iv so) in
  let* xs := ffloor x in
  let* ys := ffloor y in
  let* zs := ffloor z in
  let* x0 := imul (to_int xs) prX in
  let* y0 := imul (to_int ys) prY in
  let* z0 := imul (to_int zs) prZ in
  let* x1 := iadd x0 prX in
  let* y1 := iadd y0 prY in
  let* z1 := iadd z0 prZ in
  let* xs1 := InterpHermite (x - xs) in
  let* ys1 := InterpHermite (y - ys) in
  let* zs1 := InterpHermite (z - zs) in
  let* xs0 := num 1 - xs1 in
  let* ys0 := num 1 - ys1 in
  let* zs0 := num 1 - zs1 in
  let* normalise := fv (s_div (lit 1 0) (s_div (lit 0x3ff 0) (lit 2 0))) in
  let* hash000 := HashPrimesHB seed [x0; y0; z0] in
  let* contrib000 := xs0 * ys0 * zs0 in
  let w := (contrib000 * of_int (iand hash000 (iv 0x3ff)), contrib000 * of_int (iand (ishr hash000 11) (iv 0x3ff)), contrib000 * of_int (iushr hash000 22)) in
  let w := grad3 seed x1 y0 z0 (xs1 * ys0 * zs0) w in
  let w := grad3 seed x0 y1 z0 (xs0 * ys1 * zs0) w in
  let w := grad3 seed x1 y1 z0 (xs1 * ys1 * zs0) w in
  let w := grad3 seed x0 y0 z1 (xs0 * ys0 * zs1) w in
  let w := grad3 seed x1 y0 z1 (xs1 * ys0 * zs1) w in
  let w := grad3 seed x0 y1 z1 (xs0 * ys1 * zs1) w in
  let w := grad3 seed x1 y1 z1 (xs1 * ys1 * zs1) w in
  let '(xWarp, yWarp, zWarp) := w in
  let* xWarp := fmsub xWarp normalise (num 1) in
  let* yWarp := fmsub yWarp normalise (num 1) in
  let* zWarp := fmsub zWarp normalise (num 1) in
  (fmadd xWarp xWarp (fmadd yWarp yWarp (zWarp * zWarp)),
   [fmadd xWarp (warpAmp * fv (nth 0 axis (lit 0 0))) xOut; fmadd yWarp (warpAmp * fv (nth 1 axis (lit 0 0))) yOut;
    fmadd zWarp (warpAmp * fv (nth 2 axis (lit 0 0))) zOut]).
(** DomainWarp.inl:164-170 *)
Definition grad4 (seed : I) (a b c d : I) (k : F) (w : F * F * F * F) : F * F * F * F :=
  let '(xw, yw, zw, ww) := w in
  let* hash := HashPrimesHB seed [a; b; c; d] in
  (fmadd k (of_int (iand hash (iv 0xff))) xw, fmadd k (of_int (iand (ishr hash 8) (iv 0xff))) yw,
   fmadd k (of_int (iand (ishr hash 16) (iv 0xff))) zw, fmadd k (of_int (iushr hash 24)) ww).
(** DomainWarp.inl:134-206 *)
Definition GradientWarp4 (so : Z) (axis : list V) (seed : I) (warpAmp x y z w xOut yOut zOut wOut : F) : F * list F :=
  let* seed := iadd seed (iv so) in
  let* xs := ffloor x in
  let* ys := ffloor y in
  let* zs := ffloor z in
  let* ws := ffloor w in
  let* x0 := imul (to_int xs) prX in
  let* y0 := imul (to_int ys) prY in
  let* z0 := imul (to_int zs) prZ in
  let* w0 := imul (to_int ws) prW in
  let* x1 := iadd x0 prX in
  let* y1 := iadd y0 prY in
  let* z1 := iadd z0 prZ in
  let* w1 := iadd w0 prW in
  let* xs1 := InterpHermite (x - xs) in
  let* ys1 := InterpHermite (y - ys) in
  let* zs1 := InterpHermite (z - zs) in
  let* ws1 := InterpHermite (w - ws) in
  let* xs0 := num 1 - xs1 in
  let* ys0 := num 1 - ys1 in
  let* zs0 := num 1 - zs1 in
  let* ws0 := num 1 - ws1 in
  let* normalise := fv (s_div (lit 1 0) (s_div (lit 0xff 0) (lit 2 0))) in
  let* hash0 := HashPrimesHB seed [x0; y0; z0; w0] in
  let* contrib0 := xs0 * ys0 * zs0 * ws0 in
  let w := (contrib0 * of_int (iand hash0 (iv 0xff)), contrib0 * of_int (iand (ishr hash0 8) (iv 0xff)),
            contrib0 * of_int (iand (ishr hash0 16) (iv 0xff)), contrib0 * of_int (iushr hash0 24)) in
  let w := grad4 seed x1 y0 z0 w0 (xs1 * ys0 * zs0 * ws0) w in
  let w := grad4 seed x0 y1 z0 w0 (xs0 * ys1 * zs0 * ws0) w in
  let w := grad4 seed x1 y1 z0 w0 (xs1 * ys1 * zs0 * ws0) w in
  let w := grad4 seed x0 y0 z1 w0 (xs0 * ys0 * zs1 * ws0) w in
  let w := grad4 seed x1 y0 z1 w0 (xs1 * ys0 * zs1 * ws0) w in
  let w := grad4 seed x0 y1 z1 w0 (xs0 * ys1 * zs1 * ws0) w in
  let w := grad4 seed x1 y1 z1 w0 (xs1 * ys1 * zs1 * ws0) w in
  let w := grad4 seed x0 y0 z0 w1 (xs0 * ys0 * zs0 * ws1) w in
  let w := grad4 seed x1 y0 z0 w1 (xs1 * ys0 * zs0 * ws1) w in
  let w := grad4 seed x0 y1 z0 w1 (xs0 * ys1 * zs0 * ws1) w in
  let w := grad4 seed x1 y1 z0 w1 (xs1 * ys1 * zs0 * ws1) w in
  let w := grad4 seed x0 y0 z1 w1 (xs0 * ys0 * zs1 * ws1) w in
  let w := grad4 seed x1 y0 z1 w1 (xs1 * ys0 * zs1 * ws1) w in
  let w := grad4 seed x0 y1 z1 w1 (xs0 * ys1 * zs1 * ws1) w in
  let w := grad4 seed x1 y1 z1 w1 (xs1 * ys1 * zs1 * ws1) w in
  let '(xWarp, yWarp, zWarp, wWarp) := w in
  let* xWarp := fmsub xWarp normalise (num 1) in
  let* yWarp := fmsub yWarp normalise (num 1) in
  let* zWarp := fmsub zWarp normalise (num 1) in
  let* wWarp := fmsub wWarp normalise (num 1) in
  (fmadd xWarp xWarp (fmadd yWarp yWarp (fmadd zWarp zWarp (wWarp * wWarp))),
   [fmadd xWarp (warpAmp * fv (nth 0 axis (lit 0 0))) xOut; fmadd yWarp (warpAmp * fv (nth 1 axis (lit 0 0))) yOut;
    fmadd zWarp (warpAmp * fv (nth 2 axis (lit 0 0))) zOut; fmadd wWarp (warpAmp * fv (nth 3 axis (lit 0 0))) wOut]).
Definition GradientWarp (so : Z) (axis : list V) : warp_fn := fun seed warpAmp p out =>
  match p, out with
  | [x; y], [xo; yo] => GradientWarp2 so axis seed warpAmp x y xo yo
  | [x; y; z], [xo; yo; zo] => GradientWarp3 so axis seed warpAmp x y z xo yo zo
  | [x; y; z; w], [xo; yo; zo; wo] => GradientWarp4 so axis seed warpAmp x y z w xo yo zo wo
  | _, _ => (num 0, out)
  end.

(** ** DomainWarpFractal.inl *)
(** DomainWarpFractal.inl:24-32, the loop of the progressive fractal; [n] iterations remain *)
Fixpoint progressive_loop (n : nat) (warp : warp_fn) (gain weightedStrength lacunarity : F) (seedInc : I) (amp freq strength : F) (pos : list F) : list F :=
  match n with
  | O => pos
  | S n' =>
      let* strength := FastLengthSqrt ft strength in
      let* seedInc := isub seedInc (iv (-1)) in
      let* freq := freq * lacunarity in
      let* amp := amp * Lerp (num 1) (num 1 - strength) weightedStrength in
      let* amp := amp * gain in
      let r := warp seedInc amp (map (fun p => p * freq) pos) pos in
      progressive_loop n' warp gain weightedStrength lacunarity seedInc amp freq (fst r) (snd r)
  end.
(** DomainWarpFractal.inl:10-35 *)
Definition DomainWarpFractalProgressiveGen (fr : fractal s W) (w : warp_node) : source := fun seed pos =>
  let* amp := gsv (wAmplitude w) seed pos in
  let* weightedStrength := gsv (frWeight fr) seed pos in
  let* freq := fv (wFrequency w) in
  let* gain := gsv (frGain fr) seed pos in
  let* lacunarity := fv (frLacunarity fr) in
  let r := wWarp w seed amp (map (fun p => p * freq) pos) pos in
  wSource w seed (progressive_loop (Z.to_nat (frOctaves fr - 1)) (wWarp w) gain weightedStrength lacunarity seed amp freq (fst r) (snd r)).
(** DomainWarpFractal.inl:60-68 *)
Fixpoint independent_loop (n : nat) (warp : warp_fn) (gain weightedStrength lacunarity : F) (seedInc : I) (amp freq strength : F) (noisePos warpPos : list F) : list F :=
  match n with
  | O => warpPos
  | S n' =>
      let* strength := FastLengthSqrt ft strength in
      let* seedInc := isub seedInc (iv (-1)) in
      let* freq := freq * lacunarity in
      let* amp := amp * Lerp (num 1) (num 1 - strength) weightedStrength in
      let* amp := amp * gain in
      let r := warp seedInc amp (map (fun p => p * freq) noisePos) warpPos in
      independent_loop n' warp gain weightedStrength lacunarity seedInc amp freq (fst r) noisePos (snd r)
  end.
(** DomainWarpFractal.inl:44-73 *)
Definition DomainWarpFractalIndependentGen (fr : fractal s W) (w : warp_node) : source := fun seed pos =>
  let* amp := gsv (wAmplitude w) seed pos in
  let* weightedStrength := gsv (frWeight fr) seed pos in
  let* freq := fv (wFrequency w) in
  let* gain := gsv (frGain fr) seed pos in
  let* lacunarity := fv (frLacunarity fr) in
  let r := wWarp w seed amp (map (fun p => p * freq) pos) pos in
  wSource w seed (independent_loop (Z.to_nat (frOctaves fr - 1)) (wWarp w) gain weightedStrength lacunarity seed amp freq (fst r) pos (snd r)).
End Warp.
Arguments warp_fn s W : clear implicits.
Arguments warp_node s W : clear implicits.
