(** Simplex.inl (Simplex and SuperSimplex) and the part of DomainWarpSimplex.inl that finds the
    lattice vertices, which is the same text.

    The generated part of each node is split in two: [simplexN] / [supersimplexN] compute, for a
    position, the list of visited lattice vertices, each with the arguments of HashPrimes (primed
    vertex coordinates), the offset from the vertex to the position and the falloff (already raised
    to the fourth power); the noise nodes then sum gradient ramp times falloff over this list and
    the warp nodes (SimplexWarp_Model.v) sum vectors.  The statements and their order within each
    block are those of the code. A sign mask [sign = FS::Masked( signMask, -0.0f )] that is only
    xor-ed onto floats is represented by signMask itself ([fneg_if]). Gradient ramps do not depend
    on the falloffs, so moving their computation to the end changes nothing. *)
From Coq Require Import ZArith List Bool.
From Verif Require Import Prelude Simd_Model Utils_Model Nodes_Model.
Import ListNotations.
Open Scope Z_scope.

Section Simplex.
Context {s : sops} {W : simd}.
Variable ft : feat.
Notation F := (F s W). Notation I := (I W). Notation M := (M W). Notation V := (V s).
Notation source := (source s W). Notation range := (range s).
Local Open Scope f_scope.

(** [f ^ FS::Masked( m, float32v( FS::Cast<float>( int32v( 1 << 31 ) ) ) )] *)
Definition fneg_if (m : M) (f : F) : F := map2 (fun (c : bool) x => if c then s_neg x else x) m f.

(** FS::InvMaskedSub( m, a, b ) = m ? a : a - b *)
Definition iinvmasked_sub (m : M) (a b : I) : I := map3 (fun (c : bool) x y => if c then x else z_sub x y) m a b.

(** One visited vertex: the arguments of HashPrimes, the offset of the position from the vertex, and
    the falloff (fourth power). *)
Record contrib := mkc { cp : list I; cd : list F; cf : F }.

(** *** Simplex, 2D *)
(** The constants of this construction that a float cannot represent; the code uses the nearest floats ([sx2k_code]). *)
Record sx2k := { sx2_kSkew : V; sx2_kU : V; sx2_kU1 : V; sx2_k2U1 : V; sx2_kFall : V; sx2_kM : V }.
Definition sx2k_code : sx2k := {|
  sx2_kSkew := lit 12281775 (-25) (* kSkew2 *);
  sx2_kU := lit (-3545443) (-24) (* kUnskew2 *);
  sx2_kU1 := lit 13231773 (-24) (* kUnskew2 + 1 *);
  sx2_k2U1 := lit 4843165 (-23) (* kUnskew2 * 2 + 1 *);
  sx2_kFall := lit (-13231773) (-22) (* -4.0 * ( kRoot3 + 2.0 ) / ( kRoot3 + 3.0 ) *);
  sx2_kM := lit (-11184811) (-24) (* -2.0 / 3.0 *) |}.
(** Simplex.inl:9-62: the vertices visited from the base of the unit cell and the position in it *)
Definition simplex2_at (K : sx2k) (xPrimedBase yPrimedBase : I) (dxSkewed dySkewed : F) : list contrib :=
  let* xGreaterEqualY := fge dxSkewed dySkewed in
  let* unskewDelta := fv (sx2_kU K) * (dxSkewed + dySkewed) in
  let* dx0 := dxSkewed + unskewDelta in
  let* dy0 := dySkewed + unskewDelta in
  let* dx1 := fmasked_inc (mnot xGreaterEqualY) dx0 - fv (sx2_kU1 K) in
  let* dy1 := fmasked_inc xGreaterEqualY dy0 - fv (sx2_kU1 K) in
  let* dx2 := dx0 - fv (sx2_k2U1 K) in
  let* dy2 := dy0 - fv (sx2_k2U1 K) in
  let* falloff0 := fnmadd dx0 dx0 (fnmadd dy0 dy0 (fv (lit 1 (-1)))) in
  let* falloff1 := fnmadd dx1 dx1 (fnmadd dy1 dy1 (fv (lit 1 (-1)))) in
  let* falloff2 := falloff0 + fmadd unskewDelta (fv (sx2_kFall K)) (fv (sx2_kM K)) in
  let* falloff0 := fmax falloff0 (num 0) in
  let* falloff1 := fmax falloff1 (num 0) in
  let* falloff2 := fmax falloff2 (num 0) in
  let* falloff0 := falloff0 * falloff0 in
  let* falloff0 := falloff0 * falloff0 in
  let* falloff1 := falloff1 * falloff1 in
  let* falloff1 := falloff1 * falloff1 in
  let* falloff2 := falloff2 * falloff2 in
  let* falloff2 := falloff2 * falloff2 in
  [ mkc [xPrimedBase; yPrimedBase] [dx0; dy0] falloff0;
    mkc [imasked_add xGreaterEqualY xPrimedBase prX; iinvmasked_add xGreaterEqualY yPrimedBase prY] [dx1; dy1] falloff1;
    mkc [iadd xPrimedBase prX; iadd yPrimedBase prY] [dx2; dy2] falloff2 ].
(** Simplex.inl:9-62, DomainWarpSimplex.inl:774-832 (the same text) *)
Definition simplex2 (K : sx2k) (x y : F) : list contrib :=
  let* skewDelta := fv (sx2_kSkew K) * (x + y) in
  let* xSkewed := x + skewDelta in
  let* ySkewed := y + skewDelta in
  let* xSkewedBase := ffloor xSkewed in
  let* ySkewedBase := ffloor ySkewed in
  let* dxSkewed := xSkewed - xSkewedBase in
  let* dySkewed := ySkewed - ySkewedBase in
  let* xPrimedBase := imul (to_int xSkewedBase) prX in
  let* yPrimedBase := imul (to_int ySkewedBase) prY in
  simplex2_at K xPrimedBase yPrimedBase dxSkewed dySkewed.
(** *** Simplex, 3D *)
(** The constants of this construction that a float cannot represent; the code uses the nearest floats ([sx3k_code]). *)
Record sx3k := { sx3_kSkew : V; sx3_kR : V }.
Definition sx3k_code : sx3k := {|
  sx3_kSkew := lit 11184811 (-25) (* kSkew3 *);
  sx3_kR := lit 5033165 (-23) (* kFalloffRadiusSquared *) |}.
(** Simplex.inl:67-141: the vertices visited from the base of the unit cell and the position in it *)
Definition simplex3_at (K : sx3k) (xPrimedBase yPrimedBase zPrimedBase : I) (dxSkewed dySkewed dzSkewed : F) : list contrib :=
  let* xGreaterEqualY := fge dxSkewed dySkewed in
  let* yGreaterEqualZ := fge dySkewed dzSkewed in
  let* xGreaterEqualZ := fge dxSkewed dzSkewed in
  let* unskewDelta := fv (lit (-1) (-1)) * (dxSkewed + dySkewed + dzSkewed) in
  let* dx0 := dxSkewed + unskewDelta in
  let* dy0 := dySkewed + unskewDelta in
  let* dz0 := dzSkewed + unskewDelta in
  let* maskX1 := mand xGreaterEqualY xGreaterEqualZ in
  let* maskY1 := mandnot yGreaterEqualZ xGreaterEqualY in
  let* maskZ1 := mor xGreaterEqualZ yGreaterEqualZ in
  let* nMaskX2 := mor xGreaterEqualY xGreaterEqualZ in
  let* nMaskY2 := mandnot xGreaterEqualY yGreaterEqualZ in
  let* nMaskZ2 := mand xGreaterEqualZ yGreaterEqualZ in
  let* dx3 := dx0 - fv (lit (-1) (-1)) in
  let* dy3 := dy0 - fv (lit (-1) (-1)) in
  let* dz3 := dz0 - fv (lit (-1) (-1)) in
  let* dx1 := fmasked_sub maskX1 dx3 (num 1) in
  let* dy1 := fmasked_sub maskY1 dy3 (num 1) in
  let* dz1 := finvmasked_sub maskZ1 dz3 (num 1) in
  let* dx2 := fmasked_inc (mnot nMaskX2) dx0 in
  let* dy2 := fmasked_inc nMaskY2 dy0 in
  let* dz2 := fmasked_inc nMaskZ2 dz0 in
  let* falloff0 := fnmadd dz0 dz0 (fnmadd dy0 dy0 (fnmadd dx0 dx0 (fv (sx3_kR K)))) in
  let* falloff1 := fnmadd dz1 dz1 (fnmadd dy1 dy1 (fnmadd dx1 dx1 (fv (sx3_kR K)))) in
  let* falloff2 := fnmadd dz2 dz2 (fnmadd dy2 dy2 (fnmadd dx2 dx2 (fv (sx3_kR K)))) in
  let* falloff3 := falloff0 - (unskewDelta + fv (lit 3 (-2))) in
  let* falloff0 := fmax falloff0 (num 0) in
  let* falloff1 := fmax falloff1 (num 0) in
  let* falloff2 := fmax falloff2 (num 0) in
  let* falloff3 := fmax falloff3 (num 0) in
  let* falloff0 := falloff0 * falloff0 in
  let* falloff0 := falloff0 * falloff0 in
  let* falloff1 := falloff1 * falloff1 in
  let* falloff1 := falloff1 * falloff1 in
  let* falloff2 := falloff2 * falloff2 in
  let* falloff2 := falloff2 * falloff2 in
  let* falloff3 := falloff3 * falloff3 in
  let* falloff3 := falloff3 * falloff3 in
  [ mkc [xPrimedBase; yPrimedBase; zPrimedBase] [dx0; dy0; dz0] falloff0;
    mkc [imasked_add maskX1 xPrimedBase prX; imasked_add maskY1 yPrimedBase prY; iinvmasked_add maskZ1 zPrimedBase prZ] [dx1; dy1; dz1] falloff1;
    mkc [imasked_add nMaskX2 xPrimedBase prX; iinvmasked_add nMaskY2 yPrimedBase prY; iinvmasked_add nMaskZ2 zPrimedBase prZ] [dx2; dy2; dz2] falloff2;
    mkc [iadd xPrimedBase prX; iadd yPrimedBase prY; iadd zPrimedBase prZ] [dx3; dy3; dz3] falloff3 ].
(** Simplex.inl:67-141, DomainWarpSimplex.inl:838-930 (the same text) *)
Definition simplex3 (K : sx3k) (x y z : F) : list contrib :=
  let* skewDelta := fv (sx3_kSkew K) * (x + y + z) in
  let* xSkewed := x + skewDelta in
  let* ySkewed := y + skewDelta in
  let* zSkewed := z + skewDelta in
  let* xSkewedBase := ffloor xSkewed in
  let* ySkewedBase := ffloor ySkewed in
  let* zSkewedBase := ffloor zSkewed in
  let* dxSkewed := xSkewed - xSkewedBase in
  let* dySkewed := ySkewed - ySkewedBase in
  let* dzSkewed := zSkewed - zSkewedBase in
  let* xPrimedBase := imul (to_int xSkewedBase) prX in
  let* yPrimedBase := imul (to_int ySkewedBase) prY in
  let* zPrimedBase := imul (to_int zSkewedBase) prZ in
  simplex3_at K xPrimedBase yPrimedBase zPrimedBase dxSkewed dySkewed dzSkewed.
(** *** Simplex, 4D *)
(** The constants of this construction that a float cannot represent; the code uses the nearest floats ([sx4k_code]). *)
Record sx4k := { sx4_kSkew : V; sx4_kU : V; sx4_k2U : V; sx4_k3U : V; sx4_k4U1 : V; sx4_kR : V; sx4_kFall : V; sx4_kM : V }.
Definition sx4k_code : sx4k := {|
  sx4_kSkew := lit 5184445 (-24) (* kSkew4 *);
  sx4_kU := lit (-9274217) (-26) (* kUnskew4 *);
  sx4_k2U := lit (-9274217) (-25) (* kUnskew4 * 2 *);
  sx4_k3U := lit (-13911325) (-25) (* kUnskew4 * 3 *);
  sx4_k4U1 := lit 7502999 (-24) (* kUnskew4 * 4 + 1 *);
  sx4_kR := lit 5033165 (-23) (* kFalloffRadiusSquared *);
  sx4_kFall := lit (-3035027) (-20) (* -4.0 * ( kRoot5 + 3.0 ) / ( kRoot5 + 5.0 ) *);
  sx4_kM := lit (-13421773) (-24) (* -4.0 / 5.0 *) |}.
(** Simplex.inl:146-285: the vertices visited from the base of the unit cell and the position in it *)
Definition simplex4_at (K : sx4k) (xPrimedBase yPrimedBase zPrimedBase wPrimedBase : I) (dxSkewed dySkewed dzSkewed dwSkewed : F) : list contrib :=
  let* unskewDelta := fv (sx4_kU K) * (dxSkewed + dySkewed + dzSkewed + dwSkewed) in
  let* dx0 := dxSkewed + unskewDelta in
  let* dy0 := dySkewed + unskewDelta in
  let* dz0 := dzSkewed + unskewDelta in
  let* dw0 := dwSkewed + unskewDelta in
  let* rankX := iv 0 in
  let* rankY := iv 0 in
  let* rankZ := iv 0 in
  let* rankW := iv 0 in
  let* xGreaterEqualY := fge dx0 dy0 in
  let* rankX := imasked_inc xGreaterEqualY rankX in
  let* rankY := imasked_inc (mnot xGreaterEqualY) rankY in
  let* xGreaterEqualZ := fge dx0 dz0 in
  let* rankX := imasked_inc xGreaterEqualZ rankX in
  let* rankZ := imasked_inc (mnot xGreaterEqualZ) rankZ in
  let* xGreaterEqualW := fge dx0 dw0 in
  let* rankX := imasked_inc xGreaterEqualW rankX in
  let* rankW := imasked_inc (mnot xGreaterEqualW) rankW in
  let* yGreaterEqualZ := fge dy0 dz0 in
  let* rankY := imasked_inc yGreaterEqualZ rankY in
  let* rankZ := imasked_inc (mnot yGreaterEqualZ) rankZ in
  let* yGreaterEqualW := fge dy0 dw0 in
  let* rankY := imasked_inc yGreaterEqualW rankY in
  let* rankW := imasked_inc (mnot yGreaterEqualW) rankW in
  let* zGreaterEqualW := fge dz0 dw0 in
  let* rankZ := imasked_inc zGreaterEqualW rankZ in
  let* rankW := imasked_inc (mnot zGreaterEqualW) rankW in
  let* maskX1 := igt rankX (iv 2) in
  let* maskY1 := igt rankY (iv 2) in
  let* maskZ1 := igt rankZ (iv 2) in
  let* maskW1 := igt rankW (iv 2) in
  let* maskX2 := igt rankX (iv 1) in
  let* maskY2 := igt rankY (iv 1) in
  let* maskZ2 := igt rankZ (iv 1) in
  let* maskW2 := igt rankW (iv 1) in
  let* maskX3 := igt rankX (iv 0) in
  let* maskY3 := igt rankY (iv 0) in
  let* maskZ3 := igt rankZ (iv 0) in
  let* maskW3 := igt rankW (iv 0) in
  let* dx1 := fmasked_sub maskX1 dx0 (num 1) - fv (sx4_kU K) in
  let* dy1 := fmasked_sub maskY1 dy0 (num 1) - fv (sx4_kU K) in
  let* dz1 := fmasked_sub maskZ1 dz0 (num 1) - fv (sx4_kU K) in
  let* dw1 := fmasked_sub maskW1 dw0 (num 1) - fv (sx4_kU K) in
  let* dx2 := fmasked_sub maskX2 dx0 (num 1) - fv (sx4_k2U K) in
  let* dy2 := fmasked_sub maskY2 dy0 (num 1) - fv (sx4_k2U K) in
  let* dz2 := fmasked_sub maskZ2 dz0 (num 1) - fv (sx4_k2U K) in
  let* dw2 := fmasked_sub maskW2 dw0 (num 1) - fv (sx4_k2U K) in
  let* dx3 := fmasked_sub maskX3 dx0 (num 1) - fv (sx4_k3U K) in
  let* dy3 := fmasked_sub maskY3 dy0 (num 1) - fv (sx4_k3U K) in
  let* dz3 := fmasked_sub maskZ3 dz0 (num 1) - fv (sx4_k3U K) in
  let* dw3 := fmasked_sub maskW3 dw0 (num 1) - fv (sx4_k3U K) in
  let* dx4 := dx0 - fv (sx4_k4U1 K) in
  let* dy4 := dy0 - fv (sx4_k4U1 K) in
  let* dz4 := dz0 - fv (sx4_k4U1 K) in
  let* dw4 := dw0 - fv (sx4_k4U1 K) in
  let* falloff0 := fnmadd dw0 dw0 (fnmadd dz0 dz0 (fnmadd dy0 dy0 (fnmadd dx0 dx0 (fv (sx4_kR K))))) in
  let* falloff1 := fnmadd dw1 dw1 (fnmadd dz1 dz1 (fnmadd dy1 dy1 (fnmadd dx1 dx1 (fv (sx4_kR K))))) in
  let* falloff2 := fnmadd dw2 dw2 (fnmadd dz2 dz2 (fnmadd dy2 dy2 (fnmadd dx2 dx2 (fv (sx4_kR K))))) in
  let* falloff3 := fnmadd dw3 dw3 (fnmadd dz3 dz3 (fnmadd dy3 dy3 (fnmadd dx3 dx3 (fv (sx4_kR K))))) in
  let* falloff4 := falloff0 + fmadd unskewDelta (fv (sx4_kFall K)) (fv (sx4_kM K)) in
  let* falloff0 := fmax falloff0 (num 0) in
  let* falloff1 := fmax falloff1 (num 0) in
  let* falloff2 := fmax falloff2 (num 0) in
  let* falloff3 := fmax falloff3 (num 0) in
  let* falloff4 := fmax falloff4 (num 0) in
  let* falloff0 := falloff0 * falloff0 in
  let* falloff0 := falloff0 * falloff0 in
  let* falloff1 := falloff1 * falloff1 in
  let* falloff1 := falloff1 * falloff1 in
  let* falloff2 := falloff2 * falloff2 in
  let* falloff2 := falloff2 * falloff2 in
  let* falloff3 := falloff3 * falloff3 in
  let* falloff3 := falloff3 * falloff3 in
  let* falloff4 := falloff4 * falloff4 in
  let* falloff4 := falloff4 * falloff4 in
  [ mkc [xPrimedBase; yPrimedBase; zPrimedBase; wPrimedBase] [dx0; dy0; dz0; dw0] falloff0;
    mkc [imasked_add maskX1 xPrimedBase prX; imasked_add maskY1 yPrimedBase prY; imasked_add maskZ1 zPrimedBase prZ; imasked_add maskW1 wPrimedBase prW] [dx1; dy1; dz1; dw1] falloff1;
    mkc [imasked_add maskX2 xPrimedBase prX; imasked_add maskY2 yPrimedBase prY; imasked_add maskZ2 zPrimedBase prZ; imasked_add maskW2 wPrimedBase prW] [dx2; dy2; dz2; dw2] falloff2;
    mkc [imasked_add maskX3 xPrimedBase prX; imasked_add maskY3 yPrimedBase prY; imasked_add maskZ3 zPrimedBase prZ; imasked_add maskW3 wPrimedBase prW] [dx3; dy3; dz3; dw3] falloff3;
    mkc [iadd xPrimedBase prX; iadd yPrimedBase prY; iadd zPrimedBase prZ; iadd wPrimedBase prW] [dx4; dy4; dz4; dw4] falloff4 ].
(** Simplex.inl:146-285, DomainWarpSimplex.inl:936-1086 (the same text) *)
Definition simplex4 (K : sx4k) (x y z w : F) : list contrib :=
  let* skewDelta := fv (sx4_kSkew K) * (x + y + z + w) in
  let* xSkewed := x + skewDelta in
  let* ySkewed := y + skewDelta in
  let* zSkewed := z + skewDelta in
  let* wSkewed := w + skewDelta in
  let* xSkewedBase := ffloor xSkewed in
  let* ySkewedBase := ffloor ySkewed in
  let* zSkewedBase := ffloor zSkewed in
  let* wSkewedBase := ffloor wSkewed in
  let* dxSkewed := xSkewed - xSkewedBase in
  let* dySkewed := ySkewed - ySkewedBase in
  let* dzSkewed := zSkewed - zSkewedBase in
  let* dwSkewed := wSkewed - wSkewedBase in
  let* xPrimedBase := imul (to_int xSkewedBase) prX in
  let* yPrimedBase := imul (to_int ySkewedBase) prY in
  let* zPrimedBase := imul (to_int zSkewedBase) prZ in
  let* wPrimedBase := imul (to_int wSkewedBase) prW in
  simplex4_at K xPrimedBase yPrimedBase zPrimedBase wPrimedBase dxSkewed dySkewed dzSkewed dwSkewed.
(** *** SuperSimplex, 2D *)
(** The constants of this construction that a float cannot represent; the code uses the nearest floats ([ss2k_code]). *)
Record ss2k := { ss2_kSkew : V; ss2_kU : V; ss2_kR : V; ss2_k2U1 : V; ss2_kFall : V; ss2_kU1 : V; ss2_kmU : V; ss2_k2U : V }.
Definition ss2k_code : ss2k := {|
  ss2_kSkew := lit 12281775 (-25) (* kSkew2 *);
  ss2_kU := lit (-3545443) (-24) (* kUnskew2 *);
  ss2_kR := lit 11184811 (-24) (* kFalloffRadiusSquared *);
  ss2_k2U1 := lit 4843165 (-23) (* 2 * kUnskew2 + 1 *);
  ss2_kFall := lit (-13231773) (-22) (* -4.0 * ( kRoot3 + 2.0 ) / ( kRoot3 + 3.0 ) *);
  ss2_kU1 := lit 13231773 (-24) (* kUnskew2 + 1 *);
  ss2_kmU := lit 3545443 (-24) (* -kUnskew2 *);
  ss2_k2U := lit (-3545443) (-23) (* 2 * kUnskew2 *) |}.
(** Simplex.inl:333-342 (DomainWarpSimplex.inl:1170-1178) *)
Definition supersimplex2_v1 (K : ss2k) (xPrimedBase yPrimedBase : I) (unskewDelta dxBase dyBase falloffBase0 : F) : contrib :=
  let* falloff := fmadd unskewDelta (fv (ss2_kFall K)) (falloffBase0 - fv (ss2_kR K)) in
  let* falloff := falloff * falloff in
  let* falloff := falloff * falloff in
  mkc [iadd xPrimedBase prX; iadd yPrimedBase prY] [dxBase - fv (ss2_k2U1 K); dyBase - fv (ss2_k2U1 K)] falloff.
(** Simplex.inl:348-359 (DomainWarpSimplex.inl:1184-1194) *)
Definition supersimplex2_v2 (K : ss2k) (xPrimedBase yPrimedBase : I) (forwardXY forwardX : M) (dxBase dyBase : F) : contrib :=
  let* dx := dxBase - fsel forwardX (fv (ss2_k2U1 K)) (num (-1)) in
  let* dy := fmasked_sub forwardX dyBase (fv (ss2_k2U K)) in
  let* falloff := fmax (fnmadd dx dx (fnmadd dy dy (fv (ss2_kR K)))) (num 0) in
  let* falloff := falloff * falloff in
  let* falloff := falloff * falloff in
  mkc [iinvmasked_sub forwardXY (imasked_add forwardX xPrimedBase (iv (2 * PrimeX))) prX; imasked_add forwardXY yPrimedBase prY] [dx; dy] falloff.
(** Simplex.inl:361-372 (DomainWarpSimplex.inl:1196-1206) *)
Definition supersimplex2_v3 (K : ss2k) (xPrimedBase yPrimedBase : I) (forwardXY forwardY : M) (dxBase dyBase : F) : contrib :=
  let* dx := fmasked_sub forwardY dxBase (fv (ss2_k2U K)) in
  let* dy := dyBase - fsel forwardY (fv (ss2_k2U1 K)) (num (-1)) in
  let* falloff := fmax (fnmadd dx dx (fnmadd dy dy (fv (ss2_kR K)))) (num 0) in
  let* falloff := falloff * falloff in
  let* falloff := falloff * falloff in
  mkc [imasked_add forwardXY xPrimedBase prX; iinvmasked_sub forwardXY (imasked_add forwardY yPrimedBase (iv (2 * PrimeY))) prY] [dx; dy] falloff.
(** Simplex.inl:295-376: the vertices visited from the base vertex and the position relative to it *)
Definition supersimplex2_at (K : ss2k) (xPrimedBase yPrimedBase : I) (dxSkewed dySkewed : F) : list contrib :=
  let* forwardXY := fgt (dxSkewed + dySkewed) (num 1) in
  let* boundaryXY := fmasked forwardXY (num (-1)) in
  let* forwardX := flt (fmadd dxSkewed (num (-2)) dySkewed) boundaryXY in
  let* forwardY := flt (fmadd dySkewed (num (-2)) dxSkewed) boundaryXY in
  let* unskewDelta := fv (ss2_kU K) * (dxSkewed + dySkewed) in
  let* dxBase := dxSkewed + unskewDelta in
  let* dyBase := dySkewed + unskewDelta in
  let* falloffBase0 := fnmadd dxBase dxBase (fnmadd dyBase dyBase (fv (ss2_kR K))) in
  let* falloff := falloffBase0 in
  let* falloff := falloff * falloff in
  let* falloff := falloff * falloff in
  let* c0 := mkc [xPrimedBase; yPrimedBase] [dxBase; dyBase] falloff in
  let* c1 := supersimplex2_v1 K xPrimedBase yPrimedBase unskewDelta dxBase dyBase falloffBase0 in
  let* xyDelta := fsel forwardXY (fv (ss2_kU1 K)) (fv (ss2_kmU K)) in
  let* dxBase := dxBase - xyDelta in
  let* dyBase := dyBase - xyDelta in
  let* c2 := supersimplex2_v2 K xPrimedBase yPrimedBase forwardXY forwardX dxBase dyBase in
  let* c3 := supersimplex2_v3 K xPrimedBase yPrimedBase forwardXY forwardY dxBase dyBase in
  [ c0; c1; c2; c3 ].
(** Simplex.inl:295-376, DomainWarpSimplex.inl:1134-1217 (the same text) *)
Definition supersimplex2 (K : ss2k) (x y : F) : list contrib :=
  let* skewDelta := fv (ss2_kSkew K) * (x + y) in
  let* xSkewed := x + skewDelta in
  let* ySkewed := y + skewDelta in
  let* xSkewedBase := ffloor xSkewed in
  let* ySkewedBase := ffloor ySkewed in
  let* dxSkewed := xSkewed - xSkewedBase in
  let* dySkewed := ySkewed - ySkewedBase in
  let* xPrimedBase := imul (to_int xSkewedBase) prX in
  let* yPrimedBase := imul (to_int ySkewedBase) prY in
  supersimplex2_at K xPrimedBase yPrimedBase dxSkewed dySkewed.
(** *** SuperSimplex, 3D *)
(** The constants of this construction that a float cannot represent; the code uses the nearest floats ([ss3k_code]). *)
Record ss3k := { ss3_kSkew : V }.
Definition ss3k_code : ss3k := {|
  ss3_kSkew := lit 11184811 (-25) (* kSkew3 *) |}.
(** Simplex.inl:404-441 (DomainWarpSimplex.inl:1243-1280): the bits of the closest vertex of the unit cell (the lambda considerVertex inlined) *)
Definition supersimplex3_near (dxSkewed dySkewed dzSkewed : F) : I :=
  let* twiceUnskewDelta := fv (lit (-1) (-2)) * (dxSkewed + dySkewed + dzSkewed) in
  let* xNormal := dxSkewed + twiceUnskewDelta in
  let* yNormal := dySkewed + twiceUnskewDelta in
  let* zNormal := dzSkewed + twiceUnskewDelta in
  let* xyzNormal := fneg twiceUnskewDelta in
  let* maxScore := fv (lit 3 (-3)) in
  let* moveMaskBits := imasked (fgt xyzNormal maxScore) (iv (-1)) in
  let* maxScore := fmax maxScore xyzNormal in
  let* moveMaskBits := isel (fgt xNormal maxScore) (iv 1) moveMaskBits in
  let* maxScore := fmax maxScore xNormal in
  let* moveMaskBits := isel (fgt yNormal maxScore) (iv 2) moveMaskBits in
  let* maxScore := fmax maxScore yNormal in
  let* moveMaskBits := isel (fgt zNormal maxScore) (iv 4) moveMaskBits in
  let* maxScore := fmax maxScore zNormal in
  let* maxScore := maxScore + (fv (lit 1 (-3)) - xyzNormal) in
  let* moveMaskBits := isel (fgt (fneg zNormal) maxScore) (iv 3) moveMaskBits in
  let* maxScore := fmax maxScore (fneg zNormal) in
  let* moveMaskBits := isel (fgt (fneg yNormal) maxScore) (iv 5) moveMaskBits in
  let* maxScore := fmax maxScore (fneg yNormal) in
  let* moveMaskBits := isel (fgt (fneg xNormal) maxScore) (iv 6) moveMaskBits in
  let* maxScore := fmax maxScore (fneg xNormal) in
  moveMaskBits.
(** Simplex.inl:471-485 (DomainWarpSimplex.inl:1314-1329) *)
Definition supersimplex3_v1 (xPrimedBase yPrimedBase zPrimedBase : I) (xyzNormal dxBase dyBase dzBase coordinateSum falloffBaseStemA : F) : contrib :=
  let* signMask := flt xyzNormal (num 0) in
  let* xPrimed := iadd xPrimedBase (isel signMask (iv (- PrimeX)) prX) in
  let* yPrimed := iadd yPrimedBase (isel signMask (iv (- PrimeY)) prY) in
  let* zPrimed := iadd zPrimedBase (isel signMask (iv (- PrimeZ)) prZ) in
  let* offset := fneg_if signMask (fv (lit (-1) (-1))) in
  let* falloffBase := fmax (fmadd offset coordinateSum falloffBaseStemA) (num 0) in
  mkc [xPrimed; yPrimed; zPrimed] [dxBase - offset; dyBase - offset; dzBase - offset] ((falloffBase * falloffBase) * (falloffBase * falloffBase)).
(** Simplex.inl:487-500 (DomainWarpSimplex.inl:1331-1345) *)
Definition supersimplex3_v2 (xPrimedBase yPrimedBase zPrimedBase : I) (zNormal xyzNormal dxBase dyBase dzBase falloffBaseStemB : F) : contrib :=
  let* signMask := flt xyzNormal zNormal in
  let* xPrimed := iadd xPrimedBase (isel signMask (iv (- PrimeX)) prX) in
  let* yPrimed := iadd yPrimedBase (isel signMask (iv (- PrimeY)) prY) in
  let* offset0 := fneg_if signMask (num (-1)) in
  let* falloffBase := fmin ((fneg_if signMask dzBase) - falloffBaseStemB) (num 0) in
  mkc [xPrimed; yPrimed; zPrimedBase] [dxBase; dyBase; dzBase - offset0] ((falloffBase * falloffBase) * (falloffBase * falloffBase)).
(** Simplex.inl:502-515 (DomainWarpSimplex.inl:1347-1361) *)
Definition supersimplex3_v3 (xPrimedBase yPrimedBase zPrimedBase : I) (yNormal xyzNormal dxBase dyBase dzBase falloffBaseStemB : F) : contrib :=
  let* signMask := flt xyzNormal yNormal in
  let* xPrimed := iadd xPrimedBase (isel signMask (iv (- PrimeX)) prX) in
  let* zPrimed := iadd zPrimedBase (isel signMask (iv (- PrimeZ)) prZ) in
  let* offset0 := fneg_if signMask (num (-1)) in
  let* falloffBase := fmin ((fneg_if signMask dyBase) - falloffBaseStemB) (num 0) in
  mkc [xPrimed; yPrimedBase; zPrimed] [dxBase; dyBase - offset0; dzBase] ((falloffBase * falloffBase) * (falloffBase * falloffBase)).
(** Simplex.inl:517-530 (DomainWarpSimplex.inl:1363-1377) *)
Definition supersimplex3_v4 (xPrimedBase yPrimedBase zPrimedBase : I) (xNormal xyzNormal dxBase dyBase dzBase falloffBaseStemB : F) : contrib :=
  let* signMask := flt xyzNormal xNormal in
  let* yPrimed := iadd yPrimedBase (isel signMask (iv (- PrimeY)) prY) in
  let* zPrimed := iadd zPrimedBase (isel signMask (iv (- PrimeZ)) prZ) in
  let* offset0 := fneg_if signMask (num (-1)) in
  let* falloffBase := fmin ((fneg_if signMask dxBase) - falloffBaseStemB) (num 0) in
  mkc [xPrimedBase; yPrimed; zPrimed] [dxBase - offset0; dyBase; dzBase] ((falloffBase * falloffBase) * (falloffBase * falloffBase)).
(** Simplex.inl:532-544 (DomainWarpSimplex.inl:1379-1392) *)
Definition supersimplex3_v5 (xPrimedBase yPrimedBase zPrimedBase : I) (xNormal dxBase dyBase dzBase coordinateSum falloffBaseStemA : F) : contrib :=
  let* signMask := flt xNormal (num 0) in
  let* xPrimed := iadd xPrimedBase (isel signMask (iv (- PrimeX)) prX) in
  let* offset0 := fneg_if signMask (fv (lit (-1) (-1))) in
  let* falloffBase := fmax (fmadd offset0 coordinateSum falloffBaseStemA + (fneg_if signMask dxBase)) (num 0) in
  mkc [xPrimed; yPrimedBase; zPrimedBase] [dxBase + offset0; dyBase - offset0; dzBase - offset0] ((falloffBase * falloffBase) * (falloffBase * falloffBase)).
(** Simplex.inl:546-558 (DomainWarpSimplex.inl:1394-1407) *)
Definition supersimplex3_v6 (xPrimedBase yPrimedBase zPrimedBase : I) (yNormal dxBase dyBase dzBase coordinateSum falloffBaseStemA : F) : contrib :=
  let* signMask := flt yNormal (num 0) in
  let* yPrimed := iadd yPrimedBase (isel signMask (iv (- PrimeY)) prY) in
  let* offset0 := fneg_if signMask (fv (lit (-1) (-1))) in
  let* falloffBase := fmax (fmadd offset0 coordinateSum falloffBaseStemA + (fneg_if signMask dyBase)) (num 0) in
  mkc [xPrimedBase; yPrimed; zPrimedBase] [dxBase - offset0; dyBase + offset0; dzBase - offset0] ((falloffBase * falloffBase) * (falloffBase * falloffBase)).
(** Simplex.inl:560-572 (DomainWarpSimplex.inl:1409-1422) *)
Definition supersimplex3_v7 (xPrimedBase yPrimedBase zPrimedBase : I) (zNormal dxBase dyBase dzBase coordinateSum falloffBaseStemA : F) : contrib :=
  let* signMask := flt zNormal (num 0) in
  let* zPrimed := iadd zPrimedBase (isel signMask (iv (- PrimeZ)) prZ) in
  let* offset0 := fneg_if signMask (fv (lit (-1) (-1))) in
  let* falloffBase := fmax (fmadd offset0 coordinateSum falloffBaseStemA + (fneg_if signMask dzBase)) (num 0) in
  mkc [xPrimedBase; yPrimedBase; zPrimed] [dxBase - offset0; dyBase - offset0; dzBase + offset0] ((falloffBase * falloffBase) * (falloffBase * falloffBase)).
(** Simplex.inl:381-575: the vertices visited from the base vertex and the position relative to it *)
Definition supersimplex3_at (xPrimedBase yPrimedBase zPrimedBase : I) (dxSkewed dySkewed dzSkewed : F) : list contrib :=
  let* skewedCoordinateSum := dxSkewed + dySkewed + dzSkewed in
  let* twiceUnskewDelta := fv (lit (-1) (-2)) * skewedCoordinateSum in
  let* xNormal := dxSkewed + twiceUnskewDelta in
  let* yNormal := dySkewed + twiceUnskewDelta in
  let* zNormal := dzSkewed + twiceUnskewDelta in
  let* xyzNormal := fneg twiceUnskewDelta in
  let* unskewDelta := fv (lit (-1) (-1)) * skewedCoordinateSum in
  let* dxBase := dxSkewed + unskewDelta in
  let* dyBase := dySkewed + unskewDelta in
  let* dzBase := dzSkewed + unskewDelta in
  let* coordinateSum := fv (lit (-1) (-1)) * skewedCoordinateSum in
  let* falloffBase := fnmadd dzBase dzBase (fnmadd dyBase dyBase (fnmadd dxBase dxBase (fv (lit 3 (-2))))) * fv (lit 1 (-1)) in
  let* falloffBaseStemA := falloffBase - fv (lit 3 (-3)) in
  let* falloffBaseStemB := falloffBase - fv (lit 1 (-1)) in
  let* c0 := mkc [xPrimedBase; yPrimedBase; zPrimedBase] [dxBase; dyBase; dzBase] ((falloffBase * falloffBase) * (falloffBase * falloffBase)) in
  let* c1 := supersimplex3_v1 xPrimedBase yPrimedBase zPrimedBase xyzNormal dxBase dyBase dzBase coordinateSum falloffBaseStemA in
  let* c2 := supersimplex3_v2 xPrimedBase yPrimedBase zPrimedBase zNormal xyzNormal dxBase dyBase dzBase falloffBaseStemB in
  let* c3 := supersimplex3_v3 xPrimedBase yPrimedBase zPrimedBase yNormal xyzNormal dxBase dyBase dzBase falloffBaseStemB in
  let* c4 := supersimplex3_v4 xPrimedBase yPrimedBase zPrimedBase xNormal xyzNormal dxBase dyBase dzBase falloffBaseStemB in
  let* c5 := supersimplex3_v5 xPrimedBase yPrimedBase zPrimedBase xNormal dxBase dyBase dzBase coordinateSum falloffBaseStemA in
  let* c6 := supersimplex3_v6 xPrimedBase yPrimedBase zPrimedBase yNormal dxBase dyBase dzBase coordinateSum falloffBaseStemA in
  let* c7 := supersimplex3_v7 xPrimedBase yPrimedBase zPrimedBase zNormal dxBase dyBase dzBase coordinateSum falloffBaseStemA in
  [ c0; c1; c2; c3; c4; c5; c6; c7 ].
(** Simplex.inl:381-575, DomainWarpSimplex.inl:1223-1445 (the same text) *)
Definition supersimplex3 (K : ss3k) (x y z : F) : list contrib :=
  let* skewDelta := fv (ss3_kSkew K) * (x + y + z) in
  let* xSkewed := x + skewDelta in
  let* ySkewed := y + skewDelta in
  let* zSkewed := z + skewDelta in
  let* xSkewedBase := ffloor xSkewed in
  let* ySkewedBase := ffloor ySkewed in
  let* zSkewedBase := ffloor zSkewed in
  let* dxSkewed := xSkewed - xSkewedBase in
  let* dySkewed := ySkewed - ySkewedBase in
  let* dzSkewed := zSkewed - zSkewedBase in
  let* moveMaskBits := supersimplex3_near dxSkewed dySkewed dzSkewed in
  let* moveX := ine (iand moveMaskBits (iv 1)) (iv 0) in
  let* moveY := ine (iand moveMaskBits (iv 2)) (iv 0) in
  let* moveZ := ine (iand moveMaskBits (iv 4)) (iv 0) in
  let* xSkewedBase := fmasked_inc moveX xSkewedBase in
  let* ySkewedBase := fmasked_inc moveY ySkewedBase in
  let* zSkewedBase := fmasked_inc moveZ zSkewedBase in
  let* dxSkewed := fmasked_dec moveX dxSkewed in
  let* dySkewed := fmasked_dec moveY dySkewed in
  let* dzSkewed := fmasked_dec moveZ dzSkewed in
  let* xPrimedBase := imul (to_int xSkewedBase) prX in
  let* yPrimedBase := imul (to_int ySkewedBase) prY in
  let* zPrimedBase := imul (to_int zSkewedBase) prZ in
  supersimplex3_at xPrimedBase yPrimedBase zPrimedBase dxSkewed dySkewed dzSkewed.
(** *** SuperSimplex, 4D *)
(** The constants of this construction that a float cannot represent; the code uses the nearest floats ([ss4k_code]). *)
Record ss4k := { ss4_kSkew : V; ss4_kT : V; ss4_k06 : V; ss4_k02 : V; ss4_kU : V; ss4_k4U1 : V; ss4_kR : V; ss4_kA : V; ss4_kB : V; ss4_k3U1 : V; ss4_k3U : V; ss4_kU1 : V; ss4_k2U1 : V; ss4_k2U : V }.
Definition ss4k_code : ss4k := {|
  ss4_kSkew := lit 5184445 (-24) (* kSkew4 *);
  ss4_kT := lit (-13421773) (-26) (* kTwiceUnskew4 *);
  ss4_k06 := lit 5033165 (-23) (* 0.6f *);
  ss4_k02 := lit 13421773 (-26) (* 0.2f *);
  ss4_kU := lit (-9274217) (-26) (* kUnskew4 *);
  ss4_k4U1 := lit 7502999 (-24) (* 1 + 4 * kUnskew4 *);
  ss4_kR := lit 13421773 (-24) (* kFalloffRadiusSquared *);
  ss4_kA := lit 13421773 (-25) (* kDistanceSquaredA * 0.5 *);
  ss4_kB := lit 5033165 (-23) (* kDistanceSquaredB * 0.5 *);
  ss4_k3U1 := lit 9821553 (-24) (* 3 * kUnskew4 + 1 *);
  ss4_k3U := lit (-13911325) (-25) (* 3 * kUnskew4 *);
  ss4_kU1 := lit 7229331 (-23) (* kUnskew4 + 1 *);
  ss4_k2U1 := lit 3035027 (-22) (* 2 * kUnskew4 + 1 *);
  ss4_k2U := lit (-9274217) (-25) (* 2 * kUnskew4 *) |}.
(** Simplex.inl:607-659 (DomainWarpSimplex.inl:1475-1527): the bits of the closest vertex of the unit cell (the lambda considerVertex inlined) *)
Definition supersimplex4_near (K : ss4k) (dxSkewed dySkewed dzSkewed dwSkewed : F) : I :=
  let* twiceUnskewDelta := fv (ss4_kT K) * (dxSkewed + dySkewed + dzSkewed + dwSkewed) in
  let* xNormal := dxSkewed + twiceUnskewDelta in
  let* yNormal := dySkewed + twiceUnskewDelta in
  let* zNormal := dzSkewed + twiceUnskewDelta in
  let* wNormal := dwSkewed + twiceUnskewDelta in
  let* xyzwNormal := fneg twiceUnskewDelta in
  let* maxScore := fv (ss4_k06 K) - xyzwNormal in
  let* moveMaskBits := imasked (fgt (fv (ss4_k02 K)) maxScore) (iv (-1)) in
  let* maxScore := fmax maxScore (fv (ss4_k02 K)) in
  let* moveMaskBits := isel (fgt (fneg wNormal) maxScore) (iv 7) moveMaskBits in
  let* maxScore := fmax maxScore (fneg wNormal) in
  let* moveMaskBits := isel (fgt (fneg zNormal) maxScore) (iv 11) moveMaskBits in
  let* maxScore := fmax maxScore (fneg zNormal) in
  let* moveMaskBits := isel (fgt (fneg yNormal) maxScore) (iv 13) moveMaskBits in
  let* maxScore := fmax maxScore (fneg yNormal) in
  let* moveMaskBits := isel (fgt (fneg xNormal) maxScore) (iv 14) moveMaskBits in
  let* maxScore := fmax maxScore (fneg xNormal) in
  let* maxScore := maxScore + (xyzwNormal - fv (ss4_k02 K)) in
  let* moveMaskBits := isel (fgt xNormal maxScore) (iv 1) moveMaskBits in
  let* maxScore := fmax maxScore xNormal in
  let* moveMaskBits := isel (fgt yNormal maxScore) (iv 2) moveMaskBits in
  let* maxScore := fmax maxScore yNormal in
  let* moveMaskBits := isel (fgt zNormal maxScore) (iv 4) moveMaskBits in
  let* maxScore := fmax maxScore zNormal in
  let* moveMaskBits := isel (fgt wNormal maxScore) (iv 8) moveMaskBits in
  let* maxScore := fmax maxScore wNormal in
  let* maxScore := maxScore + (fv (ss4_k02 K) - xNormal) in
  let* moveMaskBits := isel (fgt yNormal maxScore) (iv 3) moveMaskBits in
  let* maxScore := fmax maxScore yNormal in
  let* moveMaskBits := isel (fgt zNormal maxScore) (iv 5) moveMaskBits in
  let* maxScore := fmax maxScore zNormal in
  let* moveMaskBits := isel (fgt wNormal maxScore) (iv 9) moveMaskBits in
  let* maxScore := fmax maxScore wNormal in
  let* maxScore := maxScore + xNormal in
  let* moveMaskBits := isel (fgt (yNormal + zNormal) maxScore) (iv 6) moveMaskBits in
  let* maxScore := fmax maxScore (yNormal + zNormal) in
  let* maxScore := maxScore - wNormal in
  let* moveMaskBits := isel (fgt yNormal maxScore) (iv 10) moveMaskBits in
  let* maxScore := fmax maxScore yNormal in
  let* moveMaskBits := isel (fgt zNormal maxScore) (iv 12) moveMaskBits in
  let* maxScore := fmax maxScore zNormal in
  moveMaskBits.
(** Simplex.inl:692-707 (DomainWarpSimplex.inl:1565-1581) *)
Definition supersimplex4_v1 (K : ss4k) (xPrimedBase yPrimedBase zPrimedBase wPrimedBase : I) (xyzwNormal dxBase dyBase dzBase dwBase coordinateSum falloffBaseStemA : F) : contrib :=
  let* signMask := flt xyzwNormal (num 0) in
  let* xPrimed := iadd xPrimedBase (isel signMask (iv (- PrimeX)) prX) in
  let* yPrimed := iadd yPrimedBase (isel signMask (iv (- PrimeY)) prY) in
  let* zPrimed := iadd zPrimedBase (isel signMask (iv (- PrimeZ)) prZ) in
  let* wPrimed := iadd wPrimedBase (isel signMask (iv (- PrimeW)) prW) in
  let* offset := fneg_if signMask (fv (ss4_k4U1 K)) in
  let* falloffBase := fmax (fmadd offset coordinateSum falloffBaseStemA) (num 0) in
  mkc [xPrimed; yPrimed; zPrimed; wPrimed] [dxBase - offset; dyBase - offset; dzBase - offset; dwBase - offset] ((falloffBase * falloffBase) * (falloffBase * falloffBase)).
(** Simplex.inl:709-724 (DomainWarpSimplex.inl:1583-1599) *)
Definition supersimplex4_v2 (K : ss4k) (xPrimedBase yPrimedBase zPrimedBase wPrimedBase : I) (wNormal xyzwNormal dxBase dyBase dzBase dwBase coordinateSum falloffBaseStemB : F) : contrib :=
  let* signMask := flt xyzwNormal wNormal in
  let* xPrimed := iadd xPrimedBase (isel signMask (iv (- PrimeX)) prX) in
  let* yPrimed := iadd yPrimedBase (isel signMask (iv (- PrimeY)) prY) in
  let* zPrimed := iadd zPrimedBase (isel signMask (iv (- PrimeZ)) prZ) in
  let* offset1 := fneg_if signMask (fv (ss4_k3U1 K)) in
  let* offset0 := fneg_if signMask (fv (ss4_k3U K)) in
  let* falloffBase := fmax (fmadd offset1 coordinateSum falloffBaseStemB - (fneg_if signMask dwBase)) (num 0) in
  mkc [xPrimed; yPrimed; zPrimed; wPrimedBase] [dxBase - offset1; dyBase - offset1; dzBase - offset1; dwBase - offset0] ((falloffBase * falloffBase) * (falloffBase * falloffBase)).
(** Simplex.inl:726-741 (DomainWarpSimplex.inl:1601-1617) *)
Definition supersimplex4_v3 (K : ss4k) (xPrimedBase yPrimedBase zPrimedBase wPrimedBase : I) (zNormal xyzwNormal dxBase dyBase dzBase dwBase coordinateSum falloffBaseStemB : F) : contrib :=
  let* signMask := flt xyzwNormal zNormal in
  let* xPrimed := iadd xPrimedBase (isel signMask (iv (- PrimeX)) prX) in
  let* yPrimed := iadd yPrimedBase (isel signMask (iv (- PrimeY)) prY) in
  let* wPrimed := iadd wPrimedBase (isel signMask (iv (- PrimeW)) prW) in
  let* offset1 := fneg_if signMask (fv (ss4_k3U1 K)) in
  let* offset0 := fneg_if signMask (fv (ss4_k3U K)) in
  let* falloffBase := fmax (fmadd offset1 coordinateSum falloffBaseStemB - (fneg_if signMask dzBase)) (num 0) in
  mkc [xPrimed; yPrimed; zPrimedBase; wPrimed] [dxBase - offset1; dyBase - offset1; dzBase - offset0; dwBase - offset1] ((falloffBase * falloffBase) * (falloffBase * falloffBase)).
(** Simplex.inl:743-758 (DomainWarpSimplex.inl:1619-1635) *)
Definition supersimplex4_v4 (K : ss4k) (xPrimedBase yPrimedBase zPrimedBase wPrimedBase : I) (yNormal xyzwNormal dxBase dyBase dzBase dwBase coordinateSum falloffBaseStemB : F) : contrib :=
  let* signMask := flt xyzwNormal yNormal in
  let* xPrimed := iadd xPrimedBase (isel signMask (iv (- PrimeX)) prX) in
  let* zPrimed := iadd zPrimedBase (isel signMask (iv (- PrimeZ)) prZ) in
  let* wPrimed := iadd wPrimedBase (isel signMask (iv (- PrimeW)) prW) in
  let* offset1 := fneg_if signMask (fv (ss4_k3U1 K)) in
  let* offset0 := fneg_if signMask (fv (ss4_k3U K)) in
  let* falloffBase := fmax (fmadd offset1 coordinateSum falloffBaseStemB - (fneg_if signMask dyBase)) (num 0) in
  mkc [xPrimed; yPrimedBase; zPrimed; wPrimed] [dxBase - offset1; dyBase - offset0; dzBase - offset1; dwBase - offset1] ((falloffBase * falloffBase) * (falloffBase * falloffBase)).
(** Simplex.inl:760-775 (DomainWarpSimplex.inl:1637-1653) *)
Definition supersimplex4_v5 (K : ss4k) (xPrimedBase yPrimedBase zPrimedBase wPrimedBase : I) (xNormal xyzwNormal dxBase dyBase dzBase dwBase coordinateSum falloffBaseStemB : F) : contrib :=
  let* signMask := flt xyzwNormal xNormal in
  let* yPrimed := iadd yPrimedBase (isel signMask (iv (- PrimeY)) prY) in
  let* zPrimed := iadd zPrimedBase (isel signMask (iv (- PrimeZ)) prZ) in
  let* wPrimed := iadd wPrimedBase (isel signMask (iv (- PrimeW)) prW) in
  let* offset1 := fneg_if signMask (fv (ss4_k3U1 K)) in
  let* offset0 := fneg_if signMask (fv (ss4_k3U K)) in
  let* falloffBase := fmax (fmadd offset1 coordinateSum falloffBaseStemB - (fneg_if signMask dxBase)) (num 0) in
  mkc [xPrimedBase; yPrimed; zPrimed; wPrimed] [dxBase - offset0; dyBase - offset1; dzBase - offset1; dwBase - offset1] ((falloffBase * falloffBase) * (falloffBase * falloffBase)).
(** Simplex.inl:777-790 (DomainWarpSimplex.inl:1655-1669) *)
Definition supersimplex4_v6 (K : ss4k) (xPrimedBase yPrimedBase zPrimedBase wPrimedBase : I) (xNormal dxBase dyBase dzBase dwBase coordinateSum falloffBaseStemA : F) : contrib :=
  let* signMask := flt xNormal (num 0) in
  let* xPrimed := iadd xPrimedBase (isel signMask (iv (- PrimeX)) prX) in
  let* offset1 := fneg_if signMask (fv (ss4_kU1 K)) in
  let* offset0 := fneg_if signMask (fv (ss4_kU K)) in
  let* falloffBase := fmax (fmadd offset0 coordinateSum falloffBaseStemA + (fneg_if signMask dxBase)) (num 0) in
  mkc [xPrimed; yPrimedBase; zPrimedBase; wPrimedBase] [dxBase - offset1; dyBase - offset0; dzBase - offset0; dwBase - offset0] ((falloffBase * falloffBase) * (falloffBase * falloffBase)).
(** Simplex.inl:792-806 (DomainWarpSimplex.inl:1671-1686) *)
Definition supersimplex4_v7 (K : ss4k) (xPrimedBase yPrimedBase zPrimedBase wPrimedBase : I) (xNormal yNormal dxBase dyBase dzBase dwBase coordinateSum falloffBaseStemB : F) : contrib :=
  let* signMask := flt xNormal (fneg yNormal) in
  let* xPrimed := iadd xPrimedBase (isel signMask (iv (- PrimeX)) prX) in
  let* yPrimed := iadd yPrimedBase (isel signMask (iv (- PrimeY)) prY) in
  let* offset1 := fneg_if signMask (fv (ss4_k2U1 K)) in
  let* offset0 := fneg_if signMask (fv (ss4_k2U K)) in
  let* falloffBase := fmax (fmadd offset0 coordinateSum falloffBaseStemB + (fneg_if signMask (dxBase + dyBase))) (num 0) in
  mkc [xPrimed; yPrimed; zPrimedBase; wPrimedBase] [dxBase - offset1; dyBase - offset1; dzBase - offset0; dwBase - offset0] ((falloffBase * falloffBase) * (falloffBase * falloffBase)).
(** Simplex.inl:808-822 (DomainWarpSimplex.inl:1688-1703) *)
Definition supersimplex4_v8 (K : ss4k) (xPrimedBase yPrimedBase zPrimedBase wPrimedBase : I) (xNormal zNormal dxBase dyBase dzBase dwBase coordinateSum falloffBaseStemB : F) : contrib :=
  let* signMask := flt xNormal (fneg zNormal) in
  let* xPrimed := iadd xPrimedBase (isel signMask (iv (- PrimeX)) prX) in
  let* zPrimed := iadd zPrimedBase (isel signMask (iv (- PrimeZ)) prZ) in
  let* offset1 := fneg_if signMask (fv (ss4_k2U1 K)) in
  let* offset0 := fneg_if signMask (fv (ss4_k2U K)) in
  let* falloffBase := fmax (fmadd offset0 coordinateSum falloffBaseStemB + (fneg_if signMask (dxBase + dzBase))) (num 0) in
  mkc [xPrimed; yPrimedBase; zPrimed; wPrimedBase] [dxBase - offset1; dyBase - offset0; dzBase - offset1; dwBase - offset0] ((falloffBase * falloffBase) * (falloffBase * falloffBase)).
(** Simplex.inl:824-838 (DomainWarpSimplex.inl:1705-1720) *)
Definition supersimplex4_v9 (K : ss4k) (xPrimedBase yPrimedBase zPrimedBase wPrimedBase : I) (xNormal wNormal dxBase dyBase dzBase dwBase coordinateSum falloffBaseStemB : F) : contrib :=
  let* signMask := flt xNormal (fneg wNormal) in
  let* xPrimed := iadd xPrimedBase (isel signMask (iv (- PrimeX)) prX) in
  let* wPrimed := iadd wPrimedBase (isel signMask (iv (- PrimeW)) prW) in
  let* offset1 := fneg_if signMask (fv (ss4_k2U1 K)) in
  let* offset0 := fneg_if signMask (fv (ss4_k2U K)) in
  let* falloffBase := fmax (fmadd offset0 coordinateSum falloffBaseStemB + (fneg_if signMask (dxBase + dwBase))) (num 0) in
  mkc [xPrimed; yPrimedBase; zPrimedBase; wPrimed] [dxBase - offset1; dyBase - offset0; dzBase - offset0; dwBase - offset1] ((falloffBase * falloffBase) * (falloffBase * falloffBase)).
(** Simplex.inl:840-853 (DomainWarpSimplex.inl:1722-1736) *)
Definition supersimplex4_v10 (K : ss4k) (xPrimedBase yPrimedBase zPrimedBase wPrimedBase : I) (yNormal dxBase dyBase dzBase dwBase coordinateSum falloffBaseStemA : F) : contrib :=
  let* signMask := flt yNormal (num 0) in
  let* yPrimed := iadd yPrimedBase (isel signMask (iv (- PrimeY)) prY) in
  let* offset1 := fneg_if signMask (fv (ss4_kU1 K)) in
  let* offset0 := fneg_if signMask (fv (ss4_kU K)) in
  let* falloffBase := fmax (fmadd offset0 coordinateSum falloffBaseStemA + (fneg_if signMask dyBase)) (num 0) in
  mkc [xPrimedBase; yPrimed; zPrimedBase; wPrimedBase] [dxBase - offset0; dyBase - offset1; dzBase - offset0; dwBase - offset0] ((falloffBase * falloffBase) * (falloffBase * falloffBase)).
(** Simplex.inl:855-869 (DomainWarpSimplex.inl:1738-1753) *)
Definition supersimplex4_v11 (K : ss4k) (xPrimedBase yPrimedBase zPrimedBase wPrimedBase : I) (yNormal zNormal dxBase dyBase dzBase dwBase coordinateSum falloffBaseStemB : F) : contrib :=
  let* signMask := flt yNormal (fneg zNormal) in
  let* yPrimed := iadd yPrimedBase (isel signMask (iv (- PrimeY)) prY) in
  let* zPrimed := iadd zPrimedBase (isel signMask (iv (- PrimeZ)) prZ) in
  let* offset1 := fneg_if signMask (fv (ss4_k2U1 K)) in
  let* offset0 := fneg_if signMask (fv (ss4_k2U K)) in
  let* falloffBase := fmax (fmadd offset0 coordinateSum falloffBaseStemB + (fneg_if signMask (dyBase + dzBase))) (num 0) in
  mkc [xPrimedBase; yPrimed; zPrimed; wPrimedBase] [dxBase - offset0; dyBase - offset1; dzBase - offset1; dwBase - offset0] ((falloffBase * falloffBase) * (falloffBase * falloffBase)).
(** Simplex.inl:871-885 (DomainWarpSimplex.inl:1755-1770) *)
Definition supersimplex4_v12 (K : ss4k) (xPrimedBase yPrimedBase zPrimedBase wPrimedBase : I) (yNormal wNormal dxBase dyBase dzBase dwBase coordinateSum falloffBaseStemB : F) : contrib :=
  let* signMask := flt yNormal (fneg wNormal) in
  let* yPrimed := iadd yPrimedBase (isel signMask (iv (- PrimeY)) prY) in
  let* wPrimed := iadd wPrimedBase (isel signMask (iv (- PrimeW)) prW) in
  let* offset1 := fneg_if signMask (fv (ss4_k2U1 K)) in
  let* offset0 := fneg_if signMask (fv (ss4_k2U K)) in
  let* falloffBase := fmax (fmadd offset0 coordinateSum falloffBaseStemB + (fneg_if signMask (dyBase + dwBase))) (num 0) in
  mkc [xPrimedBase; yPrimed; zPrimedBase; wPrimed] [dxBase - offset0; dyBase - offset1; dzBase - offset0; dwBase - offset1] ((falloffBase * falloffBase) * (falloffBase * falloffBase)).
(** Simplex.inl:887-900 (DomainWarpSimplex.inl:1772-1786) *)
Definition supersimplex4_v13 (K : ss4k) (xPrimedBase yPrimedBase zPrimedBase wPrimedBase : I) (zNormal dxBase dyBase dzBase dwBase coordinateSum falloffBaseStemA : F) : contrib :=
  let* signMask := flt zNormal (num 0) in
  let* zPrimed := iadd zPrimedBase (isel signMask (iv (- PrimeZ)) prZ) in
  let* offset1 := fneg_if signMask (fv (ss4_kU1 K)) in
  let* offset0 := fneg_if signMask (fv (ss4_kU K)) in
  let* falloffBase := fmax (fmadd offset0 coordinateSum falloffBaseStemA + (fneg_if signMask dzBase)) (num 0) in
  mkc [xPrimedBase; yPrimedBase; zPrimed; wPrimedBase] [dxBase - offset0; dyBase - offset0; dzBase - offset1; dwBase - offset0] ((falloffBase * falloffBase) * (falloffBase * falloffBase)).
(** Simplex.inl:902-916 (DomainWarpSimplex.inl:1788-1803) *)
Definition supersimplex4_v14 (K : ss4k) (xPrimedBase yPrimedBase zPrimedBase wPrimedBase : I) (zNormal wNormal dxBase dyBase dzBase dwBase coordinateSum falloffBaseStemB : F) : contrib :=
  let* signMask := flt zNormal (fneg wNormal) in
  let* zPrimed := iadd zPrimedBase (isel signMask (iv (- PrimeZ)) prZ) in
  let* wPrimed := iadd wPrimedBase (isel signMask (iv (- PrimeW)) prW) in
  let* offset1 := fneg_if signMask (fv (ss4_k2U1 K)) in
  let* offset0 := fneg_if signMask (fv (ss4_k2U K)) in
  let* falloffBase := fmax (fmadd offset0 coordinateSum falloffBaseStemB + (fneg_if signMask (dzBase + dwBase))) (num 0) in
  mkc [xPrimedBase; yPrimedBase; zPrimed; wPrimed] [dxBase - offset0; dyBase - offset0; dzBase - offset1; dwBase - offset1] ((falloffBase * falloffBase) * (falloffBase * falloffBase)).
(** Simplex.inl:918-931 (DomainWarpSimplex.inl:1805-1819) *)
Definition supersimplex4_v15 (K : ss4k) (xPrimedBase yPrimedBase zPrimedBase wPrimedBase : I) (wNormal dxBase dyBase dzBase dwBase coordinateSum falloffBaseStemA : F) : contrib :=
  let* signMask := flt wNormal (num 0) in
  let* wPrimed := iadd wPrimedBase (isel signMask (iv (- PrimeW)) prW) in
  let* offset1 := fneg_if signMask (fv (ss4_kU1 K)) in
  let* offset0 := fneg_if signMask (fv (ss4_kU K)) in
  let* falloffBase := fmax (fmadd offset0 coordinateSum falloffBaseStemA + (fneg_if signMask dwBase)) (num 0) in
  mkc [xPrimedBase; yPrimedBase; zPrimedBase; wPrimed] [dxBase - offset0; dyBase - offset0; dzBase - offset0; dwBase - offset1] ((falloffBase * falloffBase) * (falloffBase * falloffBase)).
(** Simplex.inl:580-935: the vertices visited from the base vertex and the position relative to it *)
Definition supersimplex4_at (K : ss4k) (xPrimedBase yPrimedBase zPrimedBase wPrimedBase : I) (dxSkewed dySkewed dzSkewed dwSkewed : F) : list contrib :=
  let* skewedCoordinateSum := dxSkewed + dySkewed + dzSkewed + dwSkewed in
  let* twiceUnskewDelta := fv (ss4_kT K) * skewedCoordinateSum in
  let* xNormal := dxSkewed + twiceUnskewDelta in
  let* yNormal := dySkewed + twiceUnskewDelta in
  let* zNormal := dzSkewed + twiceUnskewDelta in
  let* wNormal := dwSkewed + twiceUnskewDelta in
  let* xyzwNormal := fneg twiceUnskewDelta in
  let* unskewDelta := fv (ss4_kU K) * skewedCoordinateSum in
  let* dxBase := dxSkewed + unskewDelta in
  let* dyBase := dySkewed + unskewDelta in
  let* dzBase := dzSkewed + unskewDelta in
  let* dwBase := dwSkewed + unskewDelta in
  let* coordinateSum := fv (ss4_k4U1 K) * skewedCoordinateSum in
  let* falloffBase := fnmadd dwBase dwBase (fnmadd dzBase dzBase (fnmadd dyBase dyBase (fnmadd dxBase dxBase (fv (ss4_kR K))))) * fv (lit 1 (-1)) in
  let* falloffBaseStemA := falloffBase - fv (ss4_kA K) in
  let* falloffBaseStemB := falloffBase - fv (ss4_kB K) in
  let* c0 := mkc [xPrimedBase; yPrimedBase; zPrimedBase; wPrimedBase] [dxBase; dyBase; dzBase; dwBase] ((falloffBase * falloffBase) * (falloffBase * falloffBase)) in
  let* c1 := supersimplex4_v1 K xPrimedBase yPrimedBase zPrimedBase wPrimedBase xyzwNormal dxBase dyBase dzBase dwBase coordinateSum falloffBaseStemA in
  let* c2 := supersimplex4_v2 K xPrimedBase yPrimedBase zPrimedBase wPrimedBase wNormal xyzwNormal dxBase dyBase dzBase dwBase coordinateSum falloffBaseStemB in
  let* c3 := supersimplex4_v3 K xPrimedBase yPrimedBase zPrimedBase wPrimedBase zNormal xyzwNormal dxBase dyBase dzBase dwBase coordinateSum falloffBaseStemB in
  let* c4 := supersimplex4_v4 K xPrimedBase yPrimedBase zPrimedBase wPrimedBase yNormal xyzwNormal dxBase dyBase dzBase dwBase coordinateSum falloffBaseStemB in
  let* c5 := supersimplex4_v5 K xPrimedBase yPrimedBase zPrimedBase wPrimedBase xNormal xyzwNormal dxBase dyBase dzBase dwBase coordinateSum falloffBaseStemB in
  let* c6 := supersimplex4_v6 K xPrimedBase yPrimedBase zPrimedBase wPrimedBase xNormal dxBase dyBase dzBase dwBase coordinateSum falloffBaseStemA in
  let* c7 := supersimplex4_v7 K xPrimedBase yPrimedBase zPrimedBase wPrimedBase xNormal yNormal dxBase dyBase dzBase dwBase coordinateSum falloffBaseStemB in
  let* c8 := supersimplex4_v8 K xPrimedBase yPrimedBase zPrimedBase wPrimedBase xNormal zNormal dxBase dyBase dzBase dwBase coordinateSum falloffBaseStemB in
  let* c9 := supersimplex4_v9 K xPrimedBase yPrimedBase zPrimedBase wPrimedBase xNormal wNormal dxBase dyBase dzBase dwBase coordinateSum falloffBaseStemB in
  let* c10 := supersimplex4_v10 K xPrimedBase yPrimedBase zPrimedBase wPrimedBase yNormal dxBase dyBase dzBase dwBase coordinateSum falloffBaseStemA in
  let* c11 := supersimplex4_v11 K xPrimedBase yPrimedBase zPrimedBase wPrimedBase yNormal zNormal dxBase dyBase dzBase dwBase coordinateSum falloffBaseStemB in
  let* c12 := supersimplex4_v12 K xPrimedBase yPrimedBase zPrimedBase wPrimedBase yNormal wNormal dxBase dyBase dzBase dwBase coordinateSum falloffBaseStemB in
  let* c13 := supersimplex4_v13 K xPrimedBase yPrimedBase zPrimedBase wPrimedBase zNormal dxBase dyBase dzBase dwBase coordinateSum falloffBaseStemA in
  let* c14 := supersimplex4_v14 K xPrimedBase yPrimedBase zPrimedBase wPrimedBase zNormal wNormal dxBase dyBase dzBase dwBase coordinateSum falloffBaseStemB in
  let* c15 := supersimplex4_v15 K xPrimedBase yPrimedBase zPrimedBase wPrimedBase wNormal dxBase dyBase dzBase dwBase coordinateSum falloffBaseStemA in
  [ c0; c1; c2; c3; c4; c5; c6; c7; c8; c9; c10; c11; c12; c13; c14; c15 ].
(** Simplex.inl:580-935, DomainWarpSimplex.inl:1451-1834 (the same text) *)
Definition supersimplex4 (K : ss4k) (x y z w : F) : list contrib :=
  let* skewDelta := fv (ss4_kSkew K) * (x + y + z + w) in
  let* xSkewed := x + skewDelta in
  let* ySkewed := y + skewDelta in
  let* zSkewed := z + skewDelta in
  let* wSkewed := w + skewDelta in
  let* xSkewedBase := ffloor xSkewed in
  let* ySkewedBase := ffloor ySkewed in
  let* zSkewedBase := ffloor zSkewed in
  let* wSkewedBase := ffloor wSkewed in
  let* dxSkewed := xSkewed - xSkewedBase in
  let* dySkewed := ySkewed - ySkewedBase in
  let* dzSkewed := zSkewed - zSkewedBase in
  let* dwSkewed := wSkewed - wSkewedBase in
  let* moveMaskBits := supersimplex4_near K dxSkewed dySkewed dzSkewed dwSkewed in
  let* moveX := ine (iand moveMaskBits (iv 1)) (iv 0) in
  let* moveY := ine (iand moveMaskBits (iv 2)) (iv 0) in
  let* moveZ := ine (iand moveMaskBits (iv 4)) (iv 0) in
  let* moveW := ine (iand moveMaskBits (iv 8)) (iv 0) in
  let* xSkewedBase := fmasked_inc moveX xSkewedBase in
  let* ySkewedBase := fmasked_inc moveY ySkewedBase in
  let* zSkewedBase := fmasked_inc moveZ zSkewedBase in
  let* wSkewedBase := fmasked_inc moveW wSkewedBase in
  let* dxSkewed := fmasked_dec moveX dxSkewed in
  let* dySkewed := fmasked_dec moveY dySkewed in
  let* dzSkewed := fmasked_dec moveZ dzSkewed in
  let* dwSkewed := fmasked_dec moveW dwSkewed in
  let* xPrimedBase := imul (to_int xSkewedBase) prX in
  let* yPrimedBase := imul (to_int ySkewedBase) prY in
  let* zPrimedBase := imul (to_int zSkewedBase) prZ in
  let* wPrimedBase := imul (to_int wSkewedBase) prW in
  supersimplex4_at K xPrimedBase yPrimedBase zPrimedBase wPrimedBase dxSkewed dySkewed dzSkewed dwSkewed.

(** ** The noise nodes *)
(** GetGradientDotPerlin / GetGradientDotCommon of one visited vertex *)
Definition ramp (seed : I) (c : contrib) : F :=
  match cd c with
  | [x; y] => GetGradientDotPerlin2 ft (HashPrimes seed (cp c)) x y
  | [x; y; z] => GetGradientDotCommon ft (HashPrimes seed (cp c)) x y z
  | [x; y; z; w] => GetGradientDotPerlin4 ft (HashPrimes seed (cp c)) x y z w
  | _ => num 0
  end.
(** the kBounding constants, Simplex.inl:60,139,283,374,574,933 *)
Definition kBoundSimplex2 : V := lit 7011751 (-28).
Definition kBoundSimplex3 : V := lit 4105237 (-27).
Definition kBoundSimplex4 : V := lit 4929823 (-27).
Definition kBoundSuper2 : V := lit 9452225 (-26).
Definition kBoundSuper3 : V := lit 14837205 (-31).
Definition kBoundSuper4 : V := lit 12144035 (-30).
(** Simplex.inl:58 *)
Definition value2 (seed : I) (l : list contrib) : F :=
  match l with
  | [c0; c1; c2] => fmadd (ramp seed c0) (cf c0) (fmadd (ramp seed c1) (cf c1) (ramp seed c2 * cf c2))
  | _ => num 0
  end.
(** Simplex.inl:137 *)
Definition value3 (seed : I) (l : list contrib) : F :=
  match l with
  | [c0; c1; c2; c3] =>
      fmadd (ramp seed c3) (cf c3) (fmadd (ramp seed c2) (cf c2) (fmadd (ramp seed c1) (cf c1) (ramp seed c0 * cf c0)))
  | _ => num 0
  end.
(** Simplex.inl:281 *)
Definition value4 (seed : I) (l : list contrib) : F :=
  match l with
  | [c0; c1; c2; c3; c4] =>
      fmadd (ramp seed c0) (cf c0) (fmadd (ramp seed c1) (cf c1) (fmadd (ramp seed c2) (cf c2) (fmadd (ramp seed c3) (cf c3) (ramp seed c4 * cf c4))))
  | _ => num 0
  end.
(** The accumulator [value] of SuperSimplex, Simplex.inl:330,341,359,373 (2D), 467,484,... (3D), 703,723,... (4D) *)
Definition value_acc (seed : I) (l : list contrib) : F :=
  match l with
  | c0 :: l' => fold_left (fun value c => fmadd (cf c) (ramp seed c) value) l' (cf c0 * ramp seed c0)
  | [] => num 0
  end.
(** Simplex.inl:7-63 *)
Definition SimplexGen2 (K : sx2k) (so : Z) (freq : V) (r : range) (seed : I) (x y : F) : F :=
  let* seed := iadd seed (iv so) in
  let* x := x * fv freq in
  let* y := y * fv freq in
  ScaleOutput r (value2 seed (simplex2 K x y)) (s_neg kBoundSimplex2) kBoundSimplex2.
(** Simplex.inl:65-142 *)
Definition SimplexGen3 (K : sx3k) (so : Z) (freq : V) (r : range) (seed : I) (x y z : F) : F :=
  let* seed := iadd seed (iv so) in
  let* x := x * fv freq in
  let* y := y * fv freq in
  let* z := z * fv freq in
  ScaleOutput r (value3 seed (simplex3 K x y z)) (s_neg kBoundSimplex3) kBoundSimplex3.
(** Simplex.inl:144-286 *)
Definition SimplexGen4 (K : sx4k) (so : Z) (freq : V) (r : range) (seed : I) (x y z w : F) : F :=
  let* seed := iadd seed (iv so) in
  let* x := x * fv freq in
  let* y := y * fv freq in
  let* z := z * fv freq in
  let* w := w * fv freq in
  ScaleOutput r (value4 seed (simplex4 K x y z w)) (s_neg kBoundSimplex4) kBoundSimplex4.
Definition SimplexGen (so : Z) (freq : V) (r : range) : source := fun seed pos =>
  match pos with
  | [x; y] => SimplexGen2 sx2k_code so freq r seed x y
  | [x; y; z] => SimplexGen3 sx3k_code so freq r seed x y z
  | [x; y; z; w] => SimplexGen4 sx4k_code so freq r seed x y z w
  | _ => num 0
  end.
(** Simplex.inl:293-377 *)
Definition SuperSimplexGen2 (K : ss2k) (so : Z) (freq : V) (r : range) (seed : I) (x y : F) : F :=
  let* seed := iadd seed (iv so) in
  let* x := x * fv freq in
  let* y := y * fv freq in
  ScaleOutput r (value_acc seed (supersimplex2 K x y)) (s_neg kBoundSuper2) kBoundSuper2.
(** Simplex.inl:379-576 *)
Definition SuperSimplexGen3 (K : ss3k) (so : Z) (freq : V) (r : range) (seed : I) (x y z : F) : F :=
  let* seed := iadd seed (iv so) in
  let* x := x * fv freq in
  let* y := y * fv freq in
  let* z := z * fv freq in
  ScaleOutput r (value_acc seed (supersimplex3 K x y z)) (s_neg kBoundSuper3) kBoundSuper3.
(** Simplex.inl:578-936 *)
Definition SuperSimplexGen4 (K : ss4k) (so : Z) (freq : V) (r : range) (seed : I) (x y z w : F) : F :=
  let* seed := iadd seed (iv so) in
  let* x := x * fv freq in
  let* y := y * fv freq in
  let* z := z * fv freq in
  let* w := w * fv freq in
  ScaleOutput r (value_acc seed (supersimplex4 K x y z w)) (s_neg kBoundSuper4) kBoundSuper4.
Definition SuperSimplexGen (so : Z) (freq : V) (r : range) : source := fun seed pos =>
  match pos with
  | [x; y] => SuperSimplexGen2 ss2k_code so freq r seed x y
  | [x; y; z] => SuperSimplexGen3 ss3k_code so freq r seed x y z
  | [x; y; z; w] => SuperSimplexGen4 ss4k_code so freq r seed x y z w
  | _ => num 0
  end.
End Simplex.
Arguments contrib s W : clear implicits.
Arguments sx2k s : clear implicits. Arguments sx3k s : clear implicits. Arguments sx4k s : clear implicits.
Arguments ss2k s : clear implicits. Arguments ss3k s : clear implicits. Arguments ss4k s : clear implicits.
