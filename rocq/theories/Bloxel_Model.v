(** Model of the block mesh of the node editor's 3D preview (tools/NodeEditor/MeshNoisePreview.cpp:444-590). Densities, brightness are reals
    (no NaN), vertex positions integers (they are floats with integer values), indices integers. [None] stands for the infinite start
    values of minAir and maxSolid. Simplified: AMBIENT_LIGHT, AO_STRENGTH and SUN are parameters. *)
From Coq Require Import Reals ZArith List Bool Lia Lra.
From Verif Require Import Mesh_Spec.
Import ListNotations.
Open Scope Z_scope.

Record bmesh := { bverts : list (point * R); binds : list Z; minAir : option Z; maxSolid : option Z }.
Section Bloxel.
Variable SIZE : Z.
(** MeshNoisePreview.cpp:446, 477-479 *)
Definition SIZE_GEN : Z := SIZE + 2.
Definition STEP_X : Z := 1.
Definition STEP_Y : Z := SIZE_GEN.
Definition STEP_Z : Z := SIZE_GEN * SIZE_GEN.
Variable density : Z -> R.
Variable isoSurface : R.
Variable AMBIENT_LIGHT AO_STRENGTH SUNx SUNy SUNz : R.
Variable posx posy posz : Z.
Definition le_iso (i : Z) : bool := negb (Rgt_b (density i) isoSurface).
Definition b2z (b : bool) : Z := if b then 1 else 0.
(** MeshNoisePreview.cpp:549-590 *)
Definition BloxelAddQuadAO (idx facingOffset offsetA offsetB : Z) (light : R) (pos00 pos01 pos11 pos10 : point) (m : bmesh) : bmesh :=
  let facingIdx := idx + facingOffset in
  let sideA0 := le_iso (facingIdx - offsetA) in
  let sideA1 := le_iso (facingIdx + offsetA) in
  let sideB0 := le_iso (facingIdx - offsetB) in
  let sideB1 := le_iso (facingIdx + offsetB) in
  let corner00 := (sideA0 && sideB0) || le_iso (facingIdx - offsetA - offsetB) in
  let corner01 := (sideA0 && sideB1) || le_iso (facingIdx - offsetA + offsetB) in
  let corner10 := (sideA1 && sideB0) || le_iso (facingIdx + offsetA - offsetB) in
  let corner11 := (sideA1 && sideB1) || le_iso (facingIdx + offsetA + offsetB) in
  let aoAdjust := (AO_STRENGTH / 3)%R in
  let ao00 := (IZR (b2z sideA0 + b2z sideB0 + b2z corner00) * aoAdjust)%R in
  let ao01 := (IZR (b2z sideA1 + b2z sideB0 + b2z corner10) * aoAdjust)%R in
  let ao10 := (IZR (b2z sideA0 + b2z sideB1 + b2z corner01) * aoAdjust)%R in
  let ao11 := (IZR (b2z sideA1 + b2z sideB1 + b2z corner11) * aoAdjust)%R in
  let densityLightShift := ((isoSurface - density idx) * 4)%R in
  let light := (light - densityLightShift)%R in
  let light := (light * Rabs light)%R in
  let light := Rmax AMBIENT_LIGHT light in
  let vertIdx := Z.of_nat (length (bverts m)) in
  let triRotation := if Rgt_b (ao00 + ao11) (ao01 + ao10) then 2 else 0 in
  {| bverts := bverts m ++ [(pos00, ((1 - ao00) * light)%R); (pos01, ((1 - ao01) * light)%R); (pos10, ((1 - ao10) * light)%R); (pos11, ((1 - ao11) * light)%R)];
     binds := binds m ++ [vertIdx; vertIdx + 3 - triRotation; vertIdx + 2; vertIdx + 3; vertIdx + triRotation; vertIdx + 1];
     minAir := minAir m; maxSolid := maxSolid m |}.
Definition addIf (b : bool) (f : bmesh -> bmesh) (m : bmesh) : bmesh := if b then f m else m.
Definition omax (v : Z) (o : option Z) : option Z := match o with None => Some v | Some w => Some (Z.max v w) end.
Definition omin (v : Z) (o : option Z) : option Z := match o with None => Some v | Some w => Some (Z.min v w) end.
(** MeshNoisePreview.cpp:483-536: one cell *)
Definition bcellStep (x y z : Z) (s : bmesh * Z) : bmesh * Z :=
  let (m, noiseIdx) := s in
  let xf := x + posx in let yf := y + posy in let zf := z + posz in
  let air i := Rgt_b (density i) isoSurface in
  let X := STEP_X in let Y := STEP_Y in let Z' := STEP_Z in
  let m :=
    if le_iso noiseIdx then
      let m := {| bverts := bverts m; binds := binds m; minAir := minAir m; maxSolid := omax yf (maxSolid m) |} in
      let m := addIf (air (noiseIdx + X)) (BloxelAddQuadAO noiseIdx X Y Z' (SUNx + AMBIENT_LIGHT)%R (xf + 1, yf, zf) (xf + 1, yf + 1, zf) (xf + 1, yf + 1, zf + 1) (xf + 1, yf, zf + 1)) m in
      let m := addIf (air (noiseIdx - X)) (BloxelAddQuadAO noiseIdx (- X) (- Y) Z' (1 - SUNx)%R (xf, yf + 1, zf) (xf, yf, zf) (xf, yf, zf + 1) (xf, yf + 1, zf + 1)) m in
      let m := addIf (air (noiseIdx + Y)) (BloxelAddQuadAO noiseIdx Y Z' X (SUNy + AMBIENT_LIGHT)%R (xf, yf + 1, zf) (xf, yf + 1, zf + 1) (xf + 1, yf + 1, zf + 1) (xf + 1, yf + 1, zf)) m in
      let m := addIf (air (noiseIdx - Y)) (BloxelAddQuadAO noiseIdx (- Y) (- Z') X (1 - SUNy)%R (xf, yf, zf + 1) (xf, yf, zf) (xf + 1, yf, zf) (xf + 1, yf, zf + 1)) m in
      let m := addIf (air (noiseIdx + Z')) (BloxelAddQuadAO noiseIdx Z' X Y (SUNz + AMBIENT_LIGHT)%R (xf, yf, zf + 1) (xf + 1, yf, zf + 1) (xf + 1, yf + 1, zf + 1) (xf, yf + 1, zf + 1)) m in
      addIf (air (noiseIdx - Z')) (BloxelAddQuadAO noiseIdx (- Z') (- X) Y (1 - SUNz)%R (xf + 1, yf, zf) (xf, yf, zf) (xf, yf + 1, zf) (xf + 1, yf + 1, zf)) m
    else {| bverts := bverts m; binds := binds m; minAir := omin yf (minAir m); maxSolid := maxSolid m |} in
  (m, noiseIdx + 1).
(** MeshNoisePreview.cpp:479-543: the loops *)
Definition browLoop (y z : Z) (s : bmesh * Z) : bmesh * Z :=
  let (m, i) := fold_left (fun s x => bcellStep x y z s) (zrange 0 SIZE) s in (m, i + STEP_X * 2).
Definition bplaneLoop (z : Z) (s : bmesh * Z) : bmesh * Z :=
  let (m, i) := fold_left (fun s y => browLoop y z s) (zrange 0 SIZE) s in (m, i + STEP_Y * 2).
(** MeshNoisePreview.cpp:444-547. [minMax] is what the generation call returned, [calc] is FASTNOISE_CALC_MIN_MAX. *)
Definition BuildBloxel3DMesh (calc : bool) (minMax : R * R) : bmesh :=
  let empty a s := {| bverts := []; binds := []; minAir := a; maxSolid := s |} in
  if calc && Rgt_b (fst minMax) isoSurface then empty (Some posy) None
  else if calc && Rgt_b isoSurface (snd minMax) then empty None (Some (posy - 1 + SIZE))
  else fst (fold_left (fun s z => bplaneLoop z s) (zrange 0 SIZE) (empty None None, STEP_X + STEP_Y + STEP_Z)).
End Bloxel.
