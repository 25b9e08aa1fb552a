(** Model of the height map mesh of the node editor's preview (tools/NodeEditor/MeshNoisePreview.cpp:955-1006). Heights are reals, the
    horizontal positions integers. The light of a quad is an arbitrary function of its four corners (it is computed from their normal). *)
From Coq Require Import Reals ZArith List Bool Lia Lra.
From Verif Require Import Mesh_Spec.
Import ListNotations.
Open Scope Z_scope.

(** a position: x, height, z *)
Definition hpoint : Type := (Z * R * Z)%type.
Record hmesh := { hverts : list (hpoint * R); hinds : list Z }.
Section Height.
Variable SIZE : Z.
Definition SIZE_GEN : Z := SIZE + 1.
Definition STEP_X : Z := 1.
Definition STEP_Y : Z := SIZE_GEN.
Variable densityValues : Z -> R.
Variable heightmapMultiplier : R.
Variable light : hpoint -> hpoint -> hpoint -> hpoint -> R.
Variable posx posz : Z.
Definition dotSum (u v : hpoint) : R :=
  match u, v with (x, h, z), (x', h', z') => (IZR (x + x') * IZR (x + x') + (h + h') * (h + h') + IZR (z + z') * IZR (z + z'))%R end.
(** MeshNoisePreview.cpp:972-998: one square *)
Definition hcellStep (x y : Z) (s : hmesh * Z) : hmesh * Z :=
  let (m, noiseIdx) := s in
  let yf := y + posz in let xf := x + posx in
  let v00 := (xf, (densityValues noiseIdx * heightmapMultiplier)%R, yf) in
  let v01 := (xf, (densityValues (noiseIdx + STEP_Y) * heightmapMultiplier)%R, yf + 1) in
  let v10 := (xf + 1, (densityValues (noiseIdx + STEP_X) * heightmapMultiplier)%R, yf) in
  let v11 := (xf + 1, (densityValues (noiseIdx + STEP_X + STEP_Y) * heightmapMultiplier)%R, yf + 1) in
  let l := light v00 v01 v10 v11 in
  let vertIdx := Z.of_nat (length (hverts m)) in
  let triRotation := 2 * (if Rgt_b (dotSum v01 v10) (dotSum v00 v11) then 1 else 0) in
  ({| hverts := hverts m ++ [(v00, l); (v01, l); (v10, l); (v11, l)];
      hinds := hinds m ++ [vertIdx; vertIdx + 3 - triRotation; vertIdx + 2; vertIdx + 3; vertIdx + triRotation; vertIdx + 1] |}, noiseIdx + 1).
(** MeshNoisePreview.cpp:966-1003: the loops *)
Definition hrowLoop (y : Z) (s : hmesh * Z) : hmesh * Z :=
  let (m, i) := fold_left (fun s x => hcellStep x y s) (zrange 0 SIZE) s in (m, i + STEP_X).
Definition BuildHeightMap2DMesh : hmesh :=
  fst (fold_left (fun s y => hrowLoop y s) (zrange 0 SIZE) ({| hverts := []; hinds := [] |}, 0)).
End Height.
