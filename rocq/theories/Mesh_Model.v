(** Model of the dual marching cubes mesh of the node editor's 3D preview (tools/NodeEditor/MeshNoisePreview.cpp:592-952,
    tools/NodeEditor/util/DmcTable.inl). Densities are reals (no NaN), uint32_t indices are integers (C69 shows that they fit).
    Simplified: the vertex brightness, which only decides along which diagonal a quad is cut, is an arbitrary function of the cell and
    the point code (MeshNoisePreview.cpp:889-952 computes it from the densities); minAir, maxSolid are left out. *)
From Coq Require Import Reals ZArith List Bool Lia Lra.
From Verif Require Import Mesh_Spec.
Import ListNotations.
Open Scope Z_scope.

(** DmcTable.inl:74-330, EDGEk = 2^k *)
Definition kDualPointsList : list (list Z) := [
  [0; 0; 0; 0]; [265; 0; 0; 0]; [515; 0; 0; 0]; [778; 0; 0; 0]; [400; 0; 0; 0]; [153; 0; 0; 0]; [515; 400; 0; 0]; [666; 0; 0; 0];
  [560; 0; 0; 0]; [265; 560; 0; 0]; [51; 0; 0; 0]; [314; 0; 0; 0]; [928; 0; 0; 0]; [681; 0; 0; 0]; [419; 0; 0; 0]; [170; 0; 0; 0];
  [2060; 0; 0; 0]; [2309; 0; 0; 0]; [515; 2060; 0; 0]; [2822; 0; 0; 0]; [400; 2060; 0; 0]; [2197; 0; 0; 0]; [515; 400; 2060; 0]; [2710; 0; 0; 0];
  [560; 2060; 0; 0]; [2309; 560; 0; 0]; [51; 2060; 0; 0]; [2358; 0; 0; 0]; [928; 2060; 0; 0]; [2725; 0; 0; 0]; [419; 2060; 0; 0]; [2214; 0; 0; 0];
  [1030; 0; 0; 0]; [265; 1030; 0; 0]; [1541; 0; 0; 0]; [1804; 0; 0; 0]; [400; 1030; 0; 0]; [153; 1030; 0; 0]; [1541; 400; 0; 0]; [1692; 0; 0; 0];
  [560; 1030; 0; 0]; [265; 560; 1030; 0]; [1077; 0; 0; 0]; [1340; 0; 0; 0]; [928; 1030; 0; 0]; [681; 1030; 0; 0]; [1445; 0; 0; 0]; [1196; 0; 0; 0];
  [3082; 0; 0; 0]; [3331; 0; 0; 0]; [3593; 0; 0; 0]; [3840; 0; 0; 0]; [400; 3082; 0; 0]; [3219; 0; 0; 0]; [3593; 400; 0; 0]; [3728; 0; 0; 0];
  [560; 3082; 0; 0]; [3331; 560; 0; 0]; [3129; 0; 0; 0]; [3376; 0; 0; 0]; [928; 3082; 0; 0]; [3747; 0; 0; 0]; [3497; 0; 0; 0]; [3232; 0; 0; 0];
  [2240; 0; 0; 0]; [265; 2240; 0; 0]; [515; 2240; 0; 0]; [778; 2240; 0; 0]; [2384; 0; 0; 0]; [2137; 0; 0; 0]; [515; 2384; 0; 0]; [2650; 0; 0; 0];
  [560; 2240; 0; 0]; [265; 560; 2240; 0]; [51; 2240; 0; 0]; [314; 2240; 0; 0]; [2912; 0; 0; 0]; [2665; 0; 0; 0]; [2403; 0; 0; 0]; [2154; 0; 0; 0];
  [204; 0; 0; 0]; [453; 0; 0; 0]; [515; 204; 0; 0]; [966; 0; 0; 0]; [348; 0; 0; 0]; [85; 0; 0; 0]; [515; 348; 0; 0]; [598; 0; 0; 0];
  [560; 204; 0; 0]; [453; 560; 0; 0]; [51; 204; 0; 0]; [502; 0; 0; 0]; [876; 0; 0; 0]; [613; 0; 0; 0]; [367; 0; 0; 0]; [102; 0; 0; 0];
  [1030; 2240; 0; 0]; [265; 1030; 2240; 0]; [1541; 2240; 0; 0]; [1804; 2240; 0; 0]; [2384; 1030; 0; 0]; [2137; 1030; 0; 0]; [1541; 2384; 0; 0]; [3676; 0; 0; 0];
  [560; 1030; 2240; 0]; [265; 560; 1030; 2240]; [1077; 2240; 0; 0]; [1340; 2240; 0; 0]; [2912; 1030; 0; 0]; [2665; 1030; 0; 0]; [3429; 0; 0; 0]; [3180; 0; 0; 0];
  [1226; 0; 0; 0]; [1475; 0; 0; 0]; [1737; 0; 0; 0]; [1984; 0; 0; 0]; [1370; 0; 0; 0]; [1107; 0; 0; 0]; [1881; 0; 0; 0]; [1616; 0; 0; 0];
  [560; 1226; 0; 0]; [1475; 560; 0; 0]; [1273; 0; 0; 0]; [1520; 0; 0; 0]; [1898; 0; 0; 0]; [1635; 0; 0; 0]; [265; 1120; 0; 0]; [1120; 0; 0; 0];
  [1120; 0; 0; 0]; [265; 1120; 0; 0]; [515; 1120; 0; 0]; [778; 1120; 0; 0]; [400; 1120; 0; 0]; [153; 1120; 0; 0]; [515; 400; 1120; 0]; [666; 1120; 0; 0];
  [1616; 0; 0; 0]; [265; 1616; 0; 0]; [1107; 0; 0; 0]; [1370; 0; 0; 0]; [1984; 0; 0; 0]; [1737; 0; 0; 0]; [1475; 0; 0; 0]; [1226; 0; 0; 0];
  [2060; 1120; 0; 0]; [2309; 1120; 0; 0]; [515; 2060; 1120; 0]; [2822; 1120; 0; 0]; [400; 2060; 1120; 0]; [2197; 1120; 0; 0]; [515; 400; 2060; 1120]; [2710; 1120; 0; 0];
  [1616; 2060; 0; 0]; [2309; 1616; 0; 0]; [1107; 2060; 0; 0]; [3414; 0; 0; 0]; [1984; 2060; 0; 0]; [3781; 0; 0; 0]; [1475; 2060; 0; 0]; [3270; 0; 0; 0];
  [102; 0; 0; 0]; [265; 102; 0; 0]; [613; 0; 0; 0]; [876; 0; 0; 0]; [400; 102; 0; 0]; [153; 102; 0; 0]; [613; 400; 0; 0]; [764; 0; 0; 0];
  [598; 0; 0; 0]; [265; 598; 0; 0]; [85; 0; 0; 0]; [348; 0; 0; 0]; [966; 0; 0; 0]; [719; 0; 0; 0]; [453; 0; 0; 0]; [204; 0; 0; 0];
  [2154; 0; 0; 0]; [2403; 0; 0; 0]; [2665; 0; 0; 0]; [2912; 0; 0; 0]; [400; 2154; 0; 0]; [2291; 0; 0; 0]; [2665; 400; 0; 0]; [2800; 0; 0; 0];
  [2650; 0; 0; 0]; [2899; 0; 0; 0]; [2137; 0; 0; 0]; [2384; 0; 0; 0]; [3018; 0; 0; 0]; [515; 2240; 0; 0]; [2505; 0; 0; 0]; [2240; 0; 0; 0];
  [3232; 0; 0; 0]; [265; 3232; 0; 0]; [515; 3232; 0; 0]; [778; 3232; 0; 0]; [3376; 0; 0; 0]; [3129; 0; 0; 0]; [515; 3376; 0; 0]; [3642; 0; 0; 0];
  [3728; 0; 0; 0]; [265; 3728; 0; 0]; [3219; 0; 0; 0]; [3482; 0; 0; 0]; [3840; 0; 0; 0]; [3593; 0; 0; 0]; [3331; 0; 0; 0]; [3082; 0; 0; 0];
  [1196; 0; 0; 0]; [1445; 0; 0; 0]; [515; 1196; 0; 0]; [1958; 0; 0; 0]; [1340; 0; 0; 0]; [1077; 0; 0; 0]; [515; 1340; 0; 0]; [1590; 0; 0; 0];
  [1692; 0; 0; 0]; [1941; 0; 0; 0]; [1183; 0; 0; 0]; [400; 1030; 0; 0]; [1804; 0; 0; 0]; [1541; 0; 0; 0]; [1295; 0; 0; 0]; [1030; 0; 0; 0];
  [2214; 0; 0; 0]; [265; 2214; 0; 0]; [2725; 0; 0; 0]; [2988; 0; 0; 0]; [2358; 0; 0; 0]; [2111; 0; 0; 0]; [2869; 0; 0; 0]; [560; 2060; 0; 0];
  [2710; 0; 0; 0]; [265; 2710; 0; 0]; [2197; 0; 0; 0]; [2460; 0; 0; 0]; [2822; 0; 0; 0]; [2575; 0; 0; 0]; [2309; 0; 0; 0]; [2060; 0; 0; 0];
  [170; 0; 0; 0]; [419; 0; 0; 0]; [681; 0; 0; 0]; [928; 0; 0; 0]; [314; 0; 0; 0]; [51; 0; 0; 0]; [825; 0; 0; 0]; [560; 0; 0; 0];
  [666; 0; 0; 0]; [915; 0; 0; 0]; [153; 0; 0; 0]; [400; 0; 0; 0]; [778; 0; 0; 0]; [515; 0; 0; 0]; [265; 0; 0; 0]; [0; 0; 0; 0]].
(** DmcTable.inl:3-16 *)
Definition EDGE (k : Z) : Z := Z.shiftl 1 k.

Section Mesh.
(** MeshNoisePreview.h:157 ([SIZE] = 128); MeshNoisePreview.cpp:594, 622-624 *)
Variable SIZE : Z.
Definition SIZE_GEN : Z := SIZE + 4.
Definition STEP_X : Z := 1.
Definition STEP_Y : Z := SIZE_GEN.
Definition STEP_Z : Z := SIZE_GEN * SIZE_GEN.
Variable densityArray : Z -> R.
Variable isoSurface : R.
Variable brightness : Z -> Z -> R.
(** buildData.pos *)
Variable posx posy posz : Z.

(** MeshNoisePreview.cpp:774-790 *)
Definition cellCode (i : Z) : Z :=
  let b (j w : Z) := if Rgt_b (densityArray j) isoSurface then w else 0 in
  b i 1 + b (i + STEP_X) 2 + b (i + STEP_Y) 4 + b (i + STEP_X + STEP_Y) 8 +
  b (i + STEP_Z) 16 + b (i + STEP_X + STEP_Z) 32 + b (i + STEP_Y + STEP_Z) 64 + b (i + STEP_X + STEP_Y + STEP_Z) 128.
(** MeshNoisePreview.cpp:792-800: the first of the four entries that contains the edge, or 0 *)
Definition pointCode (code edge : Z) : Z :=
  match find (fun pc => negb (Z.land pc edge =? 0)) (nth (Z.to_nat code) kDualPointsList []) with Some pc => pc | None => 0 end.

(** MeshNoisePreview.cpp:811-887: the mean of the points where the edges of the point code meet the surface *)
Definition cross (i j : Z) : R := ((isoSurface - densityArray i) / (densityArray j - densityArray i))%R.
Definition vec : Type := (R * R * R)%type.
Definition vadd (u v : vec) : vec := match u, v with (a, b, c), (x, y, z) => (a + x, b + y, c + z)%R end.
Definition popcount (pc : Z) : R := IZR (fold_left (fun n k => if Z.testbit pc k then n + 1 else n) [0; 1; 2; 3; 4; 5; 6; 7; 8; 9; 10; 11] 0).
Definition vertTerms (i : Z) : list (Z * vec) :=
  let X := STEP_X in let Y := STEP_Y in let Z' := STEP_Z in
  [(0, (cross i (i + X), 0, 0)%R);
   (1, (1, 0, cross (i + X) (i + X + Z'))%R);
   (2, (cross (i + Z') (i + X + Z'), 0, 1)%R);
   (3, (0, 0, cross i (i + Z'))%R);
   (4, (cross (i + Y) (i + X + Y), 1, 0)%R);
   (5, (1, 1, cross (i + X + Y) (i + X + Y + Z'))%R);
   (6, (cross (i + Y + Z') (i + X + Y + Z'), 1, 1)%R);
   (7, (0, 1, cross (i + Y) (i + Y + Z'))%R);
   (8, (0, cross i (i + Y), 0)%R);
   (9, (1, cross (i + X) (i + X + Y), 0)%R);
   (10, (1, cross (i + X + Z') (i + X + Y + Z'), 1)%R);
   (11, (0, cross (i + Z') (i + Y + Z'), 1)%R)].
Definition vertPos (i pc : Z) : vec :=
  match fold_left (fun v (kd : Z * vec) => if negb (Z.land pc (EDGE (fst kd)) =? 0) then vadd v (snd kd) else v) (vertTerms i) (0, 0, 0)%R with
  | (x, y, z) => (x / popcount pc, y / popcount pc, z / popcount pc)%R
  end.

(** vertexData (position and brightness), vertIndexMap and indicies *)
Record mesh := { vertexData : list (vec * R); vertIndexMap : list (Z * Z); indicies : list Z }.
Definition map_find (k : Z) (m : list (Z * Z)) : option Z := match find (fun e => fst e =? k) m with Some e => Some (snd e) | None => None end.
(** MeshNoisePreview.cpp:770-952 *)
Definition DmcGetVertIndex (cellIndex edge : Z) (vertOffset : vec) (m : mesh) : mesh * Z :=
  let pc := pointCode (cellCode cellIndex) edge in
  let lookup := Z.lor (Z.shiftl cellIndex 12) pc in
  let vertIndex := Z.of_nat (length (vertexData m)) in
  match map_find lookup (vertIndexMap m) with
  | Some found => (m, found)
  | None => ({| vertexData := vertexData m ++ [(vadd (vertPos cellIndex pc) vertOffset, brightness cellIndex pc)];
                vertIndexMap := (lookup, vertIndex) :: vertIndexMap m; indicies := indicies m |}, vertIndex)
  end.
Definition bright (m : mesh) (i : Z) : R := snd (nth (Z.to_nat i) (vertexData m) ((0, 0, 0)%R, 0%R)).
(** MeshNoisePreview.cpp:644-673 and the same lines for y and z: the quad of one edge. [cells] lists, for the four cells around the edge,
    the index, the edge code and the offset. *)
Definition emitQuad (cells : list (Z * Z * vec)) (density densityN : R) (m : mesh) : mesh :=
  if xorb (Rgt_b density isoSurface) (Rgt_b densityN isoSurface) then
    match cells with
    | [(i0, e0, o0); (i1, e1, o1); (i2, e2, o2); (i3, e3, o3)] =>
      let (m, q0) := DmcGetVertIndex i0 e0 o0 m in
      let (m, q1) := DmcGetVertIndex i1 e1 o1 m in
      let (m, q2) := DmcGetVertIndex i2 e2 o2 m in
      let (m, q3) := DmcGetVertIndex i3 e3 o3 m in
      let q (k : nat) := nth k [q0; q1; q2; q3] 0 in
      let triRotation := if Rgt_b (Rabs (bright m q0 - bright m q3)) (Rabs (bright m q1 - bright m q2)) then 2%nat else 0%nat in
      let triFlip := if Rgt_b densityN density then 2%nat else 0%nat in
      {| vertexData := vertexData m; vertIndexMap := vertIndexMap m;
         indicies := indicies m ++ [q triFlip; q (3 - triRotation)%nat; q (2 - triFlip)%nat; q (3 - triFlip)%nat; q triRotation; q (1 + triFlip)%nat] |}
    | _ => m
    end
  else m.
(** MeshNoisePreview.cpp:632-757: one grid point (the body of the three loops) *)
Definition cellStep (x y z : Z) (s : mesh * Z) : mesh * Z :=
  let (m, cellIndex) := s in
  let off (dx dy dz : Z) : vec := (IZR (posx + x) - IZR dx, IZR (posy + y) - IZR dy, IZR (posz + z) - IZR dz)%R in
  let density := densityArray cellIndex in
  let m := emitQuad [(cellIndex, EDGE 0, off 0 0 0); (cellIndex - STEP_Z, EDGE 2, off 0 0 1); (cellIndex - STEP_Y, EDGE 4, off 0 1 0); (cellIndex - STEP_Y - STEP_Z, EDGE 6, off 0 1 1)]
             density (densityArray (cellIndex + STEP_X)) m in
  let m := emitQuad [(cellIndex, EDGE 8, off 0 0 0); (cellIndex - STEP_X, EDGE 9, off 1 0 0); (cellIndex - STEP_Z, EDGE 11, off 0 0 1); (cellIndex - STEP_X - STEP_Z, EDGE 10, off 1 0 1)]
             density (densityArray (cellIndex + STEP_Y)) m in
  let m := emitQuad [(cellIndex, EDGE 3, off 0 0 0); (cellIndex - STEP_Y, EDGE 7, off 0 1 0); (cellIndex - STEP_X, EDGE 1, off 1 0 0); (cellIndex - STEP_X - STEP_Y, EDGE 5, off 1 1 0)]
             density (densityArray (cellIndex + STEP_Z)) m in
  (m, cellIndex + STEP_X).
(** MeshNoisePreview.cpp:628-765: the loops, with the running [cellIndex] *)
Definition rowLoop (y z : Z) (s : mesh * Z) : mesh * Z :=
  let (m, i) := fold_left (fun s x => cellStep x y z s) (zrange 0 SIZE) s in (m, i + STEP_X * (SIZE_GEN - SIZE)).
Definition planeLoop (z : Z) (s : mesh * Z) : mesh * Z :=
  let (m, i) := fold_left (fun s y => rowLoop y z s) (zrange 0 SIZE) s in (m, i + STEP_Y * (SIZE_GEN - SIZE)).
(** MeshNoisePreview.cpp:592-768. [minMax] is what the generation call returned, [calc] is FASTNOISE_CALC_MIN_MAX. *)
Definition BuildDmc3DMesh (calc : bool) (minMax : R * R) : mesh :=
  let empty := {| vertexData := []; vertIndexMap := []; indicies := [] |} in
  if calc && (Rgt_b (fst minMax) isoSurface || Rgt_b isoSurface (snd minMax)) then empty
  else fst (fold_left (fun s z => planeLoop z s) (zrange 0 SIZE) (empty, (STEP_X + STEP_Y + STEP_Z) * 2)).

(** The array elements read: MeshNoisePreview.cpp:640-690 (the neighbours of the grid point), 774-790 and 811-887 (the corners of the
    cell), 889-944 (the derivative: [dx], [dy], [dz] are the offsets 0 or one step, from rounding the position). *)
Definition corner_reads (i : Z) : list Z :=
  [i; i + STEP_X; i + STEP_Y; i + STEP_X + STEP_Y; i + STEP_Z; i + STEP_X + STEP_Z; i + STEP_Y + STEP_Z; i + STEP_X + STEP_Y + STEP_Z].
Definition deriv_reads (i : Z) (bx by_ bz : bool) : list Z :=
  let dx := if bx then STEP_X else 0 in let dy := if by_ then STEP_Y else 0 in let dz := if bz then STEP_Z else 0 in
  flat_map (fun j => [j + dx - STEP_X; j + dx; j + dx + STEP_X]) [i; i + STEP_Y; i + STEP_Z; i + STEP_Y + STEP_Z] ++
  flat_map (fun j => [j + dy - STEP_Y; j + dy; j + dy + STEP_Y]) [i; i + STEP_X; i + STEP_Z; i + STEP_X + STEP_Z] ++
  flat_map (fun j => [j + dz - STEP_Z; j + dz; j + dz + STEP_Z]) [i; i + STEP_X; i + STEP_Y; i + STEP_X + STEP_Y].
End Mesh.
