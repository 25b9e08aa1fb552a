(** The block preview of the node editor: what its mesh should be (C73). Cells are unit cubes named by their least corner; a cell is solid
    when its density is not above the surface value. *)
From Coq Require Import Reals ZArith List Bool Lia Lra.
From Verif Require Import Mesh_Spec.
Import ListNotations.
Open Scope Z_scope.

(** a face of a cell: the axis it is perpendicular to, whether it is the far one, the cell *)
Definition face : Type := (axis * bool * point)%type.
Definition faceCell (f : face) : point := snd f.
Definition neighbour (f : face) : point := match f with (a, far, p) => move a (if far then 1 else -1) p end.
Definition exposed (F : point -> R) (iso : R) (f : face) : bool := negb (above F iso (faceCell f)) && above F iso (neighbour f).
(** the four corners of a face, each a pair of bits (along the next axis and the one after it), in the sense that turns around the outward
    normal (see [outward] in P_Bloxel) *)
Definition faceCycle (f : face) : list (bool * bool) :=
  match f with (_, true, _) => [(false, false); (true, false); (true, true); (false, true)] | (_, false, _) => [(true, false); (false, false); (false, true); (true, true)] end.
Definition bit (b : bool) : Z := if b then 1 else 0.
(** the grid corner of a face *)
Definition corner (f : face) (k : bool * bool) : point :=
  match f with (a, far, p) => move (next a) (bit (fst k)) (move (next (next a)) (bit (snd k)) (move a (bit far) p)) end.
(** how much the corner is occluded, 0 to 3: the solid cells among the three cells that touch the corner in the layer outside of the face,
    next to the neighbour; two solid sides hide the third *)
Definition way (b : bool) : Z := if b then 1 else -1.
Definition occlusion (F : point -> R) (iso : R) (f : face) (k : bool * bool) : Z :=
  match f with (a, _, _) =>
    let n := neighbour f in let solid q := negb (above F iso q) in
    let s1 := solid (move (next a) (way (fst k)) n) in let s2 := solid (move (next (next a)) (way (snd k)) n) in
    let s3 := solid (move (next a) (way (fst k)) (move (next (next a)) (way (snd k)) n)) in
    if s1 && s2 then 3 else bit s1 + bit s2 + bit s3
  end.
(** the light of a face: [facing] depends on the direction only *)
Definition faceLight (F : point -> R) (iso ambient : R) (facing : axis -> bool -> R) (f : face) : R :=
  match f with (a, far, p) => let l := (facing a far - (iso - F p) * 4)%R in Rmax ambient (l * Rabs l) end.
(** the polygon of a face: corners (relative to the grid) and brightness *)
Definition faceQuad (F : point -> R) (iso ambient ao : R) (facing : axis -> bool -> R) (f : face) : list (point * R) :=
  map (fun k => (corner f k, ((1 - IZR (occlusion F iso f k) * (ao / 3)) * faceLight F iso ambient facing f)%R)) (faceCycle f).
(** cells of a chunk in order, and their faces *)
Definition cube_cells (lo n : Z) : list point := flat_map (fun z => flat_map (fun y => map (fun x => (x, y, z)) (zrange lo n)) (zrange lo n)) (zrange lo n).
Definition cell_faces (p : point) : list face := [(AX, true, p); (AX, false, p); (AY, true, p); (AY, false, p); (AZ, true, p); (AZ, false, p)].
Definition height (p : point) : Z := match p with (_, y, _) => y end.
Definition is_least (o : option Z) (l : list Z) : Prop := match o with None => l = [] | Some v => In v l /\ forall w, In w l -> v <= w end.
Definition is_greatest (o : option Z) (l : list Z) : Prop := match o with None => l = [] | Some v => In v l /\ forall w, In w l -> w <= v end.
