(** The 3D surface preview of the node editor: what its mesh should be (C69-C71).
    Grid points are triples of integers; the density field is any function on them. *)
From Coq Require Import Reals ZArith List Bool Lia Lra.
Import ListNotations.
Open Scope Z_scope.

Definition point : Type := (Z * Z * Z)%type.
Inductive axis : Type := AX | AY | AZ.
(** the cyclic order x, y, z, x *)
Definition next (a : axis) : axis := match a with AX => AY | AY => AZ | AZ => AX end.
(** the point [k] steps along an axis *)
Definition move (a : axis) (k : Z) (p : point) : point :=
  match p, a with (x, y, z), AX => (x + k, y, z) | (x, y, z), AY => (x, y + k, z) | (x, y, z), AZ => (x, y, z + k) end.
Definition adj (i j : Z) : Prop := -1 <= i - j <= 1.
Definition close (p q : point) : Prop := match p, q with (x, y, z), (x', y', z') => adj x x' /\ adj y y' /\ adj z z' end.

(** is the density of a grid point above the surface value? *)
Definition Rgt_b (a b : R) : bool := if Rlt_dec b a then true else false.
Definition above (F : point -> R) (iso : R) (p : point) : bool := Rgt_b (F p) iso.
(** the grid edge from [p] one step along [a] meets the surface *)
Definition crossing (F : point -> R) (iso : R) (e : axis * point) : bool := xorb (above F iso (snd e)) (above F iso (move (fst e) 1 (snd e))).
(** where it meets it, as a part of the edge (linear interpolation) *)
Definition fraction (F : point -> R) (iso : R) (e : axis * point) : R := ((iso - F (snd e)) / (F (move (fst e) 1 (snd e)) - F (snd e)))%R.

(** The unit cell at [q] has the corners [q + (0|1, 0|1, 0|1)] and twelve edges; the four cells around the edge [(a, p)], in a
    circle, are those at [p], [p - c], [p - b - c], [p - b], with [b] and [c] the two other axes. *)
Definition around (e : axis * point) : list point :=
  let (a, p) := e in let b := next a in let c := next b in [p; move c (-1) p; move b (-1) (move c (-1) p); move b (-1) p].
Definition reverse_cycle {A} (l : list A) : list A := match l with x :: r => x :: rev r | [] => [] end.
(** A mesh vertex is named by a cell and a set of edges of the cell. [quad v e] is the polygon of a crossing edge [e], one vertex
    for each cell around it, in a fixed sense around the edge, reversed when the density grows along the edge. *)
Definition quad {V} (F : point -> R) (iso : R) (v : axis * point -> point -> V) (e : axis * point) : list V :=
  let l := map (v e) (around e) in if above F iso (snd e) then l else reverse_cycle l.
(** the k-th side of a polygon, from one vertex to the next *)
Definition side {V} (d : V) (l : list V) (k : nat) : V * V := (nth k l d, nth ((k + 1) mod length l) l d).

(** two triangles, each up to rotation, that split the polygon a b c d along one of its two diagonals *)
Definition rotated {A} (t u : list A) : Prop := match t with [a; b; c] => u = [a; b; c] \/ u = [b; c; a] \/ u = [c; a; b] | _ => False end.
Definition splits {A} (q t1 t2 : list A) : Prop :=
  match q with
  | [a; b; c; d] => (rotated t1 [a; b; c] /\ rotated t2 [c; d; a]) \/ (rotated t1 [c; d; a] /\ rotated t2 [a; b; c]) \/
                    (rotated t1 [a; b; d] /\ rotated t2 [b; c; d]) \/ (rotated t1 [b; c; d] /\ rotated t2 [a; b; d])
  | _ => False
  end.
(** the grid edges that start in a cube of side [n] at [lo], z slowest, x fastest, and for each point the x, y and z edge *)
Definition zrange (lo n : Z) : list Z := map (fun i => lo + Z.of_nat i) (seq 0 (Z.to_nat n)).
Definition cube_edges (lo n : Z) : list (axis * point) :=
  flat_map (fun z => flat_map (fun y => flat_map (fun x => [(AX, (x, y, z)); (AY, (x, y, z)); (AZ, (x, y, z))]) (zrange lo n)) (zrange lo n)) (zrange lo n).
