(** What Simplex and SuperSimplex noise mean (C59-C62), independent of how the code finds the vertices:
    the lattice vertices are the integer points of skewed space; around every vertex there is a bump, the
    vertex' gradient ramp times (r^2 - distance^2)^4 inside the radius r and zero outside, and the noise at
    a position is the sum of the bumps. *)
From Coq Require Import Reals ZArith List Bool Lra.
From Verif Require Import Prelude Simd_Model Utils_Model Simd_R P_Grad P_Lattice Lattice.
Import ListNotations.
Open Scope R_scope.

Definition sum (l : list R) : R := fold_right Rplus 0 l.
(** the skewed coordinates of a position *)
Definition skew (k : R) (pos : list R) : list R := map (fun x => x + k * sum pos) pos.
(** the offset of the position with skewed coordinates [qs] from the vertex [v], in unskewed space *)
Definition offset (u : R) (qs : list R) (v : list Z) : list R := map (fun d => d + u * sum (offs qs v)) (offs qs v).
Definition sqlen (os : list R) : R := sum (map (fun o => o * o) os).
(** (r^2 - distance^2)^4 inside the radius, 0 outside *)
Definition falloff (r2 : R) (os : list R) : R := (Rmax 0 (r2 - sqlen os)) ^ 4.
(** the bump of one vertex *)
Definition bump (r2 u : R) (seed : Z) (qs : list R) (v : list Z) : R :=
  falloff r2 (offset u qs v) * perlin_corner seed v (offset u qs v).
Definition bumps (r2 u : R) (seed : Z) (qs : list R) (L : list (list Z)) : R := sum (map (bump r2 u seed qs) L).
(** [L] lists, once each, all vertices whose bump reaches the position (and possibly others, which add zero) *)
Definition reaching (r2 u : R) (qs : list R) (L : list (list Z)) : Prop :=
  NoDup L /\ (forall v, In v L -> length v = length qs) /\
  forall v, length v = length qs -> sqlen (offset u qs v) < r2 -> In v L.

(** The unskew factors: distances between vertices are then those of the A_n lattice, the triangular lattice
    in 2D. (In 3D the code unskews by -1/2 where the inverse of the skew would be -1/6: the two differ by a
    reflection, which keeps all distances.) *)
Definition unskew (n : nat) : R :=
  match n with 2%nat => - (1) / (sqrt 3 + 3) | 3%nat => - (1) / 2 | _ => - (1) / (sqrt 5 + 5) end.

(** ** The simplices
    The unit cells of skewed space are cut into simplices: a simplex is a path of vertices from one corner of a
    cell to the opposite corner, each step along one axis. *)
Definition along_axis (v w : list Z) : Prop :=
  length w = length v /\ exists i, (i < length v)%nat /\ forall j, nth j w 0%Z = (nth j v 0 + (if Nat.eqb j i then 1 else 0))%Z.
Fixpoint steps (v : list Z) (vs : list (list Z)) : Prop :=
  match vs with [] => True | w :: vs' => along_axis v w /\ steps w vs' end.
Definition is_simplex (vs : list (list Z)) : Prop :=
  match vs with [] => False | v :: vs' => steps v vs' /\ last vs' v = map Z.succ v end.
(** the position is a mean of the vertices with weights [ws] *)
Definition inside (qs : list R) (vs : list (list Z)) : Prop :=
  exists ws, length ws = length vs /\ Forall (fun w => 0 <= w) ws /\ sum ws = 1 /\
    forall j, (j < length qs)%nat -> nth j qs 0 = sum (map (fun wv => fst wv * IZR (nth j (snd wv) 0%Z)) (combine ws vs)).
Definition simplex_around (qs : list R) (vs : list (list Z)) : Prop :=
  is_simplex vs /\ (forall v, In v vs -> length v = length qs) /\ inside qs vs.
