(** Facts about the table of dual marching cubes: they hold for all 256 sign patterns of a cell. *)
From Coq Require Import Reals ZArith List Bool Lia Lra.
From Verif Require Import Mesh_Spec Mesh_Model.
Import ListNotations.
Open Scope Z_scope.

(** corner [k] of the cell at [q], numbered as in DmcTable.inl:29-46 *)
Definition cornerPt (q : point) (k : nat) : point :=
  let k := Z.of_nat k in match q with (x, y, z) => (x + (if Z.testbit k 0 then 1 else 0), y + (if Z.testbit k 1 then 1 else 0), z + (if Z.testbit k 2 then 1 else 0)) end.
(** the number of a cell edge, DmcTable.inl:49-67, from the axis and the position in the cell *)
Definition edgeOff (a : axis) (dx dy dz : Z) : Z :=
  match a with
  | AX => match dy, dz with 0, 0 => 0 | 0, _ => 2 | _, 0 => 4 | _, _ => 6 end
  | AY => match dx, dz with 0, 0 => 8 | 0, _ => 11 | _, 0 => 9 | _, _ => 10 end
  | AZ => match dx, dy with 0, 0 => 3 | 0, _ => 7 | _, 0 => 1 | _, _ => 5 end
  end.
Definition edgeNo (e : axis * point) (q : point) : Z :=
  match e, q with (a, (x, y, z)), (qx, qy, qz) => edgeOff a (x - qx) (y - qy) (z - qz) end.
Definition code8 (l : list bool) : Z := fold_right (fun (b : bool) (n : Z) => (if b then 1 else 0) + 2 * n) 0 l.
Definition corners (F : point -> R) (iso : R) (q : point) : list bool := map (fun k => above F iso (cornerPt q k)) (seq 0 8).
Definition cellCodeAt (F : point -> R) (iso : R) (q : point) : Z := code8 (corners F iso q).
(** the vertex that the cell [q] contributes to the polygon of [e]: the cell and the point code *)
Definition vertexAt (F : point -> R) (iso : R) (e : axis * point) (q : point) : point * Z := (q, pointCode (cellCodeAt F iso q) (EDGE (edgeNo e q))).

(** ** all sign patterns *)
Fixpoint allb (n : nat) (f : list bool -> bool) : bool := match n with O => f [] | S n => allb n (fun l => f (true :: l)) && allb n (fun l => f (false :: l)) end.
Lemma allb_spec : forall n f, allb n f = true -> forall l, length l = n -> f l = true.
Proof.
  induction n; intros f H l L; [destruct l; [exact H|discriminate]|]. cbn in H. apply andb_prop in H as [H1 H2]. destruct l as [|[] l]; [discriminate| |]; injection L as L.
  - apply (IHn _ H1 l L). - apply (IHn _ H2 l L).
Qed.

(** ** faces *)
Definition faceEdge (n : axis) (p : point) (j : nat) : axis * point :=
  let u := next n in let v := next u in match j with 0%nat => (u, p) | 1%nat => (v, move u 1 p) | 2%nat => (u, move v 1 p) | _ => (v, p) end.
Definition faceCorner (n : axis) (p : point) (j : nat) : point :=
  let u := next n in let v := next u in match j with 0%nat => p | 1%nat => move u 1 p | 2%nat => move u 1 (move v 1 p) | _ => move v 1 p end.
Definition sgn (s : list bool) (j : nat) : bool := nth (j mod 4) s false.
(** the other edge of the face on the same piece of surface: walk along the corners above the surface *)
Definition partnerEdge (s : list bool) (j : nat) : nat :=
  (if sgn s j then if negb (sgn s (j + 3)) then (j + 3) mod 4 else if negb (sgn s (j + 2)) then (j + 2) mod 4 else (j + 1) mod 4
   else if negb (sgn s (j + 2)) then (j + 1) mod 4 else if negb (sgn s (j + 3)) then (j + 2) mod 4 else (j + 3) mod 4)%nat.
Definition faceCrossing (s : list bool) (j : nat) : bool := xorb (sgn s j) (sgn s (j + 1)).
(** the number of a face corner in the cell above ([low]) or below the face *)
Definition cornerIx (n : axis) (low : bool) (j : nat) : nat :=
  let w a := match a with AX => 1 | AY => 2 | AZ => 4 end%nat in let u := w (next n) in let v := w (next (next n)) in
  ((if low then w n else 0) + match j with 0 => 0 | 1 => u | 2 => u + v | _ => v end)%nat.
Definition cellOf (n : axis) (low : bool) (p : point) : point := if low then move n (-1) p else p.
Definition axes : list axis := [AX; AY; AZ].
Definition table_check (l : list bool) : bool :=
  forallb (fun n => forallb (fun low => forallb (fun j =>
    let s := map (fun j => nth (cornerIx n low j) l false) [0; 1; 2; 3]%nat in
    let e j := EDGE (edgeNo (faceEdge n (0, 0, 0) j) (cellOf n low (0, 0, 0))) in
    implb (faceCrossing s j) (pointCode (code8 l) (e j) =? pointCode (code8 l) (e (partnerEdge s j)))) [0; 1; 2; 3]%nat) [true; false]) axes.
Lemma table_ok : allb 8 table_check = true.
Proof. vm_compute. reflexivity. Qed.

Lemma edgeNo_shift : forall n low p j, edgeNo (faceEdge n p j) (cellOf n low p) = edgeNo (faceEdge n (0, 0, 0) j) (cellOf n low (0, 0, 0)).
Proof.
  intros n low [[x y] z] j. destruct n, low, j as [|[|[|j]]]; cbn [faceEdge next move cellOf edgeNo];
  match goal with |- edgeOff _ ?a ?b ?c = edgeOff _ ?a' ?b' ?c' => replace a with a' by lia; replace b with b' by lia; replace c with c' by lia; reflexivity end.
Qed.
Lemma faceCorner_cell : forall n low p j, faceCorner n p j = cornerPt (cellOf n low p) (cornerIx n low j).
Proof. intros n low [[x y] z] j. destruct n, low, j as [|[|[|j]]]; cbn; repeat f_equal; lia. Qed.
Definition faceSigns (F : point -> R) (iso : R) (n : axis) (p : point) : list bool := map (fun j => above F iso (faceCorner n p j)) [0; 1; 2; 3]%nat.
Lemma faceSigns_cell : forall F iso n low p, faceSigns F iso n p = map (fun j => nth (cornerIx n low j) (corners F iso (cellOf n low p)) false) [0; 1; 2; 3]%nat.
Proof. intros. unfold faceSigns. cbn [map]. rewrite !(faceCorner_cell n low p). destruct n, low; reflexivity. Qed.
(** the two cells at a face take the same vertex for an edge of the face and its partner *)
Lemma same_vertex : forall F iso n low p j, (j < 4)%nat -> let s := faceSigns F iso n p in faceCrossing s j = true ->
  vertexAt F iso (faceEdge n p (partnerEdge s j)) (cellOf n low p) = vertexAt F iso (faceEdge n p j) (cellOf n low p).
Proof.
  intros F iso n low p j Hj s C. unfold vertexAt. f_equal. rewrite (edgeNo_shift n low p j), (edgeNo_shift n low p (partnerEdge s j)).
  pose proof (allb_spec 8 _ table_ok (corners F iso (cellOf n low p)) eq_refl) as T. unfold table_check in T.
  rewrite forallb_forall in T. specialize (T n ltac:(destruct n; cbn; tauto)). rewrite forallb_forall in T. specialize (T low ltac:(destruct low; cbn; tauto)).
  rewrite forallb_forall in T. assert (Ij : In j [0; 1; 2; 3]%nat) by (cbn; lia). specialize (T j Ij).
  rewrite <- (faceSigns_cell F iso n low p) in T. fold s in T. rewrite C in T. cbn [implb] in T. apply Z.eqb_eq in T. symmetry. exact T.
Qed.
Lemma sgn_cases : forall P : list bool -> Prop, (forall a b c d, P [a; b; c; d]) -> forall F iso n p, P (faceSigns F iso n p).
Proof. intros. unfold faceSigns. cbn [map]. apply H. Qed.
Lemma partner_facts : forall s j, length s = 4%nat -> (j < 4)%nat -> faceCrossing s j = true -> let j' := partnerEdge s j in
  (j' < 4)%nat /\ faceCrossing s j' = true /\ j' <> j /\ partnerEdge s j' = j /\ sgn s j' = negb (sgn s j).
Proof.
  intros s j L H C j'. destruct s as [|a [|b [|c [|d [|? ?]]]]]; try discriminate L. unfold j'. clear j' L.
  destruct j as [|[|[|[|j]]]]; [..|lia]; destruct a, b, c, d; cbn in C |- *; try discriminate C; repeat split; lia.
Qed.
