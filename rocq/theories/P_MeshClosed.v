(** C70: the surface of the 3D preview has no holes. *)
From Coq Require Import Reals ZArith List Bool Lia Lra.
From Verif Require Import Mesh_Spec Mesh_Model Mesh_Local.
Import ListNotations.
Open Scope Z_scope.

Definition flip (F : point -> R) (iso : R) (p : point) (k : nat) : nat := if above F iso p then k else (3 - k)%nat.
Definition faceOf (a : axis) (p : point) (g : nat) : axis * point :=
  let b := next a in let c := next b in match g with 0%nat => (c, p) | 1%nat => (b, move c (-1) p) | 2%nat => (c, move b (-1) p) | _ => (b, p) end.
Definition partner (F : point -> R) (iso : R) (s : axis * point * nat) : axis * point * nat :=
  match s with ((a, p), k) =>
    let g := flip F iso p k in
    let (n, base) := faceOf a p g in let j := partnerEdge (faceSigns F iso n base) g in
    let (a', p') := faceEdge n base j in ((a', p'), flip F iso p' j)
  end.
Lemma faceOf_edge : forall a p g n base, faceOf a p g = (n, base) -> faceEdge n base g = (a, p).
Proof. intros a [[x y] z] g n base H. destruct a, g as [|[|[|g]]]; cbn in H; injection H as <- <-; cbn; repeat f_equal; lia. Qed.
Lemma edge_faceOf : forall n base j, (j < 4)%nat -> let (a, p) := faceEdge n base j in faceOf a p j = (n, base).
Proof. intros n [[x y] z] j H. destruct n, j as [|[|[|[|j]]]]; cbn; try lia; repeat f_equal; lia. Qed.
Lemma crossing_face : forall F iso n base j, (j < 4)%nat -> crossing F iso (faceEdge n base j) = faceCrossing (faceSigns F iso n base) j.
Proof.
  intros F iso n [[x y] z] j H. unfold crossing, faceCrossing. destruct n, j as [|[|[|[|j]]]]; try lia; cbn; try reflexivity; apply xorb_comm.
Qed.
Lemma flip_flip : forall F iso p k, (k < 4)%nat -> flip F iso p (flip F iso p k) = k.
Proof. intros. unfold flip. destruct (above F iso p); lia. Qed.
Lemma flip_lt : forall F iso p k, (k < 4)%nat -> (flip F iso p k < 4)%nat.
Proof. intros. unfold flip. destruct (above F iso p); lia. Qed.
(** the side across a face runs from the cell above it to the cell below, or back, depending on the sign of the corner *)
Lemma face_side : forall F iso n base j d, (j < 4)%nat -> let e := faceEdge n base j in crossing F iso e = true ->
  side d (quad F iso (vertexAt F iso) e) (flip F iso (snd e) j) =
  if sgn (faceSigns F iso n base) j then (vertexAt F iso e (cellOf n false base), vertexAt F iso e (cellOf n true base))
  else (vertexAt F iso e (cellOf n true base), vertexAt F iso e (cellOf n false base)).
Proof.
  intros F iso n [[x y] z] j d H e C.
  assert (E : forall e a p, e = (a, p) -> quad F iso (vertexAt F iso) e = let b := next a in let c := next b in
    let l := [vertexAt F iso e p; vertexAt F iso e (move c (-1) p); vertexAt F iso e (move b (-1) (move c (-1) p)); vertexAt F iso e (move b (-1) p)] in
    if above F iso p then l else [vertexAt F iso e p; vertexAt F iso e (move b (-1) p); vertexAt F iso e (move b (-1) (move c (-1) p)); vertexAt F iso e (move c (-1) p)]).
  { intros e' a p ->. unfold quad. cbn [snd around map reverse_cycle rev app]. destruct (above F iso p); reflexivity. }
  assert (M : forall a b : Z, a + b + - b = a) by (intros; lia).
  rewrite (E e (fst e) (snd e)) by (destruct e; reflexivity). clear E. unfold flip, crossing in *.
  destruct n, j as [|[|[|[|j]]]]; try lia; subst e; cbn [faceEdge faceSigns map faceCorner next move fst snd cellOf sgn nth Nat.modulo Nat.divmod Nat.sub] in *;
    set (e := (_, _)) in *; destruct (above F iso _); cbn in C |- *; try discriminate C; unfold side; cbn [nth length Nat.modulo Nat.add];
    try (destruct (above F iso _); cbn in C |- *; try discriminate C); cbn; rewrite ?M; reflexivity.
Qed.
(** C70: the sides of the polygons of all crossing edges can be paired: the two sides of a pair are different, join the same two vertices
    in opposite directions, and start at neighbouring grid points. So no side is free (no holes), and both polygons show the same face. *)
Theorem C70_closed_surface : forall (F : point -> R) (iso : R), exists pair : axis * point * nat -> axis * point * nat,
  forall e k d, crossing F iso e = true -> (k < 4)%nat -> let (e', k') := pair (e, k) in
    crossing F iso e' = true /\ (k' < 4)%nat /\ (e', k') <> (e, k) /\ pair (e', k') = (e, k) /\ close (snd e') (snd e) /\
    side d (quad F iso (vertexAt F iso) e') k' = let (u, v) := side d (quad F iso (vertexAt F iso) e) k in (v, u).
Proof.
  intros F iso. exists (partner F iso). intros [a p] k d C Hk. unfold partner at 1.
  set (g := flip F iso p k) in *. assert (Hg : (g < 4)%nat) by (apply flip_lt; auto). assert (Kg : k = flip F iso p g) by (unfold g; rewrite flip_flip; auto).
  destruct (faceOf a p g) as [n base] eqn:Ef. apply faceOf_edge in Ef as Ee.
  assert (C0 : faceCrossing (faceSigns F iso n base) g = true) by (rewrite <- crossing_face by auto; rewrite Ee; exact C).
  destruct (partner_facts (faceSigns F iso n base) g eq_refl Hg C0) as (Hj & C1 & N1 & P1 & S1).
  set (j := partnerEdge (faceSigns F iso n base) g) in *.
  pose proof (edge_faceOf n base j Hj) as E2. rewrite <- crossing_face in C1 by auto.
  pose proof (face_side F iso n base j d Hj C1) as SJ. rewrite <- Ee in C. pose proof (face_side F iso n base g d Hg C) as SG. rewrite Ee in SG. cbn [snd] in SG. rewrite <- Kg in SG.
  pose proof (same_vertex F iso n false base g Hg C0) as VA. pose proof (same_vertex F iso n true base g Hg C0) as VB. cbv zeta in VA, VB. fold j in VA, VB. rewrite Ee in VA, VB.
  rewrite VA, VB, S1 in SJ. rewrite <- Ee.
  assert (CL : close (snd (faceEdge n base j)) (snd (faceEdge n base g))).
  { clear - Hj Hg. destruct base as [[x y] z]. unfold close, adj. destruct n, j as [|[|[|[|j]]]]; try lia; destruct g as [|[|[|[|g]]]]; try lia; cbn; lia. }
  assert (NE : faceEdge n base j <> faceEdge n base g).
  { clear - N1 Hj Hg. destruct base as [[x y] z]. destruct n, j as [|[|[|[|j]]]]; try lia; destruct g as [|[|[|[|g]]]]; try lia; cbn; intros H; try (exact (N1 eq_refl)); injection H; intros; try discriminate; lia. }
  destruct (faceEdge n base j) as [a' p'] eqn:E1. cbn [snd] in *.
  split; [exact C1|]. split; [apply flip_lt; exact Hj|]. split; [intros X; injection X; intros; apply NE; congruence|]. split.
  - unfold partner. rewrite flip_flip by auto. rewrite E2. rewrite P1, Ee. rewrite <- Kg. reflexivity.
  - split; [exact CL|]. rewrite SJ. rewrite Ee. rewrite SG. destruct (sgn (faceSigns F iso n base) g); reflexivity.
Qed.
Print Assumptions C70_closed_surface.
(** a concrete case: the plane z = 1/2 through the grid: the z edge at the origin meets the surface *)
Example C70_case : crossing (fun p => match p with (_, _, z) => IZR z end) (1/2)%R (AZ, (0, 0, 0)) = true /\
  quad (fun p => match p with (_, _, z) => IZR z end) (1/2)%R (fun _ q => q) (AZ, (0, 0, 0)) = [(0, 0, 0); (-1, 0, 0); (-1, -1, 0); (0, -1, 0)].
Proof. unfold crossing, quad, above, Rgt_b. cbn. destruct (Rlt_dec (1/2) 0); [exfalso; lra|]. destruct (Rlt_dec (1/2) 1); [|exfalso; lra]. split; reflexivity. Qed.
