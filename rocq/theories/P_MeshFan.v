(** C70, continued: the polygons at a vertex of the 3D preview mesh form one connected piece of surface. *)
From Coq Require Import Reals ZArith List Bool Lia Lra Relations.
From Verif Require Import Mesh_Spec Mesh_Model Mesh_Local P_MeshClosed P_MeshVertex.
Import ListNotations.
Open Scope Z_scope.

(** two crossing edges around the cell [q] whose polygons share the vertex at [q] and the vertex at a second cell: they share a side there *)
Definition linked (F : point -> R) (iso : R) (q : point) (e e' : axis * point) : Prop :=
  crossing F iso e = true /\ crossing F iso e' = true /\ In q (around e) /\ In q (around e') /\ vertexAt F iso e q = vertexAt F iso e' q /\
  exists q2, q2 <> q /\ In q2 (around e) /\ In q2 (around e') /\ vertexAt F iso e q2 = vertexAt F iso e' q2.

(** ** the table *)
Definition sigma (l : list bool) (n : axis) (low : bool) : list bool := map (fun j => nth (cornerIx n low j) l false) [0; 1; 2; 3]%nat.
Definition eno (n : axis) (low : bool) (j : nat) : Z := edgeNo (faceEdge n (0, 0, 0) j) (cellOf n low (0, 0, 0)).
Definition links (l : list bool) : list (Z * Z) :=
  flat_map (fun n => flat_map (fun low => flat_map (fun j => let s := sigma l n low in if faceCrossing s j then [(eno n low j, eno n low (partnerEdge s j))] else []) [0; 1; 2; 3]%nat) [true; false]) axes.
Fixpoint reach (ls : list (Z * Z)) (n : nat) (S : Z) : Z :=
  match n with O => S | S n => reach ls n (fold_left (fun S ab => if Z.testbit S (fst ab) then Z.lor S (EDGE (snd ab)) else S) ls S) end.
Definition fan_check (l : list bool) : bool :=
  let ls := links l in
  forallb (fun k => let pc := pointCode (code8 l) (EDGE (Z.of_nat k)) in
    implb (edgeX l k) (reach ls 6 (EDGE (Z.of_nat k)) =? pc)) twelve.
Lemma fan_ok : allb 8 fan_check = true.
Proof. vm_compute. reflexivity. Qed.

Lemma edge_bit : forall b i, 0 <= b -> Z.testbit (EDGE b) i = (b =? i).
Proof. intros. unfold EDGE. rewrite Z.shiftl_1_l. apply Z.pow2_bits_eqb. exact H. Qed.
Lemma reach_sound : forall ls n S b, (forall a b, In (a, b) ls -> 0 <= b) -> Z.testbit (reach ls n S) b = true ->
  exists a, Z.testbit S a = true /\ clos_refl_trans Z (fun a b => In (a, b) ls) a b.
Proof.
  intros ls n. induction n; intros S b P H; [exists b; split; [exact H|apply rt_refl]|]. cbn [reach] in H. apply IHn in H as (a & H & C); [|exact P].
  assert (G : forall l S, (forall x, In x l -> In x ls) -> Z.testbit (fold_left (fun S ab => if Z.testbit S (fst ab) then Z.lor S (EDGE (snd ab)) else S) l S) a = true ->
    exists a0, Z.testbit S a0 = true /\ clos_refl_trans Z (fun a b => In (a, b) ls) a0 a).
  { clear S H. induction l as [|[u v] l IHl]; intros S I H; [exists a; split; [exact H|apply rt_refl]|]. cbn [fold_left fst snd] in H. apply IHl in H as (a0 & H & C0); [|intros; apply I; right; assumption].
    destruct (Z.testbit S u) eqn:B; [|exists a0; auto]. rewrite Z.lor_spec in H. apply orb_prop in H as [H|H]; [exists a0; auto|].
    assert (V : 0 <= v) by (apply (P u); apply I; left; reflexivity). rewrite edge_bit in H by exact V. apply Z.eqb_eq in H. subst a0.
    exists u. split; [exact B|]. eapply rt_trans; [apply rt_step; apply I; left; reflexivity|exact C0]. }
  destruct (G ls S (fun x h => h) H) as (a0 & H0 & C0). exists a0. split; [exact H0|]. eapply rt_trans; eauto.
Qed.
(** ** back to edges *)
Lemma face_around : forall n low p j, (j < 4)%nat -> In (cellOf n low p) (around (faceEdge n p j)).
Proof.
  intros n low [[x y] z] j H. destruct n, low, j as [|[|[|[|j]]]]; try lia; cbn; repeat match goal with |- _ \/ _ => first [left; repeat (f_equal; try lia); fail|right] end; try (left; repeat f_equal; lia); auto.
Qed.
Lemma cell_face : forall n (low : bool) q, exists p, cellOf n low p = q.
Proof. intros n low [[x y] z]. exists (if low then move n 1 (x, y, z) else (x, y, z)). destruct n, low; cbn; repeat f_equal; lia. Qed.
Lemma other_cell : forall n low p, cellOf n (negb low) p <> cellOf n low p.
Proof. intros n low [[x y] z] H. destruct n, low; cbn in H; injection H; intros; lia. Qed.
Lemma link_linked : forall F iso q a b, In (a, b) (links (corners F iso q)) -> exists e1 e2, linked F iso q e1 e2 /\ edgeNo e1 q = a /\ edgeNo e2 q = b.
Proof.
  intros F iso q a b H. unfold links in H. apply in_flat_map in H as (n & _ & H). apply in_flat_map in H as (low & _ & H). apply in_flat_map in H as (j & Hj & H). cbv zeta in H.
  assert (Lj : (j < 4)%nat) by (cbn in Hj; lia). clear Hj. destruct (cell_face n low q) as [p Ep].
  assert (ES : sigma (corners F iso q) n low = faceSigns F iso n p) by (unfold sigma; rewrite <- Ep; symmetry; apply faceSigns_cell). rewrite ES in H. clear ES.
  destruct (faceCrossing (faceSigns F iso n p) j) eqn:C; [|destruct H]. destruct H as [H|[]]. injection H as <- <-.
  destruct (partner_facts (faceSigns F iso n p) j eq_refl Lj C) as (Lj' & C' & _ & _ & _). set (j' := partnerEdge (faceSigns F iso n p) j) in *.
  exists (faceEdge n p j), (faceEdge n p j'). rewrite <- Ep. split; [|unfold eno; rewrite <- (edgeNo_shift n low p j), <- (edgeNo_shift n low p j'); split; reflexivity].
  split; [rewrite crossing_face by exact Lj; exact C|]. split; [rewrite crossing_face by exact Lj'; exact C'|]. split; [apply face_around; exact Lj|]. split; [apply face_around; exact Lj'|].
  split; [symmetry; exact (same_vertex F iso n low p j Lj C)|]. exists (cellOf n (negb low) p). split; [apply other_cell|]. split; [apply face_around; exact Lj|]. split; [apply face_around; exact Lj'|].
  symmetry. exact (same_vertex F iso n (negb low) p j Lj C).
Qed.
(** C70: any two polygons with the same vertex of a cell are joined by a chain of polygons with that vertex, each sharing a side at the vertex
    with the next: no vertex holds two separate pieces of surface together. *)
Theorem C70_one_fan : forall F iso q e e', crossing F iso e = true -> crossing F iso e' = true -> In q (around e) -> In q (around e') ->
  vertexAt F iso e q = vertexAt F iso e' q -> clos_refl_trans (axis * point) (linked F iso q) e e'.
Proof.
  intros F iso q e e' C C' A A' V. destruct (around_edge e q A) as (k & Hk & Ek & Nk), (around_edge e' q A') as (k' & Hk' & Ek' & Nk').
  pose proof (allb_spec 8 _ fan_ok (corners F iso q) eq_refl) as T. unfold fan_check in T. cbv zeta in T. rewrite forallb_forall in T.
  pose proof (T k ltac:(apply in_seq; lia)) as Tk. rewrite <- cellEdges_cross, Ek, C in Tk by exact Hk. cbn [implb] in Tk. apply Z.eqb_eq in Tk.
  pose proof (allb_spec 8 _ vertex_ok (corners F iso q) eq_refl) as W. unfold vertex_check in W. rewrite forallb_forall in W.
  specialize (W k' ltac:(apply in_seq; lia)). cbv zeta in W. rewrite <- cellEdges_cross, Ek', C' in W by exact Hk'. cbn [implb] in W. do 4 (apply andb_prop in W as [W _]).
  unfold vertexAt, cellCodeAt in V. rewrite Nk, Nk' in V. apply (f_equal snd) in V. cbn [snd] in V. rewrite <- V, <- Tk in W. clear T Tk V.
  assert (P : forall a b, In (a, b) (links (corners F iso q)) -> 0 <= b).
  { intros a b H. apply link_linked in H as (e1 & e2 & L & _ & <-). destruct L as (_ & _ & _ & L & _). destruct (around_edge e2 q L) as (k2 & _ & _ & ->). lia. }
  apply reach_sound in W as (a & Ha & R); [|exact P]. rewrite edge_bit in Ha by lia. apply Z.eqb_eq in Ha. subst a.
  assert (U : forall e1 e2, In q (around e1) -> In q (around e2) -> edgeNo e1 q = edgeNo e2 q -> e1 = e2).
  { intros e1 e2 H1 H2 E. destruct (around_edge e1 q H1) as (k1 & _ & E1 & N1), (around_edge e2 q H2) as (k2 & _ & E2 & N2). rewrite <- E1, <- E2. f_equal. lia. }
  assert (G : forall a b, clos_refl_trans Z (fun a b => In (a, b) (links (corners F iso q))) a b -> forall e1, edgeNo e1 q = a -> In q (around e1) ->
    forall e2, edgeNo e2 q = b -> In q (around e2) -> clos_refl_trans (axis * point) (linked F iso q) e1 e2).
  { clear - U. intros a b R. apply clos_rt_rt1n in R. induction R as [a|a c b L R IH]; intros e1 N1 A1 e2 N2 A2.
    - rewrite (U e1 e2) by congruence. apply rt_refl.
    - apply link_linked in L as (u & v & L & Nu & Nv). pose proof L as (_ & _ & Au & Av & _). rewrite (U e1 u) by congruence. eapply rt_trans; [apply rt_step; exact L|]. apply IH; auto. }
  apply (G _ _ R); auto.
Qed.
Print Assumptions C70_one_fan.
(** a concrete case: in the plane z = 1/2 the cell at the origin has one vertex, shared by the polygons of two of its edges *)
Example C70_fan_case : let F (p : point) := match p with (_, _, z) => IZR z end in let e := (AZ, (0, 0, 0)) in let e' := (AZ, (1, 1, 0)) in
  crossing F (1/2)%R e = true /\ crossing F (1/2)%R e' = true /\ In (0, 0, 0) (around e) /\ In (0, 0, 0) (around e') /\ vertexAt F (1/2)%R e (0, 0, 0) = vertexAt F (1/2)%R e' (0, 0, 0).
Proof.
  assert (H0 : Rgt_b 0 (1/2) = false) by (unfold Rgt_b; destruct (Rlt_dec (1/2) 0); [exfalso; lra|reflexivity]).
  assert (H1 : Rgt_b 1 (1/2) = true) by (unfold Rgt_b; destruct (Rlt_dec (1/2) 1); [reflexivity|exfalso; lra]).
  intros F e e'. assert (S : corners F (1/2)%R (0, 0, 0) = [false; false; false; false; true; true; true; true]).
  { change (corners F (1/2)%R (0, 0, 0)) with [Rgt_b 0 (1/2); Rgt_b 0 (1/2); Rgt_b 0 (1/2); Rgt_b 0 (1/2); Rgt_b 1 (1/2); Rgt_b 1 (1/2); Rgt_b 1 (1/2); Rgt_b 1 (1/2)]. rewrite H0, H1. reflexivity. }
  split; [change (xorb (Rgt_b 0 (1/2)) (Rgt_b 1 (1/2)) = true); rewrite H0, H1; reflexivity|].
  split; [change (xorb (Rgt_b 0 (1/2)) (Rgt_b 1 (1/2)) = true); rewrite H0, H1; reflexivity|].
  split; [cbn; auto|]. split; [cbn; auto|]. unfold vertexAt, cellCodeAt. rewrite S. reflexivity.
Qed.
