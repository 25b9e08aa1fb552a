(** Independent vocabulary for properties of node graphs: reachability,
    acyclicity, completeness, type correctness, isomorphism. Nothing here mentions
    the byte format or the (de)serialiser. *)
From Coq Require Import ZArith List Bool.
From Verif Require Import Registry_Model NodeTree_Model.
Import ListNotations.
Open Scope Z_scope.

(** node [m] uses node [c] as a source or hybrid source *)
Definition link (h : heap) (m c : nat) : Prop :=
  exists nd, nth_error h m = Some nd /\
    (In (Some c) (nd_lookups nd) \/ exists v, In (Some c, v) (nd_hybrids nd)).

Inductive reach (h : heap) (m : nat) : nat -> Prop :=
| reach_refl : reach h m m
| reach_step : forall c x, link h m c -> reach h c x -> reach h m x.

(** no reachable node uses itself directly or indirectly *)
Definition acyclic_from (h : heap) (root : nat) : Prop :=
  forall m c, reach h root m -> link h m c -> ~ reach h c m.

(** no dangling pointers: every node reachable from [root] exists and its metadata
    pointer, if any, points to a registered type *)
Definition closed_from (reg : list node_type) (h : heap) (root : nat) : Prop :=
  forall m, reach h root m -> exists nd, nth_error h m = Some nd /\
    forall id, nd_meta nd = Some id -> (id < length reg)%nat.

(** node [nd] has a type, the member counts of its type, and all sources set *)
Definition complete_node (reg : list node_type) (nd : node_data) : Prop :=
  exists id t, nd_meta nd = Some id /\ nth_error reg id = Some t /\
    length (nd_vars nd) = length (t_vars t) /\
    length (nd_lookups nd) = length (t_lookups t) /\
    length (nd_hybrids nd) = length (t_hybrids t) /\
    ~ In None (nd_lookups nd).

(** every value stored in the node is a 32-bit pattern *)
Definition is_u32 (v : Z) : Prop := 0 <= v < 2^32.
Definition values_ok (nd : node_data) : Prop :=
  Forall is_u32 (nd_vars nd) /\ Forall (fun p => is_u32 (snd p)) (nd_hybrids nd).

(** a graph a user may save *)
Definition valid_graph (reg : list node_type) (h : heap) (root : nat) : Prop :=
  acyclic_from h root /\
  forall m, reach h root m -> exists nd, nth_error h m = Some nd /\ complete_node reg nd /\ values_ok nd.

(** the sources connected to the lookups of [nd] have accepted types *)
Definition type_correct (reg : list node_type) (h : heap) (nd : node_data) : Prop :=
  forall id t i l c cd cid ct,
    nd_meta nd = Some id -> nth_error reg id = Some t ->
    nth_error (t_lookups t) i = Some l -> nth_error (nd_lookups nd) i = Some (Some c) ->
    nth_error h c = Some cd -> nd_meta cd = Some cid -> nth_error reg cid = Some ct ->
    l_warp l = true -> t_warp ct = true.

Definition typed_from (reg : list node_type) (h : heap) (root : nat) : Prop :=
  forall m nd, reach h root m -> nth_error h m = Some nd -> type_correct reg h nd.

(** two 32-bit patterns denoting the same float (the zeros are identified) *)
Definition same_float (a b : Z) : Prop := a = b \/ (a mod 2^31 = 0 /\ b mod 2^31 = 0).

(** [b] is the copy of [a] under the renaming [f] of nodes; the number stored in a
    hybrid counts only while no node is connected to it *)
Definition same_hybrid (f : nat -> nat) (p q : option nat * Z) : Prop :=
  match fst p with
  | Some c => fst q = Some (f c)
  | None => fst q = None /\ same_float (snd p) (snd q)
  end.
Definition same_node (f : nat -> nat) (a b : node_data) : Prop :=
  nd_meta b = nd_meta a /\ nd_vars b = nd_vars a /\
  nd_lookups b = map (option_map f) (nd_lookups a) /\
  Forall2 (same_hybrid f) (nd_hybrids a) (nd_hybrids b).

(** the graphs reachable from the two roots are the same up to renaming; sharing is
    preserved because the renaming is injective *)
Definition isomorphic (h : heap) (root : nat) (h' : heap) (root' : nat) : Prop :=
  exists f : nat -> nat,
    f root = root' /\
    (forall m, reach h root m -> exists a b, nth_error h m = Some a /\ nth_error h' (f m) = Some b /\ same_node f a b) /\
    (forall m1 m2, reach h root m1 -> reach h root m2 -> f m1 = f m2 -> m1 = m2).

(** [l] enumerates the distinct nodes reachable from [root] *)
Definition reachable_nodes (h : heap) (root : nat) (l : list nat) : Prop :=
  NoDup l /\ forall m, In m l <-> reach h root m.

(** the limits of the format every registry must respect (C15 shows the shipped one
    does): ids below the reserved 255, member positions in 5 bits *)
Definition registry_fits (reg : list node_type) : Prop :=
  (length reg <= 255)%nat /\
  Forall (fun t => (length (t_vars t) <= 32)%nat /\ (length (t_lookups t) <= 31)%nat /\ (length (t_hybrids t) <= 32)%nat) reg.

(** [h'] is [h] with some connections removed and nothing else changed *)
Definition only_disconnects (h h' : heap) : Prop :=
  length h' = length h /\
  forall m a, nth_error h m = Some a -> exists b, nth_error h' m = Some b /\
    nd_meta b = nd_meta a /\ nd_vars b = nd_vars a /\
    length (nd_lookups b) = length (nd_lookups a) /\ length (nd_hybrids b) = length (nd_hybrids a) /\
    (forall i p, nth_error (nd_lookups a) i = Some p -> nth_error (nd_lookups b) i = Some p \/ nth_error (nd_lookups b) i = Some None) /\
    (forall i p v, nth_error (nd_hybrids a) i = Some (p, v) -> nth_error (nd_hybrids b) i = Some (p, v) \/ nth_error (nd_hybrids b) i = Some (None, v)).

(** node [b] of reader type [t2] carries what node [a] of writer type [t1] held, where
    the two types have possibly different member lists; [f] renames nodes *)
Record carries (f : nat -> nat) (t1 t2 : node_type) (a b : node_data) : Prop := {
  ca_type : nd_meta b = nd_meta a;
  ca_counts : length (nd_vars b) = length (t_vars t2) /\ length (nd_lookups b) = length (t_lookups t2) /\ length (nd_hybrids b) = length (t_hybrids t2);
  (* a member both sides know, with the same default, has the written value *)
  ca_var : forall i d1 d2 v, nth_error (t_vars t1) i = Some d1 -> nth_error (t_vars t2) i = Some d2 ->
    v_default d1 = v_default d2 -> nth_error (nd_vars a) i = Some v -> nth_error (nd_vars b) i = Some v;
  (* even if the defaults differ, any value other than the writer's default arrives *)
  ca_var_nd : forall i d1 d2 v, nth_error (t_vars t1) i = Some d1 -> nth_error (t_vars t2) i = Some d2 ->
    v <> v_default d1 -> nth_error (nd_vars a) i = Some v -> nth_error (nd_vars b) i = Some v;
  ca_lookup : forall i c, (i < length (t_lookups t2))%nat -> nth_error (nd_lookups a) i = Some (Some c) ->
    nth_error (nd_lookups b) i = Some (Some (f c));
  ca_hybrid_node : forall i d2 c v, nth_error (t_hybrids t2) i = Some d2 -> nth_error (nd_hybrids a) i = Some (Some c, v) ->
    exists w, nth_error (nd_hybrids b) i = Some (Some (f c), w);
  ca_hybrid_val : forall i d1 d2 v, nth_error (t_hybrids t1) i = Some d1 -> nth_error (t_hybrids t2) i = Some d2 ->
    h_default d1 = h_default d2 -> nth_error (nd_hybrids a) i = Some (None, v) ->
    exists w, nth_error (nd_hybrids b) i = Some (None, w) /\ same_float v w;
  (* members only the reader knows keep the reader's defaults *)
  ca_var_new : forall i d2, nth_error (t_vars t1) i = None -> nth_error (t_vars t2) i = Some d2 -> nth_error (nd_vars b) i = Some (v_default d2);
  ca_lookup_new : forall i, (length (t_lookups t1) <= i < length (t_lookups t2))%nat -> nth_error (nd_lookups b) i = Some None;
  ca_hybrid_new : forall i d2, nth_error (t_hybrids t1) i = None -> nth_error (t_hybrids t2) i = Some d2 -> nth_error (nd_hybrids b) i = Some (None, h_default d2)
}.
