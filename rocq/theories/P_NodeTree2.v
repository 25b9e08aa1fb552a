(** Properties C06-C08: loading arbitrary text. *)
From Coq Require Import String.
From Coq Require Import ZArith List Bool Lia ZifyBool ZifyNat.
From Verif Require Import Prelude Registry_Model Base64_Model Base64_Spec Base64_Proofs NodeTree_Model NodeTree_Spec NodeTree_Tokens NodeTree_Ser NodeTree_Des
  NodeTree_Round NodeTree_Round2 NodeTree_Round3 NodeTree_Bytes NodeTree_Main NodeTree_Gen NodeTree_Fix P_NodeTree.
Import ListNotations.
Open Scope Z_scope.

(** type 0 of the registry is a leaf with one variable (the shipped one is Constant) *)
Definition constant_first (reg : list node_type) : Prop :=
  exists t, nth_error reg 0 = Some t /\ length (t_vars t) = 1%nat /\ t_lookups t = [] /\ t_hybrids t = [].
Example constant_first_shipped : constant_first registry.
Proof. eexists. repeat split. Qed.

(** the text is a C string: no character is the terminator *)
Definition c_string (s : list Z) : Prop := Forall (fun c => c <> 0) s.

Lemma new_from_encoded_inv : forall reg s, constant_first reg -> c_string s -> exists p h,
  new_from_encoded reg s = Ok (p, h) /\ (forall k, p = Some k -> (k < length h)%nat) /\ gheap reg h.
Proof.
  intros reg s (ct & H0 & H1 & H2 & H3) HS. unfold new_from_encoded.
  destruct (decode_total s HS) as (d & -> & _). cbn [bind].
  destruct (gen_total reg d ct H0 (conj H1 (conj H2 H3)) (S (length d)) {| r_pos := 0; r_end := 0 |} {| g_heap := []; g_refs := [] |})
    as (p & r' & g' & -> & (_ & (HG & _) & _ & HK)); [simpl; lia|simpl; lia|split; [intros i nd; destruct i; discriminate|intros x []]|].
  cbn [bind]. exists p, (g_heap g'). auto.
Qed.

Lemma deserialise_inv : forall reg s, c_string s -> exists p h,
  deserialise reg s = Ok (p, h) /\ (forall k, p = Some k -> (k < length h)%nat) /\ heap_inv reg h.
Proof.
  intros reg s HS. unfold deserialise, deserialise_into. destruct (decode_total s HS) as (d & -> & _). cbn [bind].
  destruct (des_total reg d (S (length d)) {| r_pos := 0; r_end := 0 |} []) as (p & r' & out & -> & (_ & HI & _ & HK)); [simpl; lia|simpl; lia|intros i nd; destruct i; discriminate|].
  cbn [bind]. exists p, out. auto.
Qed.

(** ** C06: loading any string is total: no undefined behaviour (out-of-bounds read of
    the bytes, the registry, the member arrays or the table of decoded nodes), no
    divergence, and the result is null or an existing node *)
Theorem C06_load_total : forall reg s, constant_first reg -> c_string s ->
  (exists p h, new_from_encoded reg s = Ok (p, h) /\ (p = None \/ exists k, p = Some k /\ (k < length h)%nat)) /\
  (exists p h, deserialise reg s = Ok (p, h) /\ (p = None \/ exists k, p = Some k /\ (k < length h)%nat)).
Proof.
  intros reg s HC HS. split.
  - destruct (new_from_encoded_inv reg s HC HS) as (p & h & E & HK & _). exists p, h. split; auto. destruct p; eauto.
  - destruct (deserialise_inv reg s HS) as (p & h & E & HK & _). exists p, h. split; auto. destruct p; eauto.
Qed.
Print Assumptions C06_load_total.
(** both outcomes occur *)
Example C06_some : exists k h, new_from_encoded registry (codes "DQkGDA==") = Ok (Some k, h).
Proof. do 2 eexists. vm_compute. reflexivity. Qed.
Example C06_null : exists h, new_from_encoded registry (codes "DQkGDA") = Ok (None, h).
Proof. eexists. vm_compute. reflexivity. Qed.

(** ** C07: loaded graphs are acyclic and type-correct *)

(** every node reachable from [root] exists, has a registered type and the member
    counts of that type *)
Definition well_formed_from (reg : list node_type) (h : heap) (root : nat) : Prop :=
  forall m, reach h root m -> exists nd id t, nth_error h m = Some nd /\ nd_meta nd = Some id /\ nth_error reg id = Some t /\
    length (nd_vars nd) = length (t_vars t) /\ length (nd_lookups nd) = length (t_lookups t) /\ length (nd_hybrids nd) = length (t_hybrids t).

Lemma heap_inv_wf : forall reg h root, heap_inv reg h -> (root < length h)%nat ->
  acyclic_from h root /\ well_formed_from reg h root.
Proof.
  intros reg h root HI Hr. split.
  - apply ordered_acyclic. intros i nd Hn. destruct (HI i nd Hn) as (id & t & _ & _ & _ & _ & _ & A & B). auto.
  - assert (X : forall m, reach h root m -> (m < length h)%nat).
    { intros m Hm. induction Hm; auto. apply IHHm. destruct H as (nd & Hn & Hl). destruct (HI m nd Hn) as (id & t & _ & _ & _ & _ & _ & A & B).
      assert (c < m)%nat by (destruct Hl as [Hl|(v & Hl)]; eauto). lia. }
    intros m Hm. destruct (nth_error h m) as [nd|] eqn:E; [|apply nth_error_None in E; apply X in Hm; lia].
    destruct (HI m nd E) as (id & t & A1 & A2 & A3 & A4 & A5 & _). exists nd, id, t. repeat split; auto.
Qed.

Lemma gheap_inv : forall reg h, gheap reg h -> heap_inv reg h.
Proof. intros reg h H i nd Hn. destruct (H i nd Hn) as (id & t & HN & _). eauto. Qed.

Theorem C07_loaded_graph_acyclic_typed : forall reg s root h, constant_first reg -> c_string s ->
  new_from_encoded reg s = Ok (Some root, h) ->
  acyclic_from h root /\ well_formed_from reg h root /\ typed_from reg h root.
Proof.
  intros reg s root h HC HS E. destruct (new_from_encoded_inv reg s HC HS) as (p & h' & E' & HK & HG).
  rewrite E in E'. injection E' as <- <-. specialize (HK root eq_refl).
  destruct (heap_inv_wf reg h root (gheap_inv _ _ HG) HK) as (A & B). split; auto. split; auto.
  intros m nd Hm Hn id t i l c cd cid ct Q1 Q2 Q3 Q4 Q5 Q6 Q7 Q8.
  destruct (HG m nd Hn) as (id' & t' & (I1 & I2 & _) & HL & _). rewrite Q1 in I1. injection I1 as <-. rewrite Q2 in I2. injection I2 as <-.
  destruct (HL i l c Q3 Q4) as (cd' & cid' & ct' & R1 & R2 & R3 & R4). rewrite Q5 in R1. injection R1 as <-. rewrite Q6 in R2. injection R2 as <-.
  rewrite Q7 in R3. injection R3 as <-. unfold accepts in R4. rewrite Q8 in R4. exact R4.
Qed.
Print Assumptions C07_loaded_graph_acyclic_typed.
Example C07_demo : exists root h, new_from_encoded registry (codes "DQkGDA==") = Ok (Some root, h) /\ acyclic_from h root /\ typed_from registry h root.
Proof.
  destruct C06_some as (k & h & E). exists k, h. split; auto.
  destruct (C07_loaded_graph_acyclic_typed registry (codes "DQkGDA==") k h constant_first_shipped) as (A & _ & B); auto.
  apply Forall_forall. intros c Hc. vm_compute in Hc. lia.
Qed.

(** the node-data reader: acyclic and well-formed *)
Theorem C07_loaded_node_data_acyclic : forall reg s root h, c_string s ->
  deserialise reg s = Ok (Some root, h) -> acyclic_from h root /\ well_formed_from reg h root.
Proof.
  intros reg s root h HS E. destruct (deserialise_inv reg s HS) as (p & h' & E' & HK & HI).
  rewrite E in E'. injection E' as <- <-. apply heap_inv_wf; auto.
Qed.
Print Assumptions C07_loaded_node_data_acyclic.

(** ** C08: completeness of loaded generators. What holds: each node has either all its
    sources or none of them. *)
Theorem C08_sources_all_or_none_partial : forall reg s root h, constant_first reg -> c_string s ->
  new_from_encoded reg s = Ok (Some root, h) ->
  forall m nd, reach h root m -> nth_error h m = Some nd -> ~ In None (nd_lookups nd) \/ (forall p, In p (nd_lookups nd) -> p = None).
Proof.
  intros reg s root h HC HS E m nd Hm Hn. destruct (new_from_encoded_inv reg s HC HS) as (p & h' & E' & HK & HG).
  rewrite E in E'. injection E' as <- <-. destruct (HG m nd Hn) as (id & t & _ & _ & [H|H]); auto.
Qed.
Print Assumptions C08_sources_all_or_none_partial.

(** The full claim is false: "DQQ=" loads as a FractalFBm without a source. *)
Theorem C08_complete_refuted : exists s root h nd, c_string s /\ new_from_encoded registry s = Ok (Some root, h) /\
  nth_error h root = Some nd /\ In None (nd_lookups nd).
Proof.
  exists (codes "DQQ="). do 3 eexists. split; [apply Forall_forall; intros c Hc; vm_compute in Hc; lia|]. split; [vm_compute; reflexivity|]. split; [reflexivity|]. left. reflexivity.
Qed.
Print Assumptions C08_complete_refuted.
