(** Properties C04-C13: saving and loading node graphs. *)
From Coq Require Import String.
From Coq Require Import ZArith List Bool Lia ZifyBool ZifyNat.
From Verif Require Import Prelude Registry_Model Base64_Model Base64_Spec Base64_Proofs NodeTree_Model NodeTree_Spec NodeTree_Tokens NodeTree_Ser NodeTree_Des
  NodeTree_Round NodeTree_Round2 NodeTree_Round3 NodeTree_Bytes NodeTree_Main NodeTree_Gen NodeTree_Fix.
Import ListNotations.
Open Scope Z_scope.

(** ** Facts about the shipped registry *)
Definition fits_b (reg : list node_type) : bool :=
  Nat.leb (length reg) 255 &&
  forallb (fun t => Nat.leb (length (t_vars t)) 32 && Nat.leb (length (t_lookups t)) 31 && Nat.leb (length (t_hybrids t)) 32) reg.
Lemma fits_b_ok : forall reg, fits_b reg = true -> registry_fits reg.
Proof.
  intros reg H. unfold fits_b in H. apply andb_prop in H. destruct H as (H1 & H2). rewrite forallb_forall in H2.
  split; [apply Nat.leb_le; auto|]. apply Forall_forall. intros t Ht. specialize (H2 t Ht).
  apply andb_prop in H2. destruct H2 as (H2 & H3). apply andb_prop in H2. destruct H2 as (H2 & H4).
  apply Nat.leb_le in H2, H3, H4. auto.
Qed.
Lemma registry_fits_shipped : registry_fits registry.
Proof. apply fits_b_ok. vm_compute. reflexivity. Qed.

Lemma reachable_length : forall reg h root ts R' l, Enc reg h [] root ts R' -> reachable_nodes h root l -> length l = length R'.
Proof.
  intros reg h root ts R' l E (HN & Hl). destruct (Enc_reachable _ _ _ _ _ E) as (HN' & HR').
  apply NoDup_same_length; auto. intros x. rewrite Hl, HR'. reflexivity.
Qed.

(** serialising a valid graph succeeds *)
Lemma serialise_valid : forall reg h root fuel, registry_fits reg -> valid_graph reg h root ->
  Z.of_nat (length h) < 2^50 -> (length h < fuel)%nat ->
  exists s ts R', serialise fuel reg h root false = Ok (s, h) /\ Enc reg h [] root ts R' /\ encode (enc 0 ts) = Ok s /\ decode s = Ok (enc 0 ts) /\ s <> [] /\
    (length s <= length (b64_text (enc 0 ts)))%nat.
Proof.
  intros reg h root fuel Hf HV HL Hfu.
  destruct (serialise_plain reg h root fuel Hf (proj1 HV) (valid_closed _ _ _ HV) HL Hfu) as [((x & nd & Hx & Hn & Hc) & _)|H]; auto.
  exfalso. destruct (proj2 HV x Hx) as (nd' & Hn' & Hc' & _). rewrite Hn in Hn'. injection Hn' as <-. auto.
Qed.

(** ** C04: saved node graphs load back identically *)
Theorem C04_save_load_identity : forall reg h root l fuel,
  registry_fits reg -> valid_graph reg h root ->
  reachable_nodes h root l -> Z.of_nat (length l) <= 65536 ->
  Z.of_nat (length h) < 2^50 -> (length h < fuel)%nat ->
  exists s root' h',
    serialise fuel reg h root false = Ok (s, h) /\ s <> [] /\
    deserialise reg s = Ok (Some root', h') /\
    isomorphic h root h' root' /\ length h' = length l.
Proof.
  intros reg h root l fuel Hf HV Hl HN HL Hfu.
  destruct (serialise_valid reg h root fuel Hf HV HL Hfu) as (s & ts & R' & E1 & E & E3 & E4 & E5 & _).
  rewrite (reachable_length _ _ _ _ _ _ E Hl) in *.
  destruct (load_enc reg reg h root ts R' s Hf) as (k & out & D & OM & Hk); eauto using vals_of_valid.
  destruct (outmatch_iso v_default h_default reg h root ts R' out k E OM Hk) as (I & L).
  { intros. apply defaults_used_meta. }
  exists s, k, out. repeat split; auto.
Qed.
Print Assumptions C04_save_load_identity.

(** ** C05: encoded node trees build the intended generator *)

(** the members of the reachable nodes that the format does not store (because they
    have the metadata's default) get that value from a freshly created generator *)
Definition creation_defaults_agree (reg : list node_type) (h : heap) (root : nat) : Prop :=
  forall m a id t, reach h root m -> nth_error h m = Some a -> nd_meta a = Some id -> nth_error reg id = Some t ->
    (forall i d, nth_error (t_vars t) i = Some d -> nth_error (nd_vars a) i = Some (v_default d) -> v_class d = v_default d) /\
    (forall i d, nth_error (t_hybrids t) i = Some d -> h_class d = h_default d).

Theorem C05_generator_from_saved_graph : forall reg h root l fuel,
  registry_fits reg -> valid_graph reg h root -> typed_from reg h root -> creation_defaults_agree reg h root ->
  reachable_nodes h root l -> Z.of_nat (length l) <= 65536 ->
  Z.of_nat (length h) < 2^50 -> (length h < fuel)%nat ->
  exists s root' h',
    serialise fuel reg h root false = Ok (s, h) /\
    new_from_encoded reg s = Ok (Some root', h') /\
    isomorphic h root h' root' /\ length h' = length l.
Proof.
  intros reg h root l fuel Hf HV HT HD Hl HN HL Hfu.
  destruct (serialise_valid reg h root fuel Hf HV HL Hfu) as (s & ts & R' & E1 & E & E3 & E4 & E5 & _).
  rewrite (reachable_length _ _ _ _ _ _ E Hl) in *.
  destruct (build_enc reg reg h root ts R' s Hf) as (k & out & D & OM & Hk); eauto using vals_of_valid, gtyped_of_typed.
  { intros id t1 t2 (H1 & H2). rewrite H1 in H2. injection H2 as <-. lia. }
  destruct (outmatch_iso v_class h_class reg h root ts R' out k E OM Hk) as (I & L).
  { intros m a id t Hm Ha Hid Ht. destruct (HD m a id t Hm Ha Hid Ht) as (D1 & D2). split; auto.
    intros i d v Hi Hv Hneq. rewrite (D2 i d Hi). apply f32_neq_same. auto. }
  exists s, k, out. repeat split; auto.
Qed.
Print Assumptions C05_generator_from_saved_graph.

(** for the shipped registry the creation defaults agree except for the distance
    function of DistanceToPoint (type 5) *)
Definition default_ok_b (t : node_type) : bool :=
  forallb (fun d => Z.eqb (v_class d) (v_default d)) (t_vars t) && forallb (fun d => Z.eqb (h_class d) (h_default d)) (t_hybrids t).
Lemma shipped_defaults : forall id t, nth_error registry id = Some t -> id <> 5%nat ->
  (forall i d, nth_error (t_vars t) i = Some d -> v_class d = v_default d) /\ (forall i d, nth_error (t_hybrids t) i = Some d -> h_class d = h_default d).
Proof.
  assert (H : forallb (fun p => Nat.eqb (fst p) 5 || default_ok_b (snd p)) (combine (seq 0 (length registry)) registry) = true) by (vm_compute; reflexivity).
  intros id t Ht Hne. rewrite forallb_forall in H.
  assert (Hin : In (id, t) (combine (seq 0 (length registry)) registry)).
  { assert (G : forall (r : list node_type) n i x, nth_error r i = Some x -> In ((n + i)%nat, x) (combine (seq n (length r)) r)).
    { induction r as [|y r IH]; intros n [|i] x E; simpl in *; try discriminate.
      - injection E as ->. left. f_equal. lia.
      - right. replace (n + S i)%nat with (S n + i)%nat by lia. apply IH. auto. }
    apply (G registry 0%nat id t Ht). }
  specialize (H _ Hin). simpl in H. apply orb_prop in H. destruct H as [H|H]; [apply Nat.eqb_eq in H; congruence|].
  unfold default_ok_b in H. apply andb_prop in H. destruct H as (H1 & H2). rewrite forallb_forall in H1, H2.
  split; intros i d Hd; apply nth_error_In in Hd; [specialize (H1 d Hd)|specialize (H2 d Hd)]; lia.
Qed.

Lemma shipped_defaults_5 : forall t, nth_error registry 5 = Some t ->
  (forall i d, nth_error (t_vars t) i = Some d -> i = 0%nat /\ v_default d = 0) /\ (forall i d, nth_error (t_hybrids t) i = Some d -> h_class d = h_default d).
Proof.
  intros t Ht. injection Ht as <-. split.
  - intros [|[|i]] d H; try discriminate. injection H as <-. auto.
  - intros i d H. do 5 (destruct i as [|i]; [injection H as <-; reflexivity|]). destruct i; discriminate.
Qed.

Theorem C05_shipped_registry : forall h root l fuel,
  valid_graph registry h root -> typed_from registry h root ->
  (* no reachable DistanceToPoint uses the Euclidean distance function *)
  (forall m a, reach h root m -> nth_error h m = Some a -> nd_meta a = Some 5%nat -> nth_error (nd_vars a) 0 <> Some 0) ->
  reachable_nodes h root l -> Z.of_nat (length l) <= 65536 ->
  Z.of_nat (length h) < 2^50 -> (length h < fuel)%nat ->
  exists s root' h',
    serialise fuel registry h root false = Ok (s, h) /\
    new_from_encoded registry s = Ok (Some root', h') /\
    isomorphic h root h' root' /\ length h' = length l.
Proof.
  intros h root l fuel HV HT H5 Hl HN HL Hfu. apply C05_generator_from_saved_graph; auto using registry_fits_shipped.
  intros m a id t Hm Ha Hid Ht. destruct (Nat.eq_dec id 5) as [->|Hne].
  - destruct (shipped_defaults_5 t Ht) as (D1 & D2). split; auto. intros i d Hi Hv.
    destruct (D1 i d Hi) as (-> & E). rewrite E in Hv. exfalso. eapply H5; eauto.
  - destruct (shipped_defaults id t Ht Hne) as (D1 & D2). split; eauto.
Qed.
Print Assumptions C05_shipped_registry.

(** *** Non-vacuity: a graph with sharing over the shipped registry.
    node 0 = Simplex (Seed Offset 7 etc. are variables), node 1 = FractalFBm of node 0
    with gain from node 0, node 2 = Add(node 1, node 0). *)
Definition mknode (id : nat) (vars : list (nat * Z)) (lks : list (option nat)) (hys : list (nat * (option nat * Z))) : node_data :=
  match nth_error registry id with
  | Some t =>
    {| nd_meta := Some id;
       nd_vars := fold_left (fun l p => upd l (fst p) (snd p)) vars (map v_default (t_vars t));
       nd_lookups := lks;
       nd_hybrids := fold_left (fun l p => upd l (fst p) (snd p)) hys (map (fun d => (None, h_default d)) (t_hybrids t)) |}
  | None => {| nd_meta := None; nd_vars := []; nd_lookups := []; nd_hybrids := [] |}
  end.
Definition demo_graph : heap :=
  [ mknode 6 [(1%nat, 7)] [] [];
    mknode 13 [(0%nat, 5)] [Some 0%nat] [(0%nat, (Some 0%nat, 0))];
    mknode 21 [] [Some 1%nat] [(0%nat, (Some 0%nat, 0))] ].

(** decidable version of [valid_graph] for heaps whose links go to smaller indices *)
Definition node_ok_b (reg : list node_type) (i : nat) (nd : node_data) : bool :=
  match nd_meta nd with
  | None => false
  | Some id =>
    match nth_error reg id with
    | None => false
    | Some t =>
        Nat.eqb (length (nd_vars nd)) (length (t_vars t)) && Nat.eqb (length (nd_lookups nd)) (length (t_lookups t)) &&
        Nat.eqb (length (nd_hybrids nd)) (length (t_hybrids t)) &&
        forallb (fun p => match p with Some c => Nat.ltb c i | None => false end) (nd_lookups nd) &&
        forallb (fun p => match fst p with Some c => Nat.ltb c i | None => true end) (nd_hybrids nd) &&
        forallb (fun v => Z.leb 0 v && Z.ltb v (2^32)) (nd_vars nd) &&
        forallb (fun p => Z.leb 0 (snd p) && Z.ltb (snd p) (2^32)) (nd_hybrids nd)
    end
  end.
Definition graph_ok_b (reg : list node_type) (h : heap) : bool :=
  forallb (fun p => node_ok_b reg (fst p) (snd p)) (combine (seq 0 (length h)) h).

Lemma in_combine_seq : forall A (r : list A) n i x, nth_error r i = Some x -> In ((n + i)%nat, x) (combine (seq n (length r)) r).
Proof.
  intros A. induction r as [|y r IH]; intros n [|i] x E; simpl in *; try discriminate.
  - injection E as ->. left. f_equal. lia.
  - right. replace (n + S i)%nat with (S n + i)%nat by lia. apply IH. auto.
Qed.

Lemma node_ok_spec : forall reg i nd, node_ok_b reg i nd = true ->
  complete_node reg nd /\ values_ok nd /\ (forall c, In (Some c) (nd_lookups nd) -> (c < i)%nat) /\ (forall c v, In (Some c, v) (nd_hybrids nd) -> (c < i)%nat).
Proof.
  intros reg i nd H. unfold node_ok_b in H. destruct (nd_meta nd) as [id|] eqn:E; [|discriminate].
  destruct (nth_error reg id) as [t|] eqn:Et; [|discriminate].
  repeat (apply andb_prop in H; let K := fresh "K" in destruct H as (H & K)).
  rewrite forallb_forall in *. apply Nat.eqb_eq in H, K3, K4. split; [|split; [|split]].
  - exists id, t. repeat split; auto. intros HN. specialize (K2 _ HN). discriminate.
  - split; apply Forall_forall; intros x Hx; [specialize (K0 x Hx)|specialize (K x Hx)]; unfold is_u32; lia.
  - intros c Hc. specialize (K2 _ Hc). simpl in K2. lia.
  - intros c v Hc. specialize (K1 _ Hc). simpl in K1. lia.
Qed.

Lemma graph_ok_spec : forall reg h root, graph_ok_b reg h = true -> (root < length h)%nat ->
  valid_graph reg h root /\ forall m, reach h root m -> (m <= root)%nat.
Proof.
  intros reg h root H Hr. unfold graph_ok_b in H. rewrite forallb_forall in H.
  assert (HI : forall i nd, nth_error h i = Some nd -> node_ok_b reg i nd = true).
  { intros i nd Hn. apply (H (i, nd)). apply (in_combine_seq _ h 0 i nd Hn). }
  assert (L : forall m, reach h root m -> (m <= root)%nat).
  { intros m Hm. induction Hm; auto. destruct H0 as (nd & Hn & Hl). destruct (node_ok_spec reg m nd (HI m nd Hn)) as (_ & _ & A & B).
    assert (c < m)%nat by (destruct Hl as [Hl|(v & Hl)]; eauto). specialize (IHHm ltac:(lia)). lia. }
  split; auto. split.
  - apply ordered_acyclic. intros i nd Hn. destruct (node_ok_spec reg i nd (HI i nd Hn)) as (_ & _ & A & B). auto.
  - intros m Hm. specialize (L m Hm). destruct (nth_error h m) as [nd|] eqn:E.
    + exists nd. split; auto. destruct (node_ok_spec reg m nd (HI m nd E)) as (A & B & _). auto.
    + apply nth_error_None in E. lia.
Qed.

Example demo_valid : valid_graph registry demo_graph 2.
Proof. apply graph_ok_spec; [vm_compute; reflexivity|simpl; lia]. Qed.
Example demo_reachable : reachable_nodes demo_graph 2 [0; 1; 2]%nat.
Proof.
  split; [repeat constructor; simpl; lia|]. intros m. split.
  - intros H. assert (A : reach demo_graph 2 1) by (eapply reach_step; [|constructor]; eexists; split; [reflexivity|]; left; left; reflexivity).
    assert (B : reach demo_graph 2 0) by (eapply reach_step; [|constructor]; eexists; split; [reflexivity|]; right; exists 0; left; reflexivity).
    simpl in H. destruct H as [<-|[<-|[<-|[]]]]; auto. constructor.
  - intros H. apply graph_ok_spec with (reg := registry) in H; [|vm_compute; reflexivity|simpl; lia].
    simpl. lia.
Qed.
Example demo_typed : typed_from registry demo_graph 2.
Proof.
  intros m nd _ Hn id t i l c cd cid ct A B C D E F G W. exfalso.
  do 3 (destruct m as [|m]; [injection Hn as <-; injection A as <-; injection B as <-; destruct i as [|[|i]]; try discriminate; injection C as <-; discriminate|]).
  destruct m; discriminate.
Qed.
(** hence C04 and C05 apply to it, and this is what they promise: *)
Example demo_roundtrip : exists s root' h',
  serialise 10 registry demo_graph 2 false = Ok (s, demo_graph) /\ s <> [] /\ deserialise registry s = Ok (Some root', h') /\
  isomorphic demo_graph 2 h' root' /\ length h' = 3%nat.
Proof.
  apply (C04_save_load_identity registry demo_graph 2 [0; 1; 2]%nat 10);
    auto using registry_fits_shipped, demo_valid, demo_reachable; simpl; lia.
Qed.
Example demo_build : exists s root' h',
  serialise 10 registry demo_graph 2 false = Ok (s, demo_graph) /\ new_from_encoded registry s = Ok (Some root', h') /\
  isomorphic demo_graph 2 h' root' /\ length h' = 3%nat.
Proof.
  apply (C05_shipped_registry demo_graph 2 [0; 1; 2]%nat 10);
    auto using demo_valid, demo_reachable, demo_typed; try (simpl; lia).
  intros m a _ Hn Hm. do 3 (destruct m as [|m]; [injection Hn as <-; discriminate Hm|]). destruct m; discriminate.
Qed.

(** C05 without its last hypothesis is false of the shipped registry: a
    DistanceToPoint node that uses Euclidean distance (the metadata default, hence not
    written) is built with Euclidean Squared (the class initialiser). *)
Definition euclid_graph : heap := [mknode 5 [(0%nat, 0)] [] []].
Theorem C05_unrestricted_refuted : exists h root s root' h',
  valid_graph registry h root /\ typed_from registry h root /\ reachable_nodes h root [root] /\
  (forall fuel, (length h < fuel)%nat -> serialise fuel registry h root false = Ok (s, h)) /\
  new_from_encoded registry s = Ok (Some root', h') /\ ~ isomorphic h root h' root'.
Proof.
  assert (HS : exists s, (forall fuel, (1 < fuel)%nat -> serialise fuel registry euclid_graph 0 false = Ok (s, euclid_graph)) /\
    new_from_encoded registry s = Ok (Some 0%nat, [mknode 5 [(0%nat, 1)] [] []])).
  { eexists. split.
    - intros fuel Hf. do 2 (destruct fuel as [|fuel]; [lia|]). vm_compute. reflexivity.
    - vm_compute. reflexivity. }
  destruct HS as (s & H1 & H2).
  exists euclid_graph, 0%nat, s, 0%nat, [mknode 5 [(0%nat, 1)] [] []]. split; [|split; [|split; [|split; [|split]]]]; auto.
  - apply graph_ok_spec; [vm_compute; reflexivity|simpl; lia].
  - intros m nd _ Hn id t i l c cd cid ct A B C D. exfalso. destruct m as [|[|m]]; try discriminate. injection Hn as <-. injection A as <-. injection B as <-.
    destruct i; discriminate.
  - split; [repeat constructor; auto|]. intros m. split.
    + intros [<-|[]]. constructor.
    + intros H. apply graph_ok_spec with (reg := registry) in H; [|vm_compute; reflexivity|simpl; lia]. left. lia.
  - intros (f & Hf & H & _). destruct (H 0%nat (reach_refl _ _)) as (a & b & Ha & Hb & (_ & Hv & _)).
    rewrite Hf in Hb. injection Ha as <-. injection Hb as <-. discriminate.
Qed.
Print Assumptions C05_unrestricted_refuted.

(** C04 is about an output vector that is empty: appending to a vector that already
    holds nodes resolves shared nodes to the wrong ones. *)
Theorem C04_nonempty_output_refuted : exists h root s old root' h',
  valid_graph registry h root /\
  (forall fuel, (length h < fuel)%nat -> serialise fuel registry h root false = Ok (s, h)) /\
  deserialise_into registry s [old] = Ok (Some root', h') /\ ~ isomorphic h root h' root'.
Proof.
  set (h := [mknode 6 [(1%nat, 7)] [] []; mknode 21 [] [Some 0%nat] [(0%nat, (Some 0%nat, 0))]]).
  assert (HS : exists s h', (forall fuel, (2 < fuel)%nat -> serialise fuel registry h 1 false = Ok (s, h)) /\
    deserialise_into registry s [mknode 0 [] [] []] = Ok (Some 2%nat, h') /\
    nth_error h' 2 = Some (mknode 21 [] [Some 1%nat] [(0%nat, (Some 0%nat, 0))]) /\ nth_error h' 0 = Some (mknode 0 [] [] [])).
  { do 2 eexists. split; [|split; [|split]].
    - intros fuel Hf. do 3 (destruct fuel as [|fuel]; [lia|]). vm_compute. reflexivity.
    - vm_compute. reflexivity.
    - vm_compute. reflexivity.
    - vm_compute. reflexivity. }
  destruct HS as (s & h' & H1 & H2 & H3 & H4).
  exists h, 1%nat, s, (mknode 0 [] [] []), 2%nat, h'. split; [|split; [|split]]; auto.
  - apply graph_ok_spec; [vm_compute; reflexivity|simpl; lia].
  - intros (f & Hf & H & _). destruct (H 1%nat (reach_refl _ _)) as (a & b & Ha & Hb & (_ & _ & Hl & Hh)).
    rewrite Hf, H3 in Hb. injection Hb as <-. injection Ha as <-.
    change (nd_lookups (mknode 21 [] [Some 1%nat] [(0%nat, (Some 0%nat, 0))])) with [Some 1%nat] in Hl.
    change (nd_lookups (mknode 21 [] [Some 0%nat] [(0%nat, (Some 0%nat, 0))])) with [Some 0%nat] in Hl.
    change (nd_hybrids (mknode 21 [] [Some 1%nat] [(0%nat, (Some 0%nat, 0))])) with [(Some 0%nat, 0)] in Hh.
    change (nd_hybrids (mknode 21 [] [Some 0%nat] [(0%nat, (Some 0%nat, 0))])) with [(Some 0%nat, 0)] in Hh.
    simpl in Hl. injection Hl as Hl. inversion Hh as [|? ? ? ? Hs]; subst. unfold same_hybrid in Hs. cbn [fst] in Hs. congruence.
Qed.
Print Assumptions C04_nonempty_output_refuted.
