(** End-to-end facts on serialising and loading node graphs. *)
From Coq Require Import ZArith List Bool Lia ZifyBool ZifyNat.
From Verif Require Import Prelude Registry_Model Base64_Model Base64_Spec Base64_Proofs NodeTree_Model NodeTree_Spec NodeTree_Tokens NodeTree_Ser NodeTree_Des
  NodeTree_Round NodeTree_Round2 NodeTree_Round3 NodeTree_Bytes.
Import ListNotations.
Open Scope Z_scope.

Lemma NoDup_same_length : forall (a b : list nat), NoDup a -> NoDup b -> (forall x, In x a <-> In x b) -> length a = length b.
Proof.
  intros a b Ha Hb H. apply Nat.le_antisymm; apply NoDup_incl_length; auto; intros x Hx; apply H; auto.
Qed.

Lemma valid_closed : forall reg h root, valid_graph reg h root -> closed_from reg h root.
Proof.
  intros reg h root (_ & H) m Hm. destruct (H m Hm) as (nd & Hn & (id & t & Hid & Ht & _) & _).
  exists nd. split; auto. intros id' E. rewrite Hid in E. injection E as <-. apply nth_error_Some. congruence.
Qed.

Definition init_ser (h : heap) : ser_state := {| s_heap := h; s_out := {| w_bytes := []; w_end := 0 |}; s_refs := [] |}.

(** total is bounded by the number of nodes times the registry's largest node *)
Lemma total_bound : forall reg h l, registry_fits reg -> (forall x, In x l -> exists nd, nth_error h x = Some nd /\ complete_node reg nd) ->
  (total h l <= 416 * length l)%nat.
Proof.
  intros reg h l (_ & Hf) H. rewrite Forall_forall in Hf. induction l as [|m l IH]; simpl; [lia|].
  assert (size_at h m <= 416)%nat.
  { destruct (H m (or_introl eq_refl)) as (nd & Hn & (id & t & _ & Ht & L1 & L2 & L3 & _)). unfold size_at. rewrite Hn. unfold node_size.
    rewrite L1, L2, L3. destruct (Hf t) as (F1 & F2 & F3); [eapply nth_error_In; eauto|]. lia. }
  specialize (IH (fun x Hx => H x (or_intror Hx))). lia.
Qed.

Lemma Enc_indices : forall reg h n ts R', Enc reg h [] n ts R' -> (length R' <= length h)%nat.
Proof.
  intros reg h n ts R' E. destruct (proj1 (Enc_NoDup reg h) _ _ _ _ E) as (HN & _); [constructor|].
  rewrite <- (seq_length (length h) 0). apply NoDup_incl_length; auto. intros x Hx.
  destruct (proj1 (Enc_complete reg h) _ _ _ _ E x Hx) as [[]|(nd & Hnd & _)].
  apply in_seq. assert (x < length h)%nat by (apply nth_error_Some; congruence). lia.
Qed.

(** the text of an encoded node list *)
Lemma Enc_text : forall reg h n ts R', registry_fits reg -> Enc reg h [] n ts R' -> Z.of_nat (length R') < 2^50 ->
  exists s, encode (enc 0 ts) = Ok s /\ decode s = Ok (enc 0 ts) /\ s <> [] /\ (length s <= length (b64_text (enc 0 ts)))%nat.
Proof.
  intros reg h n ts R' Hf E HL. destruct (Enc_len reg h n ts R' E) as (L1 & L2).
  assert (B : Forall is_byte (enc 0 ts)) by (apply enc_bytes; [lia|apply (proj1 (Enc_bytes reg h) _ _ _ _ E)]).
  assert (T : (total h R' <= 416 * length R')%nat).
  { apply (total_bound reg); auto. intros x Hx. destruct (proj1 (Enc_complete reg h) _ _ _ _ E x Hx) as [[]|H]; auto. }
  assert (S64 : Z.of_nat (length (enc 0 ts)) < 2^64) by lia.
  destruct (roundtrip_no_zero_run (enc 0 ts) L2 S64 B (Enc_no_run _ _ _ _ _ _ Hf E)) as (s & E1 & E2).
  destruct (encode_charset _ _ L2 S64 B E1) as (body & Es & F & Ls & Hne). exists s. repeat split; auto.
Qed.

(** plain serialisation: fails exactly with an incomplete node, else writes [Enc] *)
Lemma serialise_plain : forall reg h root fuel, registry_fits reg -> acyclic_from h root -> closed_from reg h root ->
  Z.of_nat (length h) < 2^50 -> (length h < fuel)%nat ->
  (exists x nd, reach h root x /\ nth_error h x = Some nd /\ ~ complete_node reg nd) /\ serialise fuel reg h root false = Ok ([], h) \/
  exists s ts R', serialise fuel reg h root false = Ok (s, h) /\ Enc reg h [] root ts R' /\ encode (enc 0 ts) = Ok s /\ decode s = Ok (enc 0 ts) /\ s <> [] /\
    (length s <= length (b64_text (enc 0 ts)))%nat.
Proof.
  intros reg h root fuel Hf Hac Hcl HL Hfu.
  destruct (ser_plain reg h root Hac Hcl fuel [] [] (init_ser h) [] root) as (b & s' & E & Hh & P); auto; [constructor|constructor|intros p []|simpl; lia|].
  unfold serialise. fold (init_ser h). rewrite E. cbn [bind]. destruct b.
    + right. destruct P as (ts & R' & HR & W & En). pose proof (WS_final _ _ (W [] WS_init)) as Hw. simpl in Hw. rewrite Hw.
      pose proof (Enc_indices _ _ _ _ _ En).
      destruct (Enc_text reg h root ts R' Hf En ltac:(lia)) as (s & E1 & E2 & E3 & E4). rewrite E1. cbn [bind]. rewrite Hh.
      exists s, ts, R'. repeat split; auto.
    + left. rewrite Hh. split; auto.
Qed.

(** ** Index of a node in the order of writing *)
Fixpoint index_of (n : nat) (R : list nat) : nat :=
  match R with [] => 0 | x :: R' => if Nat.eqb x n then 0 else S (index_of n R') end.

Lemma index_of_nth : forall R n, In n R -> nth_error R (index_of n R) = Some n.
Proof.
  induction R as [|x R IH]; intros n H; [destruct H|]. simpl. destruct (Nat.eqb_spec x n); [subst; reflexivity|].
  destruct H; [congruence|]. simpl. auto.
Qed.
Lemma index_of_unique : forall R n k, NoDup R -> nth_error R k = Some n -> index_of n R = k.
Proof.
  intros R n k HN H. apply (NoDup_nth_inj _ R _ _ n HN); auto. apply index_of_nth. eapply nth_error_In; eauto.
Qed.

(** ** Node correspondence in the vocabulary of the specification *)
Lemma f32_neq_same : forall v d, f32_neq v d = false -> same_float v d.
Proof.
  intros v d H. unfold f32_neq in H. apply orb_false_elim in H. destruct H as (_ & H).
  destruct (Z.eqb_spec v d); [left; auto|]. simpl in H. destruct (f32_zero v && f32_zero d) eqn:E; [|discriminate].
  apply andb_prop in E. unfold f32_zero in E. right. lia.
Qed.

Lemma nth_error_ext_list : forall A (a b : list A), (forall i, nth_error a i = nth_error b i) -> a = b.
Proof.
  induction a as [|x a IH]; intros [|y b] H; auto; try (specialize (H 0%nat); discriminate).
  pose proof (H 0%nat) as H0. injection H0 as ->. f_equal. apply IH. intros i. apply (H (S i)).
Qed.

Lemma Forall2_nth : forall A B (P : A -> B -> Prop) a b, length a = length b ->
  (forall i x y, nth_error a i = Some x -> nth_error b i = Some y -> P x y) -> Forall2 P a b.
Proof.
  induction a as [|x a IH]; intros [|y b] L H; try discriminate; constructor.
  - apply (H 0%nat); auto.
  - apply IH; auto. intros i. apply (H (S i)).
Qed.

Section Iso.
  Variables (dv : var_decl -> Z) (dh : hybrid_decl -> Z).

  (** same registry: a loaded node is the copy of the original when the reader's
      defaults agree with the metadata defaults on the members that were not
      written *)
  Definition defaults_used (t : node_type) (a : node_data) : Prop :=
    (forall i d, nth_error (t_vars t) i = Some d -> nth_error (nd_vars a) i = Some (v_default d) -> dv d = v_default d) /\
    (forall i d v, nth_error (t_hybrids t) i = Some d -> nth_error (nd_hybrids a) i = Some (None, v) ->
       f32_neq v (h_default d) = false -> same_float v (dh d)).

  Lemma node_match_same : forall R t a b, NoDup R -> node_match dv dh R t t a b ->
    length (nd_vars a) = length (t_vars t) -> length (nd_lookups a) = length (t_lookups t) -> length (nd_hybrids a) = length (t_hybrids t) ->
    defaults_used t a -> same_node (fun n => index_of n R) a b.
  Proof.
    intros R t a b HN [] L1 L2 L3 (D1 & D2). split; auto. split; [|split].
    - apply nth_error_ext_list. intros i. destruct (nth_error (t_vars t) i) as [d|] eqn:E.
      + rewrite (nm_vars i d E). destruct (nth_error (nd_vars a) i) as [v|] eqn:Ev.
        * unfold loaded_var. rewrite E. destruct (Z.eqb_spec v (v_default d)); auto. subst v. rewrite (D1 i d E Ev). reflexivity.
        * apply nth_error_None in Ev. assert (i < length (t_vars t))%nat by (apply nth_error_Some; congruence). lia.
      + apply nth_error_None in E. rewrite !(proj2 (nth_error_None _ _)) by lia. reflexivity.
    - apply nth_error_ext_list. intros i. rewrite nth_error_map. destruct (Nat.lt_ge_cases i (length (t_lookups t))) as [L|L].
      + destruct (nm_lookups i L) as (q & Hq & H). rewrite Hq. destruct (nth_error (nd_lookups a) i) as [p|] eqn:Ep.
        * simpl. destruct p as [c|]; simpl in *; [|subst; reflexivity]. destruct H as (k & -> & Hk). simpl.
          rewrite (index_of_unique R c k HN Hk). reflexivity.
        * apply nth_error_None in Ep. lia.
      + rewrite !(proj2 (nth_error_None _ _)) by lia. reflexivity.
    - apply Forall2_nth; [lia|]. intros i p q Hp Hq. assert (Hi : (i < length (t_hybrids t))%nat).
      { rewrite <- L3. apply nth_error_Some. congruence. }
      destruct (nth_error (t_hybrids t) i) as [d|] eqn:Ed; [|apply nth_error_None in Ed; lia].
      destruct (nm_hybrids i d Ed) as (q' & Hq' & H). rewrite Hq in Hq'. injection Hq' as <-. rewrite Hp, Ed in H.
      unfold loaded_hybrid in H. destruct p as [[c|] v]; unfold same_hybrid; cbn [fst snd].
      + destruct H as (_ & k & -> & Hk). rewrite (index_of_unique R c k HN Hk). reflexivity.
      + rewrite H. cbn [fst snd]. split; auto. destruct (f32_neq v (h_default d)) eqn:E; [left; auto|].
        apply (D2 i d v); auto.
  Qed.

  Lemma outmatch_iso : forall reg h root ts R' out k, Enc reg h [] root ts R' ->
    outmatch reg reg h dv dh R' out -> nth_error R' k = Some root ->
    (forall m a id t, reach h root m -> nth_error h m = Some a -> nd_meta a = Some id -> nth_error reg id = Some t -> defaults_used t a) ->
    isomorphic h root out k /\ length out = length R'.
  Proof.
    intros reg h root ts R' out k E (HL & HO) Hk HD. destruct (Enc_reachable reg h root ts R' E) as (HN & HR).
    split; auto. exists (fun n => index_of n R'). split; [apply index_of_unique; auto|]. split.
    - intros m Hm. pose proof (proj2 (HR m) Hm) as Hin. pose proof (index_of_nth R' m Hin) as Hi.
      destruct (HO _ _ Hi) as (a & b & id & t1 & t2 & Ha & Hid & (Ht1 & Ht2) & Hb & HM). rewrite Ht1 in Ht2. injection Ht2 as <-.
      exists a, b. split; auto. split; auto.
      destruct (proj1 (Enc_complete reg h) _ _ _ _ E m Hin) as [[]|(a' & Ha' & (id' & t' & Hid' & Ht' & L1 & L2 & L3 & _))].
      rewrite Ha in Ha'. injection Ha' as <-. rewrite Hid in Hid'. injection Hid' as <-. rewrite Ht1 in Ht'. injection Ht' as <-.
      eapply node_match_same; eauto.
    - intros m1 m2 H1 H2 Heq. pose proof (index_of_nth R' m1 (proj2 (HR m1) H1)). pose proof (index_of_nth R' m2 (proj2 (HR m2) H2)).
      rewrite Heq in H. congruence.
  Qed.
End Iso.

Lemma defaults_used_meta : forall t a, defaults_used v_default h_default t a.
Proof. intros t a. split; auto. intros i d v _ _ H. apply f32_neq_same; auto. Qed.

Lemma vals_of_valid : forall reg h root ts R', valid_graph reg h root -> Enc reg h [] root ts R' -> vals h R'.
Proof.
  intros reg h root ts R' (_ & HV) E x nd Hx Hn. destruct (Enc_reachable _ _ _ _ _ E) as (_ & HR).
  destruct (HV x (proj1 (HR x) Hx)) as (nd' & Hn' & _ & V). congruence.
Qed.

Lemma outmatch_nil : forall reg1 reg2 h dv dh, outmatch reg1 reg2 h dv dh [] [].
Proof. intros. split; auto. intros [|k] n H; discriminate. Qed.

(** loading [enc 0 ts] *)
Lemma load_enc : forall reg1 reg2 h root ts R' s, registry_fits reg1 ->
  (forall id t1, nth_error reg1 id = Some t1 -> exists t2, nth_error reg2 id = Some t2) ->
  Enc reg1 h [] root ts R' -> Z.of_nat (length R') <= 65536 -> vals h R' -> decode s = Ok (enc 0 ts) ->
  exists k out, deserialise reg2 s = Ok (Some k, out) /\ outmatch reg1 reg2 h v_default h_default R' out /\ nth_error R' k = Some root.
Proof.
  intros reg1 reg2 h root ts R' s Hf Hreg E HL HV Hd. unfold deserialise, deserialise_into. rewrite Hd. cbn [bind].
  destruct (proj1 (des_round reg1 reg2 h (enc 0 ts) Hf Hreg) _ _ _ _ E HL HV (S (length (enc 0 ts))) {| r_pos := 0; r_end := 0 |} [] [])
    as (k & r' & out' & E1 & _ & HO & Hk & _).
  - rewrite app_nil_r. apply RS_init.
  - apply outmatch_nil.
  - simpl. lia.
  - rewrite E1. cbn [bind]. exists k, out'. auto.
Qed.

Lemma build_enc : forall reg1 reg2 h root ts R' s, registry_fits reg1 ->
  (forall id t1, nth_error reg1 id = Some t1 -> exists t2, nth_error reg2 id = Some t2) ->
  (forall id t1 t2, types_of reg1 reg2 id t1 t2 -> (length (t_lookups t2) <= length (t_lookups t1))%nat) ->
  Enc reg1 h [] root ts R' -> Z.of_nat (length R') <= 65536 -> vals h R' -> gtyped reg2 h R' -> decode s = Ok (enc 0 ts) ->
  exists k out, new_from_encoded reg2 s = Ok (Some k, out) /\ outmatch reg1 reg2 h v_class h_class R' out /\ nth_error R' k = Some root.
Proof.
  intros reg1 reg2 h root ts R' s Hf Hreg Hsub E HL HV HT Hd. unfold new_from_encoded. rewrite Hd. cbn [bind].
  destruct (proj1 (gen_round reg1 reg2 h (enc 0 ts) Hf Hreg Hsub) _ _ _ _ E HL HV HT (S (length (enc 0 ts))) {| r_pos := 0; r_end := 0 |} {| g_heap := []; g_refs := [] |} [])
    as (k & r' & g' & E1 & _ & HO & Hk & _).
  - rewrite app_nil_r. apply RS_init.
  - split; [reflexivity|apply outmatch_nil].
  - simpl. lia.
  - rewrite E1. cbn [bind]. exists k, (g_heap g'). destruct HO. auto.
Qed.

Lemma gtyped_of_typed : forall reg h root ts R', typed_from reg h root -> Enc reg h [] root ts R' -> gtyped reg h R'.
Proof.
  intros reg h root ts R' HT E x nd id t2 Hx Hn Hid Ht j p Hp l c cd cid ct2 Hl -> Hc Hcid Hct.
  destruct (Enc_reachable _ _ _ _ _ E) as (_ & HR). unfold accepts.
  destruct (l_warp l) eqn:El; auto. simpl.
  apply (HT x nd (proj1 (HR x) Hx) Hn id t2 j l c cd cid ct2); auto.
Qed.

(** ** Transport along a renaming *)
Section Transport.
  Variable reg : list node_type.
  Variables h h2 : heap.
  Variable f : nat -> nat.

  Inductive hsame : list (option nat * Z) -> list hybrid_decl -> list (option nat * Z) -> Prop :=
  | hsame_nil : hsame [] [] []
  | hsame_val : forall v w d ps ds qs, f32_neq w (h_default d) = f32_neq v (h_default d) ->
      (f32_neq v (h_default d) = true -> w = v) -> hsame ps ds qs -> hsame ((None, v) :: ps) (d :: ds) ((None, w) :: qs)
  | hsame_node : forall c v w d ps ds qs, hsame ps ds qs -> hsame ((Some c, v) :: ps) (d :: ds) ((Some (f c), w) :: qs).

  Definition esame (a b : node_data) : Prop :=
    nd_meta b = nd_meta a /\ nd_vars b = nd_vars a /\ nd_lookups b = map (option_map f) (nd_lookups a) /\
    forall id t, nd_meta a = Some id -> nth_error reg id = Some t -> hsame (nd_hybrids a) (t_hybrids t) (nd_hybrids b).

  Definition okmap (R' : list nat) : Prop :=
    (forall x a, In x R' -> nth_error h x = Some a -> exists b, nth_error h2 (f x) = Some b /\ esame a b) /\
    (forall x y, In x R' -> In y R' -> f x = f y -> x = y).

  Lemma okmap_app : forall R N, okmap (R ++ N) -> okmap R.
  Proof. intros R N (A & B). split; intros; [eapply A; eauto|eapply B; eauto]; rewrite in_app_iff; auto. Qed.

  Lemma hsame_length : forall ps ds qs, hsame ps ds qs -> length qs = length ps.
  Proof. intros ps ds qs H. induction H; simpl; auto. Qed.

  Lemma not_in_map : forall R n, ~ In n R -> (forall x, In x R -> f x = f n -> x = n) -> ~ In (f n) (map f R).
  Proof. intros R n H Hi Hin. apply in_map_iff in Hin. destruct Hin as (y & Hy & Hyi). apply H. rewrite <- (Hi y Hyi Hy). auto. Qed.

  Lemma Enc_transport :
    (forall R n ts R', Enc reg h R n ts R' -> okmap R' -> Enc reg h2 (map f R) (f n) ts (map f R')) /\
    (forall R ps ts R', EncL reg h R ps ts R' -> okmap R' -> EncL reg h2 (map f R) (map (option_map f) ps) ts (map f R')) /\
    (forall R i ps ds ts R', EncH reg h R i ps ds ts R' -> okmap R' -> forall qs, hsame ps ds qs -> EncH reg h2 (map f R) i qs ds ts (map f R')).
  Proof.
    pose proof (Enc_new reg h) as (N1 & N2 & N3). apply Enc_mutind.
    - intros R n i Hi _. constructor. rewrite nth_error_map, Hi. reflexivity.
    - intros R n nd id t tl R1 th R2 Hn Hm Ht Lv Ll Lh HnR EL IH1 EH IH2 HnR2 HO.
      destruct (N3 _ _ _ _ _ _ EH) as (NH & EqR2 & _). destruct (N2 _ _ _ _ EL) as (NL & EqR1 & _).
      destruct HO as (HO1 & HO2).
      assert (HnIn : In n (R2 ++ [n])) by (rewrite in_app_iff; right; left; auto).
      destruct (HO1 n nd HnIn Hn) as (b & Hb & (S1 & S2 & S3 & S4)).
      specialize (S4 id t Hm Ht).
      rewrite map_app. simpl map. rewrite <- S2.
      assert (OK2 : okmap R2) by (eapply okmap_app; split; eauto).
      assert (OK1 : okmap R1) by (rewrite EqR2 in OK2; eapply okmap_app; eauto).
      eapply Enc_node; eauto.
      + congruence.
      + rewrite S2. auto.
      + rewrite S3, map_length. auto.
      + rewrite (hsame_length _ _ _ S4). auto.
      + apply not_in_map; auto. intros x Hx He. apply HO2; auto. rewrite EqR2, EqR1. rewrite !in_app_iff. auto.
      + rewrite S3. auto.
      + apply not_in_map; auto. intros x Hx He. apply HO2; auto. rewrite in_app_iff. auto.
    - intros. constructor.
    - intros R c ps t1 R1 t2 R2 E IH1 EL IH2 HO. destruct (N2 _ _ _ _ EL) as (NL & EqR2 & _).
      simpl. econstructor; [apply IH1|apply IH2; auto]. rewrite EqR2 in HO. eapply okmap_app; eauto.
    - intros R i HO qs HS. inversion HS; subst. constructor.
    - intros R i v ps d ds t2 R2 EH IH HO qs HS. inversion HS as [|v' w d' ps' ds' qs0 Hw Hv HS'|]; subst.
      pose proof (EncH_val reg h2 (map f R) i w qs0 d ds t2 (map f R2) (IH HO _ HS')) as X. rewrite Hw in X.
      destruct (f32_neq v (h_default d)) eqn:Ev; [rewrite (Hv eq_refl) in *|]; exact X.
    - intros R i c v ps d ds t1 R1 t2 R2 E IH1 EH IH2 HO qs HS. inversion HS; subst. destruct (N3 _ _ _ _ _ _ EH) as (NH & EqR2 & _).
      econstructor; [apply IH1|apply IH2; auto]. rewrite EqR2 in HO. eapply okmap_app; eauto.
  Qed.
End Transport.

(** an encodable graph is acyclic, closed and complete, so serialising it succeeds *)
Lemma Enc_acyclic : forall reg h n ts R', Enc reg h [] n ts R' -> acyclic_from h n /\ closed_from reg h n.
Proof.
  intros reg h n ts R' E. destruct (Enc_reachable _ _ _ _ _ E) as (HN & HR).
  assert (HC : closed_list h R').
  { eapply (proj1 (Enc_closed reg h)); eauto; [constructor|]. intros [|i]; discriminate. }
  split.
  - assert (X : forall c m, reach h c m -> forall i j, nth_error R' i = Some m -> nth_error R' j = Some c -> (i <= j)%nat).
    { intros c m Hr. induction Hr; intros i j Hi Hj.
      - rewrite (NoDup_nth_inj _ R' i j m HN Hi Hj). lia.
      - destruct (HC j m c Hj H) as (j' & Hj' & Hc). specialize (IHHr i j' Hi Hc). lia. }
    intros m c Hm Hl Hr. destruct (In_nth_error _ _ (proj2 (HR m) Hm)) as (i & Hi). destruct (HC i m c Hi Hl) as (j & Hj & Hc).
    specialize (X c m Hr i j Hi Hc). lia.
  - intros m Hm. destruct (proj1 (Enc_complete reg h) _ _ _ _ E m (proj2 (HR m) Hm)) as [[]|(nd & Hn & (id & t & Hid & Ht & _))].
    exists nd. split; auto. intros id' E'. rewrite Hid in E'. injection E' as <-. apply nth_error_Some. congruence.
Qed.

Lemma serialise_Enc : forall reg h n ts R' fuel, registry_fits reg -> Enc reg h [] n ts R' -> Z.of_nat (length h) < 2^50 -> (length h < fuel)%nat ->
  exists s, serialise fuel reg h n false = Ok (s, h) /\ encode (enc 0 ts) = Ok s.
Proof.
  intros reg h n ts R' fuel Hf E HL Hfu. destruct (Enc_acyclic _ _ _ _ _ E) as (HA & HC).
  destruct (serialise_plain reg h n fuel Hf HA HC HL Hfu) as [((x & nd & Hx & Hn & Hc) & _)|(s & ts2 & R2 & E1 & E2 & E3 & _)].
  - exfalso. destruct (Enc_reachable _ _ _ _ _ E) as (_ & HR).
    destruct (proj1 (Enc_complete reg h) _ _ _ _ E x (proj2 (HR x) Hx)) as [[]|(nd' & Hn' & HC')]. rewrite Hn in Hn'. injection Hn' as <-. auto.
  - destruct (proj1 (Enc_fun reg h) _ _ _ _ E ltac:(constructor) _ _ E2) as (-> & _). eauto.
Qed.
