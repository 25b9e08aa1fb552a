(** What SerialiseNodeDataInternal writes, as a relation on token lists. *)
From Coq Require Import ZArith List Bool Lia ZifyBool ZifyNat.
From Verif Require Import Prelude Registry_Model Base64_Model NodeTree_Model NodeTree_Spec NodeTree_Tokens.
Import ListNotations.
Open Scope Z_scope.

Definition mtok (ty : Z) (i : nat) : tok := TB (le_bytes 1 (member_byte ty (u8 (Z.of_nat i)))).

Fixpoint var_toks (i : nat) (vs : list Z) (ds : list var_decl) : list tok :=
  match vs, ds with
  | v :: vs', d :: ds' =>
      (if v =? v_default d then [] else [mtok TypeVariable i; TB (le_bytes 4 v)]) ++ var_toks (S i) vs' ds'
  | _, _ => []
  end.

Definition count_toks (n : nat) : list tok := if Nat.eqb n 0 then [] else [mtok TypeLookup n].

Definition ref_tok (i : nat) : tok := TB (le_bytes 2 (u16 (Z.of_nat i))).

(** [Enc reg h R n ts R']: writing node [n] when the nodes [R] are already written
    produces [ts], after which [R'] are written. *)
Inductive Enc (reg : list node_type) (h : heap) : list nat -> nat -> list tok -> list nat -> Prop :=
| Enc_ref : forall R n i, nth_error R i = Some n ->
    Enc reg h R n [TB (le_bytes 1 255); ref_tok i] R
| Enc_node : forall R n nd id t tl R1 th R2,
    nth_error h n = Some nd -> nd_meta nd = Some id -> nth_error reg id = Some t ->
    length (nd_vars nd) = length (t_vars t) ->
    length (nd_lookups nd) = length (t_lookups t) ->
    length (nd_hybrids nd) = length (t_hybrids t) ->
    ~ In n R ->
    EncL reg h R (nd_lookups nd) tl R1 ->
    EncH reg h R1 0 (nd_hybrids nd) (t_hybrids t) th R2 ->
    ~ In n R2 ->
    Enc reg h R n
      (TB (le_bytes 1 (Z.of_nat id)) :: var_toks 0 (nd_vars nd) (t_vars t) ++ count_toks (length (t_lookups t)) ++ tl ++ th ++ [TEnd])
      (R2 ++ [n])
with EncL (reg : list node_type) (h : heap) : list nat -> list (option nat) -> list tok -> list nat -> Prop :=
| EncL_nil : forall R, EncL reg h R [] [] R
| EncL_cons : forall R c ps t1 R1 t2 R2,
    Enc reg h R c t1 R1 -> EncL reg h R1 ps t2 R2 -> EncL reg h R (Some c :: ps) (t1 ++ t2) R2
with EncH (reg : list node_type) (h : heap) : list nat -> nat -> list (option nat * Z) -> list hybrid_decl -> list tok -> list nat -> Prop :=
| EncH_nil : forall R i, EncH reg h R i [] [] [] R
| EncH_val : forall R i v ps d ds t2 R2,
    EncH reg h R (S i) ps ds t2 R2 ->
    EncH reg h R i ((None, v) :: ps) (d :: ds)
      ((if f32_neq v (h_default d) then [mtok TypeHybridVariable i; TB (le_bytes 4 v)] else []) ++ t2) R2
| EncH_node : forall R i c v ps d ds t1 R1 t2 R2,
    Enc reg h R c t1 R1 -> EncH reg h R1 (S i) ps ds t2 R2 ->
    EncH reg h R i ((Some c, v) :: ps) (d :: ds) (mtok TypeHybridLookup i :: t1 ++ t2) R2.

Scheme Enc_mind := Minimality for Enc Sort Prop
with EncL_mind := Minimality for EncL Sort Prop
with EncH_mind := Minimality for EncH Sort Prop.
Combined Scheme Enc_mutind from Enc_mind, EncL_mind, EncH_mind.

(** ** Reachability facts *)
Lemma reach_trans : forall h a b c, reach h a b -> reach h b c -> reach h a c.
Proof. intros h a b c H. induction H; intros; auto. econstructor; eauto. Qed.

Lemma reach_link : forall h a b c, reach h a b -> link h b c -> reach h a c.
Proof. intros. eapply reach_trans; eauto. econstructor; eauto. constructor. Qed.

Lemma link_lookup : forall h m nd c, nth_error h m = Some nd -> In (Some c) (nd_lookups nd) -> link h m c.
Proof. intros. exists nd. auto. Qed.
Lemma link_hybrid : forall h m nd c v, nth_error h m = Some nd -> In (Some c, v) (nd_hybrids nd) -> link h m c.
Proof. intros. exists nd. split; eauto. Qed.

(** ** Elementary facts on [Enc] *)
Lemma Enc_new : forall reg h,
  (forall R n ts R', Enc reg h R n ts R' -> exists N, R' = R ++ N /\ forall x, In x N -> reach h n x) /\
  (forall R ps ts R', EncL reg h R ps ts R' -> exists N, R' = R ++ N /\ forall x, In x N -> exists c, In (Some c) ps /\ reach h c x) /\
  (forall R i ps ds ts R', EncH reg h R i ps ds ts R' -> exists N, R' = R ++ N /\ forall x, In x N -> exists c v, In (Some c, v) ps /\ reach h c x).
Proof.
  intros reg h. apply Enc_mutind.
  - intros. exists []. rewrite app_nil_r. split; auto. intros x [].
  - intros R n nd id t tl R1 th R2 Hn Hm Ht Lv Ll Lh HnR _ (N1 & -> & H1) _ (N2 & -> & H2) HnR2.
    exists (N1 ++ N2 ++ [n]). rewrite <- !app_assoc. split; auto. intros x Hx.
    rewrite !in_app_iff in Hx. destruct Hx as [Hx|[Hx|[<-|[]]]].
    + destruct (H1 x Hx) as (c & Hc & Hr). econstructor; [|exact Hr]. eapply link_lookup; eauto.
    + destruct (H2 x Hx) as (c & v & Hc & Hr). econstructor; [|exact Hr]. eapply link_hybrid; eauto.
    + constructor.
  - intros. exists []. rewrite app_nil_r. split; auto. intros x [].
  - intros R c ps t1 R1 t2 R2 _ (N1 & -> & H1) _ (N2 & -> & H2).
    exists (N1 ++ N2). rewrite <- app_assoc. split; auto. intros x Hx. rewrite in_app_iff in Hx. destruct Hx as [Hx|Hx].
    + exists c. split; [left; auto|auto].
    + destruct (H2 x Hx) as (c' & ? & ?). exists c'. split; [right|]; auto.
  - intros. exists []. rewrite app_nil_r. split; auto. intros x [].
  - intros R i v ps d ds t2 R2 _ (N & -> & H). exists N. split; auto. intros x Hx.
    destruct (H x Hx) as (c & w & ? & ?). exists c, w. split; [right|]; auto.
  - intros R i c v ps d ds t1 R1 t2 R2 _ (N1 & -> & H1) _ (N2 & -> & H2).
    exists (N1 ++ N2). rewrite <- app_assoc. split; auto. intros x Hx. rewrite in_app_iff in Hx. destruct Hx as [Hx|Hx].
    + exists c, v. split; [left; auto|auto].
    + destruct (H2 x Hx) as (c' & w & ? & ?). exists c', w. split; [right|]; auto.
Qed.

Lemma NoDup_snoc : forall A (l : list A) x, NoDup l -> ~ In x l -> NoDup (l ++ [x]).
Proof.
  intros A l x H Hx. induction H; simpl.
  - constructor; [intros []|constructor].
  - constructor.
    + rewrite in_app_iff. intros [?|[?|[]]]; [tauto|subst; apply Hx; left; auto].
    + apply IHNoDup. intros ?; apply Hx; right; auto.
Qed.

Lemma Enc_NoDup : forall reg h,
  (forall R n ts R', Enc reg h R n ts R' -> NoDup R -> NoDup R' /\ In n R') /\
  (forall R ps ts R', EncL reg h R ps ts R' -> NoDup R -> NoDup R' /\ ~ In None ps /\ forall c, In (Some c) ps -> In c R') /\
  (forall R i ps ds ts R', EncH reg h R i ps ds ts R' -> NoDup R -> NoDup R' /\ forall c v, In (Some c, v) ps -> In c R').
Proof.
  intros reg h. pose proof (Enc_new reg h) as (E1 & E2 & E3). apply Enc_mutind.
  - intros. split; auto. eapply nth_error_In; eauto.
  - intros R n nd id t tl R1 th R2 Hn Hm Ht Lv Ll Lh HnR _ IH1 _ IH2 HnR2 HR.
    destruct (IH1 HR) as (H1 & _). destruct (IH2 H1) as (H2 & _). split; [apply NoDup_snoc; auto|].
    rewrite in_app_iff. right. left. auto.
  - intros R HR. split; auto. split; [intros []|intros c []].
  - intros R c ps t1 R1 t2 R2 _ IH1 EL IH2 HR. destruct (IH1 HR) as (H1 & Hc). destruct (IH2 H1) as (H2 & Hn & H3).
    split; auto. split.
    + intros [?|?]; [discriminate|tauto].
    + intros c' [Hc'|Hc']; [|auto]. injection Hc'; intros; subst c'. destruct (E2 _ _ _ _ EL) as (N & -> & _).
      rewrite in_app_iff. auto.
  - intros R i HR. split; auto. intros c v [].
  - intros R i v ps d ds t2 R2 _ IH HR. destruct (IH HR) as (H1 & H2). split; auto. intros c w [Hc|Hc]; [discriminate|eauto].
  - intros R i c v ps d ds t1 R1 t2 R2 _ IH1 EH IH2 HR. destruct (IH1 HR) as (H1 & Hc). destruct (IH2 H1) as (H2 & H3).
    split; auto. intros c' w [Hc'|Hc']; [|eauto]. injection Hc'; intros; subst c'. destruct (E3 _ _ _ _ _ _ EH) as (N & -> & _).
    rewrite in_app_iff. auto.
Qed.

(** Written nodes are closed under links (if they were before), with strictly
    smaller positions. *)
Definition closed_list (h : heap) (R : list nat) : Prop :=
  forall i n c, nth_error R i = Some n -> link h n c -> exists j, (j < i)%nat /\ nth_error R j = Some c.

Lemma closed_list_snoc : forall h R n, closed_list h R -> (forall c, link h n c -> In c R) -> closed_list h (R ++ [n]).
Proof.
  intros h R n H Hn i m c Hi Hl. destruct (Nat.lt_ge_cases i (length R)) as [L|L].
  - rewrite nth_error_app1 in Hi by auto. destruct (H i m c Hi Hl) as (j & Hj & Hc). exists j. split; auto.
    rewrite nth_error_app1 by lia. auto.
  - rewrite nth_error_app2 in Hi by auto. destruct (i - length R)%nat eqn:E; [|destruct n0; discriminate].
    simpl in Hi. injection Hi; intros; subst m. destruct (In_nth_error _ _ (Hn c Hl)) as (j & Hj).
    assert (j < length R)%nat by (apply nth_error_Some; congruence).
    exists j. split; [lia|]. rewrite nth_error_app1 by auto. auto.
Qed.

Lemma Enc_closed : forall reg h,
  (forall R n ts R', Enc reg h R n ts R' -> NoDup R -> closed_list h R -> closed_list h R') /\
  (forall R ps ts R', EncL reg h R ps ts R' -> NoDup R -> closed_list h R -> closed_list h R') /\
  (forall R i ps ds ts R', EncH reg h R i ps ds ts R' -> NoDup R -> closed_list h R -> closed_list h R').
Proof.
  intros reg h. pose proof (Enc_NoDup reg h) as (D1 & D2 & D3). pose proof (Enc_new reg h) as (E1 & E2 & E3). apply Enc_mutind.
  - auto.
  - intros R n nd id t tl R1 th R2 Hn Hm Ht Lv Ll Lh HnR EL IH1 EH IH2 HnR2 HR HC.
    destruct (D2 _ _ _ _ EL HR) as (N1 & _ & I1). destruct (D3 _ _ _ _ _ _ EH N1) as (N2 & I2).
    apply closed_list_snoc; auto. intros c (nd' & Hnd' & Hl). rewrite Hn in Hnd'. injection Hnd'; intros; subst nd'.
    destruct Hl as [Hl|(v & Hl)]; [|eauto]. destruct (E3 _ _ _ _ _ _ EH) as (N & -> & _). rewrite in_app_iff. auto.
  - auto.
  - intros R c ps t1 R1 t2 R2 E IH1 EL IH2 HR HC. destruct (D1 _ _ _ _ E HR). auto.
  - auto.
  - auto.
  - intros R i c v ps d ds t1 R1 t2 R2 E IH1 EH IH2 HR HC. destruct (D1 _ _ _ _ E HR). auto.
Qed.

Lemma closed_list_reach : forall h R n x, closed_list h R -> In n R -> reach h n x -> In x R.
Proof.
  intros h R n x HC Hn Hr. induction Hr; auto. apply IHHr. destruct (In_nth_error _ _ Hn) as (i & Hi).
  destruct (HC i m c Hi H) as (j & _ & Hj). eapply nth_error_In; eauto.
Qed.

(** the nodes written when starting from scratch are exactly the reachable ones *)
Lemma Enc_reachable : forall reg h n ts R', Enc reg h [] n ts R' -> reachable_nodes h n R'.
Proof.
  intros reg h n ts R' E. destruct (proj1 (Enc_NoDup reg h) _ _ _ _ E) as (HN & Hin); [constructor|].
  split; auto. intros m. split.
  - intros Hm. destruct (proj1 (Enc_new reg h) _ _ _ _ E) as (N & -> & H). apply H. exact Hm.
  - intros Hr. eapply closed_list_reach; eauto. eapply (proj1 (Enc_closed reg h)); eauto; [constructor|].
    intros [|i]; discriminate.
Qed.

(** written nodes are complete *)
Lemma Enc_complete : forall reg h,
  (forall R n ts R', Enc reg h R n ts R' -> forall x, In x R' -> In x R \/ exists nd, nth_error h x = Some nd /\ complete_node reg nd) /\
  (forall R ps ts R', EncL reg h R ps ts R' -> forall x, In x R' -> In x R \/ exists nd, nth_error h x = Some nd /\ complete_node reg nd) /\
  (forall R i ps ds ts R', EncH reg h R i ps ds ts R' -> forall x, In x R' -> In x R \/ exists nd, nth_error h x = Some nd /\ complete_node reg nd).
Proof.
  intros reg h. apply Enc_mutind; auto.
  - intros R n nd id t tl R1 th R2 Hn Hm Ht Lv Ll Lh HnR EL IH1 EH IH2 HnR2 x Hx.
    rewrite in_app_iff in Hx. destruct Hx as [Hx|[<-|[]]].
    + destruct (IH2 x Hx); auto.
    + right. exists nd. split; auto. exists id, t. repeat split; auto.
      clear - EL. remember (nd_lookups nd) as ps. clear Heqps. induction EL; [intros []|].
      intros [?|?]; [discriminate|tauto].
  - intros R c ps t1 R1 t2 R2 _ IH1 _ IH2 x Hx. destruct (IH2 x Hx); auto.
  - intros R i c v ps d ds t1 R1 t2 R2 _ IH1 _ IH2 x Hx. destruct (IH2 x Hx); auto.
Qed.

(** [Enc] depends only on the written nodes *)
Lemma Enc_heap : forall reg h h2,
  (forall R n ts R', Enc reg h R n ts R' -> (forall x, In x R' -> nth_error h2 x = nth_error h x) -> Enc reg h2 R n ts R') /\
  (forall R ps ts R', EncL reg h R ps ts R' -> (forall x, In x R' -> nth_error h2 x = nth_error h x) -> EncL reg h2 R ps ts R') /\
  (forall R i ps ds ts R', EncH reg h R i ps ds ts R' -> (forall x, In x R' -> nth_error h2 x = nth_error h x) -> EncH reg h2 R i ps ds ts R').
Proof.
  intros reg h h2. pose proof (Enc_new reg h) as (E1 & E2 & E3). apply Enc_mutind.
  - intros. constructor. auto.
  - intros R n nd id t tl R1 th R2 Hn Hm Ht Lv Ll Lh HnR EL IH1 EH IH2 HnR2 Hh.
    econstructor; eauto.
    + rewrite Hh; auto. rewrite in_app_iff. right; left; auto.
    + apply IH1. intros x Hx. apply Hh. destruct (E3 _ _ _ _ _ _ EH) as (N & -> & _). rewrite !in_app_iff. auto.
    + apply IH2. intros x Hx. apply Hh. rewrite in_app_iff. auto.
  - intros. constructor.
  - intros R c ps t1 R1 t2 R2 _ IH1 EL IH2 Hh. econstructor; eauto. apply IH1. intros x Hx. apply Hh.
    destruct (E2 _ _ _ _ EL) as (N & -> & _). rewrite in_app_iff. auto.
  - intros. constructor.
  - intros. constructor. auto.
  - intros R i c v ps d ds t1 R1 t2 R2 _ IH1 EH IH2 Hh. econstructor; eauto. apply IH1. intros x Hx. apply Hh.
    destruct (E3 _ _ _ _ _ _ EH) as (N & -> & _). rewrite in_app_iff. auto.
Qed.

(** [Enc] is functional *)
Lemma NoDup_nth_inj : forall A (l : list A) i j x, NoDup l -> nth_error l i = Some x -> nth_error l j = Some x -> i = j.
Proof.
  intros A l i j x H Hi Hj. eapply (proj1 (NoDup_nth_error l)); eauto.
  - apply nth_error_Some. congruence.
  - congruence.
Qed.

Lemma Enc_fun : forall reg h,
  (forall R n ts R', Enc reg h R n ts R' -> NoDup R -> forall ts2 R2, Enc reg h R n ts2 R2 -> ts2 = ts /\ R2 = R') /\
  (forall R ps ts R', EncL reg h R ps ts R' -> NoDup R -> forall ts2 R2, EncL reg h R ps ts2 R2 -> ts2 = ts /\ R2 = R') /\
  (forall R i ps ds ts R', EncH reg h R i ps ds ts R' -> NoDup R -> forall ts2 R2, EncH reg h R i ps ds ts2 R2 -> ts2 = ts /\ R2 = R').
Proof.
  intros reg h. pose proof (Enc_NoDup reg h) as (D1 & D2 & D3). apply Enc_mutind.
  - intros R n i Hi HR ts2 R2 E. inversion E; subst.
    + assert (i0 = i) by (eapply NoDup_nth_inj; eauto). subst. auto.
    + exfalso. apply H5. eapply nth_error_In; eauto.
  - intros R n nd id t tl R1 th R2 Hn Hm Ht Lv Ll Lh HnR EL IH1 EH IH2 HnR2 HR ts2 R3 E. inversion E; subst.
    + exfalso. apply HnR. eapply nth_error_In; eauto.
    + rewrite Hn in H. injection H as <-. rewrite Hm in H0. injection H0 as <-. rewrite Ht in H1. injection H1 as <-.
      destruct (IH1 HR _ _ H6) as (-> & ->). destruct (D2 _ _ _ _ EL HR) as (HR1 & _).
      destruct (IH2 HR1 _ _ H7) as (-> & ->). auto.
  - intros R HR ts2 R2 E. inversion E; auto.
  - intros R c ps t1 R1 t2 R2 E IH1 EL IH2 HR ts2 R3 E'. inversion E'; subst.
    destruct (IH1 HR _ _ H2) as (-> & ->). destruct (D1 _ _ _ _ E HR) as (HR1 & _). destruct (IH2 HR1 _ _ H5) as (-> & ->). auto.
  - intros R i HR ts2 R2 E. inversion E; auto.
  - intros R i v ps d ds t2 R2 E IH HR ts2 R3 E'. inversion E'; subst. destruct (IH HR _ _ H7) as (-> & ->). auto.
  - intros R i c v ps d ds t1 R1 t2 R2 E IH1 EH IH2 HR ts2 R3 E'. inversion E'; subst.
    destruct (IH1 HR _ _ H8) as (-> & ->). destruct (D1 _ _ _ _ E HR) as (HR1 & _). destruct (IH2 HR1 _ _ H9) as (-> & ->). auto.
Qed.

(** ** The reference table *)
Definition mkrefs (R : list nat) : list (nat * Z) :=
  combine R (map (fun i => u16 (Z.of_nat i)) (seq 0 (length R))).

Lemma combine_app : forall A B (l1 l2 : list A) (m1 m2 : list B), length l1 = length m1 ->
  combine (l1 ++ l2) (m1 ++ m2) = combine l1 m1 ++ combine l2 m2.
Proof. induction l1; intros l2 [|b m1] m2 H; simpl in *; try discriminate; auto. rewrite IHl1; auto. Qed.

Lemma mkrefs_snoc : forall R n, mkrefs (R ++ [n]) = mkrefs R ++ [(n, u16 (Z.of_nat (length R)))].
Proof.
  intros. unfold mkrefs. rewrite app_length. simpl length. rewrite seq_app, map_app.
  rewrite combine_app; [reflexivity|]. rewrite map_length, seq_length. reflexivity.
Qed.

Lemma mkrefs_length : forall R, length (mkrefs R) = length R.
Proof. intros. unfold mkrefs. rewrite combine_length, map_length, seq_length. lia. Qed.

Lemma assoc_mkrefs_aux : forall R n k, 
  match assoc n (combine R (map (fun i => u16 (Z.of_nat i)) (seq k (length R)))) with
  | Some r => exists i, nth_error R i = Some n /\ r = u16 (Z.of_nat (k + i))
  | None => ~ In n R
  end.
Proof.
  induction R as [|a R IH]; intros n k; simpl; [tauto|].
  destruct (Nat.eqb a n) eqn:E.
  - apply Nat.eqb_eq in E. exists 0%nat. simpl. rewrite Nat.add_0_r. subst; auto.
  - specialize (IH n (S k)). destruct (assoc n _).
    + destruct IH as (i & Hi & ->). exists (S i). simpl. split; auto. f_equal. lia.
    + apply Nat.eqb_neq in E. tauto.
Qed.

Lemma assoc_mkrefs : forall R n,
  match assoc n (mkrefs R) with
  | Some r => exists i, nth_error R i = Some n /\ r = u16 (Z.of_nat i)
  | None => ~ In n R
  end.
Proof. intros. apply (assoc_mkrefs_aux R n 0). Qed.

(** ** Writer steps *)
Definition WStep (w w' : wstream) (ts : list tok) : Prop := forall T, WS w T -> WS w' (T ++ ts).

Lemma WStep_refl : forall w, WStep w w [].
Proof. intros w T H. rewrite app_nil_r. exact H. Qed.
Lemma WStep_trans : forall a b c t1 t2, WStep a b t1 -> WStep b c t2 -> WStep a c (t1 ++ t2).
Proof. intros a b c t1 t2 H1 H2 T HT. rewrite app_assoc. auto. Qed.
Lemma WStep_value : forall w n v, WStep w (add_value w n v) [TB (le_bytes n v)].
Proof. intros w n v T HT. apply WS_add_bytes. exact HT. Qed.
Lemma WStep_member : forall w ty i, WStep w (add_member w ty i) [mtok ty i].
Proof. intros. apply WStep_value. Qed.
Lemma WStep_end : forall w, WStep w (add_node_end w) [TEnd].
Proof. intros w T HT. apply WS_add_end. exact HT. Qed.

Lemma WStep_vars : forall vs ds w i, WStep w (ser_vars w i vs ds) (var_toks i vs ds).
Proof.
  induction vs as [|v vs IH]; intros ds w i; [apply WStep_refl|]. destruct ds as [|d ds]; [apply WStep_refl|].
  cbn [ser_vars var_toks]. eapply WStep_trans; [|apply IH].
  destruct (v =? v_default d); [apply WStep_refl|].
  change [mtok TypeVariable i; TB (le_bytes 4 v)] with ([mtok TypeVariable i] ++ [TB (le_bytes 4 v)]).
  eapply WStep_trans; [apply WStep_member|apply WStep_value].
Qed.

Lemma WStep_count : forall w n,
  WStep w (if Nat.eqb n 0 then w else add_member w TypeLookup n) (count_toks n).
Proof. intros. unfold count_toks. destruct (Nat.eqb n 0); [apply WStep_refl|apply WStep_member]. Qed.

(** ** Serialising without fix-up *)
Section Plain.
  Variable reg : list node_type.
  Variable h : heap.

  Definition bad_below (m : nat) : Prop :=
    exists x nd, reach h m x /\ nth_error h x = Some nd /\ ~ complete_node reg nd.

  (** postcondition of writing node [m] in state [s], previously written [R] *)
  Definition Post (m : nat) (s : ser_state) (R : list nat) (b : bool) (s' : ser_state) : Prop :=
    s_heap s' = h /\
    if b then exists ts R', s_refs s' = mkrefs R' /\ WStep (s_out s) (s_out s') ts /\ Enc reg h R m ts R'
    else bad_below m.

  Lemma plain_lookups : forall rec n nd, nth_error h n = Some nd ->
    (forall s R c, s_heap s = h -> s_refs s = mkrefs R -> link h n c ->
       exists b s', rec s c = Ok (b, s') /\ Post c s R b s') ->
    forall ps ls i s R, (forall j, nth_error ps j = nth_error (nd_lookups nd) (i + j)) -> length ls = length ps ->
      s_heap s = h -> s_refs s = mkrefs R -> (forall p, In p ps -> In p (nd_lookups nd)) ->
      exists b s', ser_lookups rec reg false n i ls s = Ok (b, s') /\ s_heap s' = h /\
        if b then exists ts R', s_refs s' = mkrefs R' /\ WStep (s_out s) (s_out s') ts /\ EncL reg h R ps ts R'
        else In None (nd_lookups nd) \/ exists c, link h n c /\ bad_below c.
  Proof.
    intros rec n nd Hn Hrec. induction ps as [|p ps IH]; intros ls i s R Hps Hl Hh HR Hin; destruct ls as [|l ls]; try discriminate.
    - simpl. do 2 eexists. split; [reflexivity|]. split; auto. exists [], R. split; auto. split; [apply WStep_refl|constructor].
    - cbn [ser_lookups]. rewrite Hh. unfold rd at 1. rewrite Hn. cbn [bind].
      unfold rd. pose proof (Hps 0%nat) as H0. simpl in H0. rewrite Nat.add_0_r in H0. rewrite <- H0. cbn [bind].
      destruct p as [c|].
      + destruct (Hrec s R c Hh HR) as (b & s1 & E1 & Hh1 & P1).
        { eapply link_lookup; eauto. apply Hin. left; auto. }
        rewrite E1. cbn [bind]. destruct b.
        * destruct P1 as (ts1 & R1 & HR1 & W1 & Enc1).
          destruct (IH ls (S i) s1 R1) as (b & s2 & E2 & Hh2 & P2).
          { intros j. specialize (Hps (S j)). simpl in Hps. rewrite Hps. f_equal. lia. }
          { simpl in Hl. lia. } { auto. } { auto. } { intros q Hq. apply Hin. right; auto. }
          exists b, s2. split; [exact E2|]. split; auto. destruct b; [|exact P2].
          destruct P2 as (ts2 & R2 & HR2 & W2 & Enc2). exists (ts1 ++ ts2), R2. split; auto.
          split; [eapply WStep_trans; eauto|]. econstructor; eauto.
        * do 2 eexists. split; [reflexivity|]. split; auto. right. exists c. split; auto.
          eapply link_lookup; eauto. apply Hin. left; auto.
      + do 2 eexists. split; [reflexivity|]. split; auto. left. apply Hin. left; auto.
  Qed.

  Lemma plain_hybrids : forall rec n nd, nth_error h n = Some nd ->
    (forall s R c, s_heap s = h -> s_refs s = mkrefs R -> link h n c ->
       exists b s', rec s c = Ok (b, s') /\ Post c s R b s') ->
    forall ps ds i s R, (forall j, nth_error ps j = nth_error (nd_hybrids nd) (i + j)) -> length ds = length ps ->
      s_heap s = h -> s_refs s = mkrefs R -> (forall p, In p ps -> In p (nd_hybrids nd)) ->
      exists b s', ser_hybrids rec reg false n i ds s = Ok (b, s') /\ s_heap s' = h /\
        if b then exists ts R', s_refs s' = mkrefs R' /\ WStep (s_out s) (s_out s') ts /\ EncH reg h R i ps ds ts R'
        else exists c, link h n c /\ bad_below c.
  Proof.
    intros rec n nd Hn Hrec. induction ps as [|[p v] ps IH]; intros ds i s R Hps Hl Hh HR Hin; destruct ds as [|d ds]; try discriminate.
    - simpl. do 2 eexists. split; [reflexivity|]. split; auto. exists [], R. split; auto. split; [apply WStep_refl|constructor].
    - cbn [ser_hybrids]. rewrite Hh. unfold rd at 1. rewrite Hn. cbn [bind].
      unfold rd. pose proof (Hps 0%nat) as H0. simpl in H0. rewrite Nat.add_0_r in H0. rewrite <- H0. cbn [bind fst snd].
      assert (Hps' : forall j, nth_error ps j = nth_error (nd_hybrids nd) (S i + j)).
      { intros j. specialize (Hps (S j)). simpl in Hps. rewrite Hps. f_equal. lia. }
      destruct p as [c|].
      + destruct (Hrec (with_out s (add_member (s_out s) TypeHybridLookup i)) R c Hh HR) as (b & s1 & E1 & Hh1 & P1).
        { eapply link_hybrid; eauto. apply Hin. left; reflexivity. }
        rewrite E1. cbn [bind]. destruct b.
        * destruct P1 as (ts1 & R1 & HR1 & W1 & Enc1).
          destruct (IH ds (S i) s1 R1) as (b & s2 & E2 & Hh2 & P2); auto.
          { intros q Hq. apply Hin. right; auto. }
          exists b, s2. split; [exact E2|]. split; auto. destruct b; [|exact P2].
          destruct P2 as (ts2 & R2 & HR2 & W2 & Enc2). exists (mtok TypeHybridLookup i :: ts1 ++ ts2), R2. split; auto.
          split; [|econstructor; eauto].
          change (mtok TypeHybridLookup i :: ts1 ++ ts2) with ([mtok TypeHybridLookup i] ++ ts1 ++ ts2).
          eapply WStep_trans; [apply WStep_member|]. eapply WStep_trans; eauto.
        * do 2 eexists. split; [reflexivity|]. split; auto. exists c. split; auto.
          eapply link_hybrid; eauto. apply Hin. left; reflexivity.
      + set (s1 := if f32_neq v (h_default d) then _ else s).
        destruct (IH ds (S i) s1 R) as (b & s2 & E2 & Hh2 & P2); auto.
        { subst s1. destruct (f32_neq v (h_default d)); auto. }
        { subst s1. destruct (f32_neq v (h_default d)); auto. }
        { intros q Hq. apply Hin. right; auto. }
        exists b, s2. split; [exact E2|]. split; auto. destruct b; [|exact P2].
        destruct P2 as (ts2 & R2 & HR2 & W2 & Enc2). do 2 eexists. split; [exact HR2|]. split; [|econstructor; exact Enc2].
        eapply WStep_trans; [|exact W2]. subst s1. destruct (f32_neq v (h_default d)); [|apply WStep_refl].
        change [mtok TypeHybridVariable i; TB (le_bytes 4 v)] with ([mtok TypeHybridVariable i] ++ [TB (le_bytes 4 v)]).
        eapply WStep_trans; [apply WStep_member|apply WStep_value].
  Qed.

  Variable root : nat.
  Hypothesis Hac : acyclic_from h root.
  Hypothesis Hcl : closed_from reg h root.

  Lemma link_lt : forall m c, link h m c -> (m < length h)%nat.
  Proof. intros m c (nd & H & _). apply nth_error_Some. congruence. Qed.

  Lemma ser_plain : forall fuel deps path s R m,
    s_heap s = h -> s_refs s = mkrefs R -> reach h root m ->
    NoDup path -> (forall p, In p path -> reach h root p /\ exists c, link h p c /\ reach h c m) ->
    (length h < fuel + length path)%nat ->
    exists b s', ser fuel reg false deps s m = Ok (b, s') /\ Post m s R b s'.
  Proof.
    induction fuel as [|f IH]; intros deps path s R m Hh HR Hm HN Hp Hf.
    - exfalso. assert (length path <= length h)%nat; [|lia].
      rewrite <- (seq_length (length h) 0). apply NoDup_incl_length; auto.
      intros p Hin. destruct (Hp p Hin) as (_ & c & Hl & _). apply in_seq. apply link_lt in Hl. lia.
    - cbn [ser]. destruct (Hcl m Hm) as (nd & Hnd & Hid). rewrite Hh. unfold rd at 1. rewrite Hnd. cbn [bind].
      assert (Hbad : ~ complete_node reg nd -> bad_below m) by (intros; exists m, nd; split; [constructor|auto]).
      destruct (nd_meta nd) as [id|] eqn:Em.
      2: { do 2 eexists. split; [reflexivity|]. split; auto. apply Hbad. intros (id & t & Hc & _). congruence. }
      destruct (nth_error reg id) as [t|] eqn:Et.
      2: { apply nth_error_None in Et. specialize (Hid id eq_refl). lia. }
      unfold rd at 1. rewrite Et. cbn [bind].
      destruct (Nat.eqb (length (nd_vars nd)) (length (t_vars t)) &&
                Nat.eqb (length (nd_lookups nd)) (length (t_lookups t)) &&
                Nat.eqb (length (nd_hybrids nd)) (length (t_hybrids t))) eqn:El; cbn [negb].
      2: { do 2 eexists. split; [reflexivity|]. split; auto. apply Hbad. intros (id' & t' & Hc & Ht' & L1 & L2 & L3 & _).
           rewrite Em in Hc. injection Hc as <-. rewrite Et in Ht'. injection Ht' as <-.
           rewrite L1, L2, L3, !Nat.eqb_refl in El. discriminate. }
      apply andb_prop in El. destruct El as (El & L3). apply andb_prop in El. destruct El as (L1 & L2).
      apply Nat.eqb_eq in L1, L2, L3.
      rewrite HR. pose proof (assoc_mkrefs R m) as Ha. destruct (assoc m (mkrefs R)) as [r|].
      { destruct Ha as (i & Hi & ->). do 2 eexists. split; [reflexivity|]. split; auto.
        exists [TB (le_bytes 1 255); ref_tok i], R. split; auto. split; [|constructor; auto].
        change [TB (le_bytes 1 255); ref_tok i] with ([TB (le_bytes 1 255)] ++ [ref_tok i]).
        eapply WStep_trans; apply WStep_value. }
      set (w0 := if Nat.eqb (length (t_lookups t)) 0 then _ else _).
      assert (W0 : WStep (s_out s) w0 ([TB (le_bytes 1 (Z.of_nat id))] ++ var_toks 0 (nd_vars nd) (t_vars t) ++ count_toks (length (t_lookups t)))).
      { eapply WStep_trans; [apply WStep_value|]. eapply WStep_trans; [apply WStep_vars|]. apply WStep_count. }
      assert (Hnotpath : forall c, link h m c -> NoDup (m :: path)).
      { intros c Hl. constructor; auto. intros Hin. destruct (Hp m Hin) as (Hr & c' & Hl' & Hr'). exact (Hac m c' Hr Hl' Hr'). }
      assert (Hrec : forall s R c, s_heap s = h -> s_refs s = mkrefs R -> link h m c ->
        exists b s', ser f reg false deps s c = Ok (b, s') /\ Post c s R b s').
      { intros s0 R0 c Hh0 HR0 Hl. apply (IH deps (m :: path) s0 R0 c Hh0 HR0).
        - eapply reach_link; eauto.
        - eapply Hnotpath; eauto.
        - intros p [<-|Hin].
          + split; auto. exists c. split; auto. constructor.
          + destruct (Hp p Hin) as (Hr & c' & Hl' & Hr'). split; auto. exists c'. split; auto. eapply reach_link; eauto.
        - simpl. lia. }
      destruct (plain_lookups _ m nd Hnd Hrec (nd_lookups nd) (t_lookups t) 0 (with_out s w0) R) as (b1 & s1 & E1 & Hh1 & P1); auto.
      unfold with_out at 1 in E1. rewrite Hh, HR in E1. unfold with_out. rewrite Hh, HR. rewrite E1. cbn [bind].
      destruct b1; cbn [negb].
      2: { do 2 eexists. split; [reflexivity|]. split; auto. destruct P1 as [Hnone|(c & Hl & x & xd & Hr & Hx & Hc)].
           - apply Hbad. intros (id' & t' & _ & _ & _ & _ & _ & Hc). tauto.
           - exists x, xd. split; auto. econstructor; eauto. }
      destruct P1 as (tl & R1 & HR1 & W1 & EL).
      destruct (plain_hybrids _ m nd Hnd Hrec (nd_hybrids nd) (t_hybrids t) 0 s1 R1) as (b2 & s2 & E2 & Hh2 & P2); auto.
      rewrite E2. cbn [bind].
      destruct b2; cbn [negb].
      2: { do 2 eexists. split; [reflexivity|]. split; auto. destruct P2 as (c & Hl & x & xd & Hr & Hx & Hc).
           exists x, xd. split; auto. econstructor; eauto. }
      destruct P2 as (th & R2 & HR2 & W2 & EH).
      do 2 eexists. split; [reflexivity|]. split; [exact Hh2|]. cbn [s_out s_refs].
      assert (HnR2 : ~ In m R2).
      { pose proof (Enc_new reg h) as (_ & N2 & N3). destruct (N3 _ _ _ _ _ _ EH) as (NB & -> & HB).
        destruct (N2 _ _ _ _ EL) as (NA & -> & HA). rewrite !in_app_iff. intros [[Hin|Hin]|Hin]; [tauto| |].
        - destruct (HA _ Hin) as (c & Hc & Hr). apply (Hac m c Hm); auto. eapply link_lookup; eauto.
        - destruct (HB _ Hin) as (c & v & Hc & Hr). apply (Hac m c Hm); auto. eapply link_hybrid; eauto. }
      rewrite HR2. pose proof (assoc_mkrefs R2 m) as Ha2. destruct (assoc m (mkrefs R2)).
      { destruct Ha2 as (i & Hi & _). exfalso. apply HnR2. eapply nth_error_In; eauto. }
      eexists _, (R2 ++ [m]). rewrite mkrefs_snoc, mkrefs_length. split; [reflexivity|]. split.
      2: { econstructor; eauto. }
      pose proof (WStep_trans _ _ _ _ _ W0 (WStep_trans _ _ _ _ _ W1 (WStep_trans _ _ _ _ _ W2 (WStep_end _)))) as W.
      simpl in W. rewrite <- !app_assoc in W. exact W.
  Qed.
End Plain.
