(** The NodeData reader: totality on arbitrary bytes. *)
From Coq Require Import ZArith List Bool Lia ZifyBool ZifyNat.
From Verif Require Import Prelude Registry_Model Base64_Model NodeTree_Model NodeTree_Spec NodeTree_Tokens.
Import ListNotations.
Open Scope Z_scope.

Lemma rd_lt : forall A (l : list A) i, (i < length l)%nat -> exists x, rd l i = Ok x /\ nth_error l i = Some x.
Proof.
  intros A l i H. unfold rd. destruct (nth_error l i) eqn:E; [eauto|]. apply nth_error_None in E. lia.
Qed.

Lemma read_le_total : forall n d p, (p + n <= length d)%nat -> exists v, read_le d p n = Ok v.
Proof.
  induction n; intros d p H; simpl; [eauto|]. destruct (rd_lt _ d p) as (b & -> & _); [lia|]. cbn [bind].
  destruct (IHn d (S p)) as (v & ->); [lia|]. simpl. eauto.
Qed.

Lemma get_value_total : forall d n r, (r_pos r <= length d)%nat ->
  exists v r', get_value d n r = Ok (v, r') /\ (r_pos r <= r_pos r' <= length d)%nat /\
    match v with None => r' = r | Some _ => r_pos r' = (r_pos r + n)%nat /\ r_end r' = r_end r /\ r_end r <= 0 end.
Proof.
  intros d n r H. unfold get_value. destruct (0 <? r_end r) eqn:E; [do 2 eexists; split; [reflexivity|]; auto|].
  destruct (length d <? r_pos r + n)%nat eqn:L; [do 2 eexists; split; [reflexivity|]; auto|].
  destruct (read_le_total n d (r_pos r)) as (v & ->); [lia|]. simpl. do 2 eexists. split; [reflexivity|]. simpl. lia.
Qed.

Lemma get_member_total : forall d r, (r_pos r <= length d)%nat ->
  exists m r', get_member d r = Ok (m, r') /\ (r_pos r <= r_pos r' <= length d)%nat /\
    match m with None => True | Some m => r_pos r' = S (r_pos r) \/ (fst m = NodeEnd /\ 0 < r_end r) end.
Proof.
  intros d r H. unfold get_member. destruct (0 <? r_end r) eqn:E.
  - do 2 eexists. split; [reflexivity|]. simpl. split; [lia|]. right. split; [reflexivity|lia].
  - destruct (length d <? r_pos r + 1)%nat eqn:L.
    + do 2 eexists. split; [reflexivity|]. auto.
    + destruct (rd_lt _ d (r_pos r)) as (b & -> & _); [lia|]. cbn [bind]. do 2 eexists. split; [reflexivity|]. cbn [r_pos]. split; lia.
Qed.

Section Total.
  Variable reg : list node_type.
  Variable d : list Z.

  (** shape of a node under construction: type, member counts, children among the
      first [k] nodes *)
  Definition node_inv (id : nat) (t : node_type) (k : nat) (nd : node_data) : Prop :=
    nd_meta nd = Some id /\ nth_error reg id = Some t /\
    length (nd_vars nd) = length (t_vars t) /\
    length (nd_lookups nd) = length (t_lookups t) /\
    length (nd_hybrids nd) = length (t_hybrids t) /\
    (forall c, In (Some c) (nd_lookups nd) -> (c < k)%nat) /\
    (forall c v, In (Some c, v) (nd_hybrids nd) -> (c < k)%nat).

  Definition heap_inv (out : heap) : Prop :=
    forall i nd, nth_error out i = Some nd -> exists id t, node_inv id t i nd.

  Lemma node_inv_mono : forall id t k k' nd, (k <= k')%nat -> node_inv id t k nd -> node_inv id t k' nd.
  Proof.
    intros id t k k' nd H (A & B & C & D & E & F & G). repeat split; auto.
    - intros c Hc. specialize (F c Hc). lia.
    - intros c v Hc. specialize (G c v Hc). lia.
  Qed.

  Lemma heap_inv_snoc : forall out nd id t, heap_inv out -> node_inv id t (length out) nd -> heap_inv (out ++ [nd]).
  Proof.
    intros out nd id t H Hn i x Hx. destruct (Nat.lt_ge_cases i (length out)) as [L|L].
    - rewrite nth_error_app1 in Hx by auto. eauto.
    - rewrite nth_error_app2 in Hx by auto. destruct (i - length out)%nat as [|j] eqn:E; [|destruct j; discriminate].
      simpl in Hx. injection Hx as <-. assert (i = length out) by lia. subst i. eauto.
  Qed.

  Lemma node_inv_new : forall id t k, nth_error reg id = Some t -> node_inv id t k (new_node_data id t).
  Proof.
    intros. unfold new_node_data. repeat split; simpl; rewrite ?map_length; auto.
    - intros c Hc. apply in_map_iff in Hc. destruct Hc as (? & ? & _). discriminate.
    - intros c v Hc. apply in_map_iff in Hc. destruct Hc as (? & ? & _). discriminate.
  Qed.

  Lemma In_upd : forall A (l : list A) i x y, In y (upd l i x) -> y = x \/ In y l.
  Proof. induction l; intros [|i] x y H; simpl in *; try tauto. { destruct H; auto. } destruct H as [->|H]; auto. destruct (IHl _ _ _ H); auto. Qed.

  Lemma node_inv_var : forall id t k nd i v, node_inv id t k nd -> node_inv id t k (set_var nd i v).
  Proof. intros id t k nd i v (A & B & C & D & E & F & G). repeat split; simpl; rewrite ?upd_length; auto. Qed.

  Lemma node_inv_lookup : forall id t k nd i p, node_inv id t k nd -> (forall c, p = Some c -> (c < k)%nat) -> node_inv id t k (set_lookup nd i p).
  Proof.
    intros id t k nd i v (A & B & C & D & E & F & G) H. repeat split; simpl; rewrite ?upd_length; auto.
    intros c Hc. apply In_upd in Hc. destruct Hc as [<-|Hc]; auto.
  Qed.

  Lemma node_inv_hybrid : forall id t k nd i p, node_inv id t k nd -> (forall c, fst p = Some c -> (c < k)%nat) -> node_inv id t k (set_hybrid nd i p).
  Proof.
    intros id t k nd i v (A & B & C & D & E & F & G) H. repeat split; simpl; rewrite ?upd_length; auto.
    intros c w Hc. apply In_upd in Hc. destruct Hc as [<-|Hc]; eauto.
  Qed.

  Lemma des_vars_total : forall fuel id t k m nd r, (r_pos r <= length d)%nat -> node_inv id t k nd ->
    (length d - r_pos r + 2 <= fuel \/ fst m <> TypeVariable /\ 1 <= fuel)%nat ->
    exists o r', des_vars fuel d t m nd r = Ok (o, r') /\ (r_pos r <= r_pos r' <= length d)%nat /\
      match o with None => True | Some (m', nd') => node_inv id t k nd' /\ fst m' <> TypeVariable end.
  Proof.
    induction fuel as [|f IH]; intros id t k m nd r Hp Hn Hf; [lia|]. cbn [des_vars].
    destruct (fst m =? TypeVariable) eqn:E.
    - destruct (get_value_total d 4 r Hp) as (v & r1 & -> & Hr1 & Hv). cbn [bind]. destruct v as [v|].
      2: { do 2 eexists. split; [reflexivity|]. auto. }
      assert (X : exists nd1, (if (snd m <? length (t_vars t))%nat then _ <- rd (nd_vars nd) (snd m) ; Ok (set_var nd (snd m) v) else Ok nd) = Ok nd1
                 /\ node_inv id t k nd1).
      { destruct (snd m <? length (t_vars t))%nat eqn:L; [|eauto]. destruct (rd_lt _ (nd_vars nd) (snd m)) as (x & -> & _).
        - destruct Hn as (_ & _ & -> & _). lia.
        - simpl. eexists. split; [reflexivity|]. apply node_inv_var; auto. }
      destruct X as (nd1 & -> & Hn1). cbn [bind].
      destruct (get_member_total d r1) as (m' & r2 & -> & Hr2 & Hm); [lia|]. cbn [bind]. destruct m' as [m'|].
      2: { do 2 eexists. split; [reflexivity|]. split; [lia|auto]. }
      destruct (IH id t k m' nd1 r2) as (o & r3 & E3 & Hr3 & Ho); auto; [lia| |].
      { left. lia. }
      rewrite E3. do 2 eexists. split; [reflexivity|]. split; [lia|auto].
    - do 2 eexists. split; [reflexivity|]. split; [lia|]. split; auto. lia.
  Qed.

  Definition DPost (r : rstream) (out : heap) (p : option nat) (r' : rstream) (out' : heap) : Prop :=
    (r_pos r <= r_pos r' <= length d)%nat /\ heap_inv out' /\ (exists ext, out' = out ++ ext) /\
    (forall k, p = Some k -> (k < length out')%nat).

  Definition rec_ok (f : nat) (rec : rstream -> heap -> res (option nat * rstream * heap)) : Prop :=
    forall r out, (r_pos r <= length d)%nat -> (length d - r_pos r < f)%nat -> heap_inv out ->
      exists p r' out', rec r out = Ok (p, r', out') /\ DPost r out p r' out'.

  Lemma des_lookups_total : forall f rec id t, rec_ok f rec -> forall k i nd r out,
    (r_pos r <= length d)%nat -> (length d - r_pos r < f)%nat -> heap_inv out -> node_inv id t (length out) nd ->
    exists nd' r' out', des_lookups rec t k i nd r out = Ok (nd', r', out') /\ DPost r out None r' out' /\ node_inv id t (length out') nd'.
  Proof.
    intros f rec id t Hrec. induction k as [|k IH]; intros i nd r out Hp Hf Ho Hn; cbn [des_lookups].
    - do 3 eexists. split; [reflexivity|]. split; auto. split; [lia|]. split; auto. split; [exists []; rewrite app_nil_r; auto|discriminate].
    - destruct (Hrec r out Hp Hf Ho) as (p & r1 & out1 & -> & Hr1 & Ho1 & (ext1 & ->) & Hk1). cbn [bind].
      assert (Hn1 : node_inv id t (length (out ++ ext1)) nd) by (eapply node_inv_mono; [|eassumption]; rewrite app_length; lia).
      assert (X : exists nd1, (if (i <? length (t_lookups t))%nat then _ <- rd (nd_lookups nd) i ; Ok (set_lookup nd i p) else Ok nd) = Ok nd1
                 /\ node_inv id t (length (out ++ ext1)) nd1).
      { destruct (i <? length (t_lookups t))%nat eqn:L; [|eauto]. destruct (rd_lt _ (nd_lookups nd) i) as (x & -> & _).
        - destruct Hn as (_ & _ & _ & -> & _). lia.
        - simpl. eexists. split; [reflexivity|]. apply node_inv_lookup; auto. }
      destruct X as (nd1 & -> & Hn2). cbn [bind].
      destruct (IH (S i) nd1 r1 (out ++ ext1)) as (nd2 & r2 & out2 & -> & (Hr2 & Ho2 & (ext2 & ->) & _) & Hn3); auto; [lia|lia|].
      do 3 eexists. split; [reflexivity|]. split; auto. split; [lia|]. split; auto. split; [|discriminate].
      exists (ext1 ++ ext2). rewrite app_assoc. reflexivity.
  Qed.

  Lemma des_hybrids_total : forall f rec id t, rec_ok f rec -> forall fuel m nd r out,
    (r_pos r <= length d)%nat -> (length d - r_pos r < f)%nat -> heap_inv out -> node_inv id t (length out) nd ->
    (length d - r_pos r + 2 <= fuel \/ fst m = NodeEnd /\ 1 <= fuel)%nat ->
    exists o r' out', des_hybrids rec d t fuel m nd r out = Ok (o, r', out') /\ DPost r out None r' out' /\
      match o with None => True | Some nd' => node_inv id t (length out') nd' end.
  Proof.
    intros f rec id t Hrec. induction fuel as [|fuel IH]; intros m nd r out Hp Hf Ho Hn Hfu; [lia|]. cbn [des_hybrids].
    assert (Dself : DPost r out None r out).
    { split; [lia|]. split; auto. split; [exists []; rewrite app_nil_r; auto|discriminate]. }
    destruct (fst m =? NodeEnd) eqn:E.
    { do 3 eexists. split; [reflexivity|]. auto. }
    assert (Hm0 : fst m <> NodeEnd) by lia.
    match goal with |- context [bind ?X _] => assert (Y : exists o r1 out1, X = Ok (o, r1, out1) /\ DPost r out None r1 out1 /\
       match o with None => True | Some nd1 => node_inv id t (length out1) nd1 end) end.
    { destruct (fst m =? TypeHybridLookup).
      - destruct (Hrec r out Hp Hf Ho) as (p & r1 & out1 & -> & Hr1 & Ho1 & (ext1 & ->) & Hk1). cbn [bind].
        assert (Hn1 : node_inv id t (length (out ++ ext1)) nd) by (eapply node_inv_mono; [|eassumption]; rewrite app_length; lia).
        destruct (snd m <? length (t_hybrids t))%nat eqn:L.
        + destruct (rd_lt _ (nd_hybrids nd) (snd m)) as (x & -> & Hx).
          { destruct Hn as (_ & _ & _ & _ & -> & _). lia. }
          cbn [bind]. do 3 eexists. split; [reflexivity|]. split.
          * split; [lia|]. split; auto. split; [eauto|discriminate].
          * apply node_inv_hybrid; auto.
        + cbn [bind]. do 3 eexists. split; [reflexivity|]. split; auto. split; [lia|]. split; auto. split; [eauto|discriminate].
      - destruct (fst m =? TypeHybridVariable).
        + destruct (get_value_total d 4 r Hp) as (v & r1 & -> & Hr1 & Hv). cbn [bind].
          assert (D1 : DPost r out None r1 out).
          { split; [lia|]. split; auto. split; [exists []; rewrite app_nil_r; auto|discriminate]. }
          destruct v as [v|]; [|do 3 eexists; split; [reflexivity|]; auto].
          destruct (snd m <? length (t_hybrids t))%nat eqn:L.
          * destruct (rd_lt _ (nd_hybrids nd) (snd m)) as (x & -> & Hx).
            { destruct Hn as (_ & _ & _ & _ & -> & _). lia. }
            cbn [bind]. do 3 eexists. split; [reflexivity|]. split; auto. apply node_inv_hybrid; auto.
            intros c Hc. destruct Hn as (_ & _ & _ & _ & _ & _ & G). apply nth_error_In in Hx. destruct x as [y z]. simpl in Hc. subst y. eauto.
          * cbn [bind]. do 3 eexists. split; [reflexivity|]. split; auto.
        + do 3 eexists. split; [reflexivity|]. split; auto. }
    destruct Y as (o & r1 & out1 & -> & (Hr1 & Ho1 & (ext1 & ->) & _) & Hn1). cbn [bind]. destruct o as [nd1|].
    2: { do 3 eexists. split; [reflexivity|]. split; auto. split; [lia|]. split; auto. split; [eauto|discriminate]. }
    destruct (get_member_total d r1) as (m' & r2 & -> & Hr2 & Hm); [lia|]. cbn [bind]. destruct m' as [m'|].
    2: { do 3 eexists. split; [reflexivity|]. split; auto. split; [lia|]. split; auto. split; [eauto|discriminate]. }
    destruct (IH m' nd1 r2 (out ++ ext1)) as (o & r3 & out3 & -> & (Hr3 & Ho3 & (ext3 & ->) & _) & Hn3); auto; [lia|lia| |].
    { destruct Hm as [Hm|(Hm & _)]; [left; lia|right; split; [exact Hm|lia]]. }
    do 3 eexists. split; [reflexivity|]. split; auto. split; [lia|]. split; auto. split; [|discriminate].
    exists (ext1 ++ ext3). rewrite app_assoc. reflexivity.
  Qed.

  Lemma des_total : forall fuel, rec_ok fuel (des fuel reg d).
  Proof.
    induction fuel as [|f IH]; intros r out Hp Hf Ho; [lia|]. cbn [des].
    assert (Dself : forall r', (r_pos r <= r_pos r' <= length d)%nat -> DPost r out None r' out).
    { intros r' Hr'. split; [lia|]. split; auto. split; [exists []; rewrite app_nil_r; auto|discriminate]. }
    destruct (get_value_total d 1 r Hp) as (v & r1 & -> & Hr1 & Hv). cbn [bind]. destruct v as [id|].
    2: { do 3 eexists. split; [reflexivity|]. auto. }
    destruct (id =? 255).
    { destruct (get_value_total d 2 r1) as (v & r2 & -> & Hr2 & _); [lia|]. cbn [bind]. destruct v as [ref|].
      2: { do 3 eexists. split; [reflexivity|]. apply Dself; lia. }
      destruct (length out <=? Z.to_nat ref)%nat eqn:L.
      { do 3 eexists. split; [reflexivity|]. apply Dself; lia. }
      destruct (rd_lt _ out (Z.to_nat ref)) as (x & -> & _); [lia|]. cbn [bind].
      do 3 eexists. split; [reflexivity|]. split; [lia|]. split; auto. split; [exists []; rewrite app_nil_r; auto|].
      intros k Hk. injection Hk as <-. lia. }
    destruct (length reg <=? Z.to_nat id)%nat eqn:L.
    { do 3 eexists. split; [reflexivity|]. apply Dself; lia. }
    destruct (rd_lt _ reg (Z.to_nat id)) as (t & -> & Ht); [lia|]. cbn [bind].
    destruct (get_member_total d r1) as (m & r2 & -> & Hr2 & Hm); [lia|]. cbn [bind]. destruct m as [m|].
    2: { do 3 eexists. split; [reflexivity|]. apply Dself; lia. }
    destruct Hm as [Hm|(_ & Hm)]; [|lia].
    destruct (des_vars_total f (Z.to_nat id) t (length out) m (new_node_data (Z.to_nat id) t) r2) as (o & r3 & -> & Hr3 & Hn3);
      [lia|apply node_inv_new; auto|left; lia|]. cbn [bind]. destruct o as [[m3 nd3]|].
    2: { do 3 eexists. split; [reflexivity|]. apply Dself; lia. }
    destruct Hn3 as (Hn3 & Hm3).
    match goal with |- context [bind (if fst m3 =? TypeLookup then ?A else ?B) _] =>
      assert (Y : exists o r4 out4, (if fst m3 =? TypeLookup then A else B) = Ok (o, r4, out4) /\ (r_pos r3 <= r_pos r4 <= length d)%nat /\
        heap_inv out4 /\ (exists ext, out4 = out ++ ext) /\
        match o with None => True | Some (m4, nd4) => node_inv (Z.to_nat id) t (length out4) nd4 end) end.
    { destruct (fst m3 =? TypeLookup).
      - destruct (des_lookups_total f _ (Z.to_nat id) t IH (snd m3) 0 nd3 r3 out) as (nd4 & r4 & out4 & -> & (Hr4 & Ho4 & Hext & _) & Hn4); auto; [lia|lia|].
        cbn [bind]. destruct (get_member_total d r4) as (m5 & r5 & -> & Hr5 & _); [lia|]. cbn [bind].
        do 3 eexists. split; [reflexivity|]. split; [lia|]. split; auto. split; auto. destruct m5; auto.
      - do 3 eexists. split; [reflexivity|]. split; [lia|]. split; auto. split; [exists []; rewrite app_nil_r; auto|auto]. }
    destruct Y as (o & r4 & out4 & -> & Hr4 & Ho4 & (ext4 & ->) & Hn4). cbn [bind]. destruct o as [[m4 nd4]|].
    2: { do 3 eexists. split; [reflexivity|]. split; [lia|]. split; auto. split; [eauto|discriminate]. }
    destruct (des_hybrids_total f _ (Z.to_nat id) t IH f m4 nd4 r4 (out ++ ext4)) as (o & r5 & out5 & -> & (Hr5 & Ho5 & (ext5 & ->) & _) & Hn5); auto; [lia|lia|left; lia|].
    cbn [bind]. destruct o as [nd5|].
    - do 3 eexists. split; [reflexivity|]. split; [lia|]. split; [eapply heap_inv_snoc; eauto|]. split.
      + exists (ext4 ++ ext5 ++ [nd5]). rewrite <- !app_assoc. reflexivity.
      + intros k Hk. injection Hk as <-. rewrite !app_length. simpl. lia.
    - do 3 eexists. split; [reflexivity|]. split; [lia|]. split; auto. split; [|discriminate].
      exists (ext4 ++ ext5). rewrite <- !app_assoc. reflexivity.
  Qed.
End Total.
