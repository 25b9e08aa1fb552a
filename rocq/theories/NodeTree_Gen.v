(** NewFromEncodedNodeTree on arbitrary bytes: totality and invariants. *)
From Coq Require Import ZArith List Bool Lia ZifyBool ZifyNat.
From Verif Require Import Prelude Registry_Model Base64_Model NodeTree_Model NodeTree_Spec NodeTree_Tokens NodeTree_Des.
Import ListNotations.
Open Scope Z_scope.

Section GenTotal.
  Variable reg : list node_type.
  Variable d : list Z.
  (** type 0 is Constant: one variable, no sources, no hybrids *)
  Variable ct0 : node_type.
  Hypothesis Hct : nth_error reg 0 = Some ct0.
  Hypothesis Hctv : length (t_vars ct0) = 1%nat /\ t_lookups ct0 = [] /\ t_hybrids ct0 = [].

  (** connected sources are accepted *)
  Definition lk_typed (t : node_type) (hp : heap) (nd : node_data) : Prop :=
    forall i l c, nth_error (t_lookups t) i = Some l -> nth_error (nd_lookups nd) i = Some (Some c) ->
      exists cd cid ct, nth_error hp c = Some cd /\ nd_meta cd = Some cid /\ nth_error reg cid = Some ct /\ accepts l ct = true.
  Definition no_lk (nd : node_data) : Prop := forall p, In p (nd_lookups nd) -> p = None.
  Definition all_lk (nd : node_data) : Prop := ~ In None (nd_lookups nd).
  (** the first [i] sources are connected *)
  Definition lk_upto (i : nat) (nd : node_data) : Prop := forall j, (j < i)%nat -> nth_error (nd_lookups nd) j <> Some None.

  Definition gnode (hp : heap) (k : nat) (nd : node_data) : Prop :=
    exists id t, node_inv reg id t k nd /\ lk_typed t hp nd /\ (no_lk nd \/ all_lk nd).
  Definition gheap (hp : heap) : Prop := forall i nd, nth_error hp i = Some nd -> gnode hp i nd.
  Definition ginv (g : gen_state) : Prop := gheap (g_heap g) /\ forall x, In x (g_refs g) -> (x < length (g_heap g))%nat.

  Lemma lk_typed_app : forall t hp ext nd, lk_typed t hp nd -> lk_typed t (hp ++ ext) nd.
  Proof.
    intros t hp ext nd H i l c Hl Hc. destruct (H i l c Hl Hc) as (cd & cid & ct & A & B). exists cd, cid, ct. split; auto.
    rewrite nth_error_app1; auto. apply nth_error_Some. congruence.
  Qed.
  Lemma gnode_app : forall hp ext k nd, gnode hp k nd -> gnode (hp ++ ext) k nd.
  Proof. intros hp ext k nd (id & t & A & B & C). exists id, t. split; auto. split; auto. apply lk_typed_app; auto. Qed.

  Lemma gheap_snoc : forall hp nd, gheap hp -> gnode hp (length hp) nd -> gheap (hp ++ [nd]).
  Proof.
    intros hp nd H Hn i x Hx. destruct (Nat.lt_ge_cases i (length hp)) as [L|L].
    - rewrite nth_error_app1 in Hx by auto. apply gnode_app. auto.
    - rewrite nth_error_app2 in Hx by auto. destruct (i - length hp)%nat as [|j] eqn:E; [|destruct j; discriminate].
      simpl in Hx. injection Hx as <-. assert (i = length hp) by lia. subst i. apply gnode_app. auto.
  Qed.

  Lemma node_type_total : forall hp m, gheap hp -> (m < length hp)%nat ->
    exists cd cid ct, node_type_of reg hp m = Ok ct /\ nth_error hp m = Some cd /\ nd_meta cd = Some cid /\ nth_error reg cid = Some ct.
  Proof.
    intros hp m H Hm. unfold node_type_of. destruct (rd_lt _ hp m Hm) as (cd & -> & Hcd). cbn [bind].
    destruct (H m cd Hcd) as (id & t & (A & B & _) & _). rewrite A. unfold rd. rewrite B. exists cd, id, t. auto.
  Qed.

  Definition GPost (r : rstream) (g : gen_state) (p : option nat) (r' : rstream) (g' : gen_state) : Prop :=
    (r_pos r <= r_pos r' <= length d)%nat /\ ginv g' /\ (exists ext, g_heap g' = g_heap g ++ ext) /\
    (forall k, p = Some k -> (k < length (g_heap g'))%nat).

  Definition grec_ok (f : nat) (rec : rstream -> gen_state -> res (option nat * rstream * gen_state)) : Prop :=
    forall r g, (r_pos r <= length d)%nat -> (length d - r_pos r < f)%nat -> ginv g ->
      exists p r' g', rec r g = Ok (p, r', g') /\ GPost r g p r' g'.

  Definition bnode (id : nat) (t : node_type) (g : gen_state) (nd : node_data) : Prop :=
    node_inv reg id t (length (g_heap g)) nd /\ lk_typed t (g_heap g) nd.

  Lemma bnode_grow : forall id t g g' nd ext, bnode id t g nd -> g_heap g' = g_heap g ++ ext -> bnode id t g' nd.
  Proof.
    intros id t g g' nd ext (A & B) E. split; rewrite E.
    - eapply node_inv_mono; [|eassumption]. rewrite app_length. lia.
    - apply lk_typed_app; auto.
  Qed.

  Lemma bnode_set : forall id t g nd i l m cd cid ct, bnode id t g nd -> nth_error (t_lookups t) i = Some l ->
    nth_error (g_heap g) m = Some cd -> nd_meta cd = Some cid -> nth_error reg cid = Some ct -> accepts l ct = true ->
    bnode id t g (set_lookup nd i (Some m)).
  Proof.
    intros id t g nd i l m cd cid ct (A & B) Hl Hm Hcid Hctt Ha. split.
    - apply node_inv_lookup; auto. intros c Hc. injection Hc as <-. apply nth_error_Some. congruence.
    - intros j l' c Hl' Hc. simpl in Hc. destruct (Nat.eq_dec j i) as [->|Hne].
      + rewrite Hl in Hl'. injection Hl' as <-. rewrite nth_error_upd_eq in Hc.
        2: { destruct A as (_ & _ & _ & -> & _). apply nth_error_Some. congruence. }
        injection Hc as <-. exists cd, cid, ct. auto.
      + rewrite nth_error_upd_neq in Hc by auto. eauto.
  Qed.

  Lemma lk_upto_set : forall i nd m, lk_upto i nd -> lk_upto (S i) (set_lookup nd i (Some m)).
  Proof.
    intros i nd m H j Hj. simpl. destruct (Nat.eq_dec j i) as [->|Hne].
    - destruct (Nat.lt_ge_cases i (length (nd_lookups nd))) as [L|L].
      + rewrite nth_error_upd_eq by auto. discriminate.
      + rewrite (proj2 (nth_error_None _ _)); [discriminate|]. rewrite upd_length. auto.
    - rewrite nth_error_upd_neq by auto. apply H. lia.
  Qed.

  Lemma gen_lookups_total : forall f rec id t, grec_ok f rec -> forall k i nd r g,
    (r_pos r <= length d)%nat -> (length d - r_pos r < f)%nat -> ginv g -> bnode id t g nd -> lk_upto i nd ->
    exists o r' g', gen_lookups rec reg t k i nd r g = Ok (o, r', g') /\ GPost r g None r' g' /\
      match o with None => True | Some nd' => bnode id t g' nd' /\ lk_upto (i + k) nd' /\
         nd_hybrids nd' = nd_hybrids nd end.
  Proof.
    intros f rec id t Hrec. induction k as [|k IH]; intros i nd r g Hp Hf Ho Hn Hu; cbn [gen_lookups].
    - do 3 eexists. split; [reflexivity|]. split; [|rewrite Nat.add_0_r; auto]. split; [lia|]. split; auto. split; [exists []; rewrite app_nil_r; auto|discriminate].
    - destruct (Hrec r g Hp Hf Ho) as (p & r1 & g1 & -> & Hr1 & Ho1 & (ext1 & Eg1) & Hk1). cbn [bind].
      assert (D1 : GPost r g None r1 g1) by (split; [lia|]; split; auto; split; [eauto|discriminate]).
      destruct p as [m|]; [|do 3 eexists; split; [reflexivity|]; auto].
      assert (Hn1 : bnode id t g1 nd) by (eapply bnode_grow; eauto).
      assert (X : exists o, (match nth_error (t_lookups t) i with
                   | Some l => ct <- node_type_of reg (g_heap g1) m ;
                               if accepts l ct then _ <- rd (nd_lookups nd) i ; Ok (Some (set_lookup nd i (Some m)))
                               else Ok None
                   | None => Ok (Some nd)
                   end) = Ok o /\ match o with None => True | Some nd1 => bnode id t g1 nd1 /\ lk_upto (S i) nd1 /\ nd_hybrids nd1 = nd_hybrids nd end).
      { destruct (nth_error (t_lookups t) i) as [l|] eqn:El.
        - destruct (node_type_total (g_heap g1) m (proj1 Ho1) (Hk1 m eq_refl)) as (cd & cid & ct & -> & Hcd & Hcid & Hctt). cbn [bind].
          destruct (accepts l ct) eqn:Ea; [|exists None; auto].
          destruct (rd_lt _ (nd_lookups nd) i) as (x & -> & _).
          { destruct Hn as ((_ & _ & _ & -> & _) & _). apply nth_error_Some. congruence. }
          cbn [bind]. eexists. split; [reflexivity|]. split; [eapply bnode_set; eauto|]. split; [apply lk_upto_set; auto|reflexivity].
        - eexists. split; [reflexivity|]. split; auto. split; auto. intros j Hj. apply nth_error_None in El.
          destruct Hn as ((_ & _ & _ & L & _) & _). destruct (Nat.eq_dec j i) as [->|Hne]; [|apply Hu; lia].
          rewrite (proj2 (nth_error_None _ _)); [discriminate|lia]. }
      destruct X as (o & -> & Ho2). cbn [bind]. destruct o as [nd1|]; [|do 3 eexists; split; [reflexivity|]; auto].
      destruct Ho2 as (Hn2 & Hu2 & Hh2).
      destruct (IH (S i) nd1 r1 g1) as (o & r2 & g2 & -> & (Hr2 & Ho3 & (ext2 & Eg2) & _) & Hn3); auto; [lia|lia|].
      do 3 eexists. split; [reflexivity|]. split.
      + split; [lia|]. split; auto. split; [|discriminate]. exists (ext1 ++ ext2). rewrite Eg2, Eg1, app_assoc. reflexivity.
      + destruct o; auto. destruct Hn3 as (A & B & C). split; auto. split; [|congruence]. replace (i + S k)%nat with (S i + k)%nat by lia. auto.
  Qed.

  Lemma gnode_constant : forall hp k, gnode hp k constant_generator.
  Proof.
    intros hp k. destruct Hctv as (A & B & C). exists 0%nat, ct0. split; [|split].
    - repeat split; simpl; auto; try (intros c []; fail); try (intros c v []; fail); rewrite ?B, ?C; auto.
    - intros i l c Hl. rewrite B in Hl. destruct i; discriminate.
    - left. intros p [].
  Qed.

  Lemma gen_fill_total : forall id t, forall ls i nd g,
    ginv g -> bnode id t g nd -> lk_upto i nd -> (forall j, nth_error ls j = nth_error (t_lookups t) (i + j)) ->
    exists o g', gen_fill reg i ls nd g = Ok (o, g') /\ ginv g' /\ (exists ext, g_heap g' = g_heap g ++ ext) /\
      match o with None => True | Some nd' => bnode id t g' nd' /\ lk_upto (i + length ls) nd' /\ nd_hybrids nd' = nd_hybrids nd end.
  Proof.
    intros id t. induction ls as [|l ls IH]; intros i nd g Hg Hn Hu Hls; cbn [gen_fill].
    - do 2 eexists. split; [reflexivity|]. split; auto. split; [exists []; rewrite app_nil_r; auto|]. simpl. rewrite Nat.add_0_r. auto.
    - set (g1 := {| g_heap := g_heap g ++ [constant_generator]; g_refs := g_refs g |}).
      assert (Hg1 : ginv g1).
      { split; simpl; [apply gheap_snoc; [apply Hg|apply gnode_constant]|]. intros x Hx. rewrite app_length. apply (proj2 Hg) in Hx. lia. }
      assert (Hn1 : bnode id t g1 nd) by (eapply bnode_grow; eauto; reflexivity).
      assert (Hl : nth_error (t_lookups t) i = Some l) by (specialize (Hls 0%nat); rewrite Nat.add_0_r in Hls; auto).
      destruct (node_type_total (g_heap g1) (length (g_heap g)) (proj1 Hg1)) as (cd & cid & ct & E & Hcd & Hcid & Hctt).
      { simpl. rewrite app_length. simpl. lia. }
      rewrite E. cbn [bind]. destruct (accepts l ct) eqn:Ea.
      + destruct (rd_lt _ (nd_lookups nd) i) as (x & -> & _).
        { destruct Hn as ((_ & _ & _ & -> & _) & _). apply nth_error_Some. congruence. }
        cbn [bind]. destruct (IH (S i) (set_lookup nd i (Some (length (g_heap g)))) g1) as (o & g2 & -> & Hg2 & (ext & Eg2) & Ho); auto.
        { eapply bnode_set; eauto. } { apply lk_upto_set; auto. } { intros j. specialize (Hls (S j)). simpl in Hls. rewrite Hls. f_equal. lia. }
        do 2 eexists. split; [reflexivity|]. split; auto. split; [exists (constant_generator :: ext); rewrite Eg2; simpl; rewrite <- app_assoc; reflexivity|].
        destruct o; auto. destruct Ho as (A & B & C). split; auto. split; auto. simpl length. replace (i + S (length ls))%nat with (S i + length ls)%nat by lia. auto.
      + do 2 eexists. split; [reflexivity|]. split; auto. split; auto. exists [constant_generator]. reflexivity.
  Qed.

  Lemma bnode_hybrid : forall id t g nd i p, bnode id t g nd -> (forall c, fst p = Some c -> (c < length (g_heap g))%nat) -> bnode id t g (set_hybrid nd i p).
  Proof. intros id t g nd i p (A & B) H. split; [apply node_inv_hybrid; auto|]. exact B. Qed.

  Lemma gen_hybrids_total : forall f rec id t, grec_ok f rec -> forall fuel m nd r g,
    (r_pos r <= length d)%nat -> (length d - r_pos r < f)%nat -> ginv g -> bnode id t g nd ->
    (length d - r_pos r + 2 <= fuel \/ fst m = NodeEnd /\ 1 <= fuel)%nat ->
    exists o r' g', gen_hybrids rec d t fuel m nd r g = Ok (o, r', g') /\ GPost r g None r' g' /\
      match o with None => True | Some nd' => bnode id t g' nd' /\ nd_lookups nd' = nd_lookups nd end.
  Proof.
    intros f rec id t Hrec. induction fuel as [|fuel IH]; intros m nd r g Hp Hf Ho Hn Hfu; [lia|]. cbn [gen_hybrids].
    assert (Dself : GPost r g None r g).
    { split; [lia|]. split; auto. split; [exists []; rewrite app_nil_r; auto|discriminate]. }
    destruct (fst m =? NodeEnd) eqn:E.
    { do 3 eexists. split; [reflexivity|]. auto. }
    assert (Hm0 : fst m <> NodeEnd) by lia.
    match goal with |- context [bind ?X _] => assert (Y : exists o r1 g1, X = Ok (o, r1, g1) /\ GPost r g None r1 g1 /\
       match o with None => True | Some nd1 => bnode id t g1 nd1 /\ nd_lookups nd1 = nd_lookups nd end) end.
    { destruct (fst m =? TypeHybridLookup).
      - destruct (Hrec r g Hp Hf Ho) as (p & r1 & g1 & -> & Hr1 & Ho1 & (ext1 & Eg1) & Hk1). cbn [bind].
        assert (D1 : GPost r g None r1 g1) by (split; [lia|]; split; auto; split; [eauto|discriminate]).
        assert (Hn1 : bnode id t g1 nd) by (eapply bnode_grow; eauto).
        destruct (snd m <? length (t_hybrids t))%nat eqn:L.
        + destruct p as [c|]; [|do 3 eexists; split; [reflexivity|]; auto].
          destruct (rd_lt _ (nd_hybrids nd) (snd m)) as (x & -> & Hx).
          { destruct Hn as ((_ & _ & _ & _ & -> & _) & _). lia. }
          cbn [bind]. do 3 eexists. split; [reflexivity|]. split; auto. split; [|reflexivity].
          apply bnode_hybrid; auto.
        + do 3 eexists. split; [reflexivity|]. split; auto.
      - destruct (fst m =? TypeHybridVariable).
        + destruct (get_value_total d 4 r Hp) as (v & r1 & -> & Hr1 & Hv). cbn [bind].
          assert (D1 : GPost r g None r1 g).
          { split; [lia|]. split; auto. split; [exists []; rewrite app_nil_r; auto|discriminate]. }
          destruct v as [v|]; [|do 3 eexists; split; [reflexivity|]; auto].
          destruct (snd m <? length (t_hybrids t))%nat eqn:L.
          * destruct (rd_lt _ (nd_hybrids nd) (snd m)) as (x & -> & Hx).
            { destruct Hn as ((_ & _ & _ & _ & -> & _) & _). lia. }
            cbn [bind]. do 3 eexists. split; [reflexivity|]. split; auto. split; [|reflexivity]. apply bnode_hybrid; auto. discriminate.
          * cbn [bind]. do 3 eexists. split; [reflexivity|]. split; auto.
        + do 3 eexists. split; [reflexivity|]. split; auto. }
    destruct Y as (o & r1 & g1 & -> & (Hr1 & Ho1 & (ext1 & Eg1) & _) & Hn1). cbn [bind].
    assert (Dn : forall r2, (r_pos r1 <= r_pos r2 <= length d)%nat -> GPost r g None r2 g1).
    { intros r2 H2. split; [lia|]. split; auto. split; [eauto|discriminate]. }
    destruct o as [nd1|].
    2: { do 3 eexists. split; [reflexivity|]. split; auto; apply Dn; lia. }
    destruct Hn1 as (Hn1 & Hl1).
    destruct (get_member_total d r1) as (m' & r2 & -> & Hr2 & Hm); [lia|]. cbn [bind]. destruct m' as [m'|].
    2: { do 3 eexists. split; [reflexivity|]. split; auto; apply Dn; lia. }
    destruct (IH m' nd1 r2 g1) as (o & r3 & g3 & -> & (Hr3 & Ho3 & (ext3 & Eg3) & _) & Hn3); auto; [lia|lia| |].
    { destruct Hm as [Hm|(Hm & _)]; [left; lia|right; split; [exact Hm|lia]]. }
    do 3 eexists. split; [reflexivity|]. split.
    - split; [lia|]. split; auto. split; [|discriminate]. exists (ext1 ++ ext3). rewrite Eg3, Eg1, app_assoc. reflexivity.
    - destruct o; auto. destruct Hn3. split; auto. congruence.
  Qed.

  Lemma node_inv_newgen : forall id t k, nth_error reg id = Some t -> node_inv reg id t k (new_generator id t).
  Proof.
    intros. unfold new_generator. repeat split; simpl; rewrite ?map_length; auto.
    - intros c Hc. apply in_map_iff in Hc. destruct Hc as (? & ? & _). discriminate.
    - intros c v Hc. apply in_map_iff in Hc. destruct Hc as (? & ? & _). discriminate.
  Qed.

  (** the variables loop leaves sources and hybrids alone *)
  Lemma des_vars_frame : forall fuel t m nd r m' nd' r', des_vars fuel d t m nd r = Ok (Some (m', nd'), r') ->
    nd_lookups nd' = nd_lookups nd /\ nd_hybrids nd' = nd_hybrids nd /\ nd_meta nd' = nd_meta nd.
  Proof.
    induction fuel as [|f IH]; intros t m nd r m' nd' r' H; cbn [des_vars] in H; [discriminate|].
    destruct (fst m =? TypeVariable); [|injection H as <- <- <-; auto].
    destruct (get_value d 4 r) as [[[v|] r1]| |]; cbn [bind] in H; try discriminate.
    destruct (if (snd m <? length (t_vars t))%nat then _ else _) as [nd1| |] eqn:E1; cbn [bind] in H; try discriminate.
    assert (F : nd_lookups nd1 = nd_lookups nd /\ nd_hybrids nd1 = nd_hybrids nd /\ nd_meta nd1 = nd_meta nd).
    { destruct (snd m <? length (t_vars t))%nat; [|injection E1 as <-; auto].
      destruct (rd (nd_vars nd) (snd m)); cbn [bind] in E1; try discriminate. injection E1 as <-. auto. }
    destruct (get_member d r1) as [[[m1|] r2]| |]; cbn [bind] in H; try discriminate.
    apply IH in H. destruct F as (-> & -> & ->) in H. auto.
  Qed.

  Lemma gen_total : forall fuel, grec_ok fuel (gen fuel reg d).
  Proof.
    induction fuel as [|f IH]; intros r g Hp Hf Ho; [lia|]. cbn [gen].
    assert (Dself : forall r', (r_pos r <= r_pos r' <= length d)%nat -> GPost r g None r' g).
    { intros r' Hr'. split; [lia|]. split; auto. split; [exists []; rewrite app_nil_r; auto|discriminate]. }
    destruct (get_value_total d 1 r Hp) as (v & r1 & -> & Hr1 & Hv). cbn [bind]. destruct v as [id|].
    2: { do 3 eexists. split; [reflexivity|]. auto. }
    destruct (id =? 255).
    { destruct (get_value_total d 2 r1) as (v & r2 & -> & Hr2 & _); [lia|]. cbn [bind]. destruct v as [ref|].
      2: { do 3 eexists. split; [reflexivity|]. apply Dself; lia. }
      destruct (length (g_refs g) <=? Z.to_nat ref)%nat eqn:L.
      { do 3 eexists. split; [reflexivity|]. apply Dself; lia. }
      destruct (rd_lt _ (g_refs g) (Z.to_nat ref)) as (x & -> & Hx); [lia|]. cbn [bind].
      do 3 eexists. split; [reflexivity|]. split; [lia|]. split; auto. split; [exists []; rewrite app_nil_r; auto|].
      intros k Hk. injection Hk as <-. apply (proj2 Ho). eapply nth_error_In; eauto. }
    destruct (length reg <=? Z.to_nat id)%nat eqn:L.
    { do 3 eexists. split; [reflexivity|]. apply Dself; lia. }
    destruct (rd_lt _ reg (Z.to_nat id)) as (t & -> & Ht); [lia|]. cbn [bind].
    destruct (get_member_total d r1) as (m & r2 & -> & Hr2 & Hm); [lia|]. cbn [bind]. destruct m as [m|].
    2: { do 3 eexists. split; [reflexivity|]. apply Dself; lia. }
    destruct Hm as [Hm|(_ & Hm)]; [|lia].
    destruct (des_vars_total reg d f (Z.to_nat id) t (length (g_heap g)) m (new_generator (Z.to_nat id) t) r2) as (o & r3 & E3 & Hr3 & Hn3);
      [lia|apply node_inv_newgen; auto|left; lia|]. rewrite E3. cbn [bind]. destruct o as [[m3 nd3]|].
    2: { do 3 eexists. split; [reflexivity|]. apply Dself; lia. }
    destruct Hn3 as (Hn3 & Hm3). apply des_vars_frame in E3. destruct E3 as (F1 & _).
    assert (HnoL : no_lk nd3).
    { intros p Hin. rewrite F1 in Hin. simpl in Hin. apply in_map_iff in Hin. destruct Hin as (? & ? & _). auto. }
    assert (Hb3 : bnode (Z.to_nat id) t g nd3).
    { split; auto. intros i l c _ Hc. apply nth_error_In in Hc. apply HnoL in Hc. discriminate. }
    match goal with |- context [bind (if fst m3 =? TypeLookup then ?A else ?B) _] =>
      assert (Y : exists o r4 g4, (if fst m3 =? TypeLookup then A else B) = Ok (o, r4, g4) /\ (r_pos r3 <= r_pos r4 <= length d)%nat /\
        ginv g4 /\ (exists ext, g_heap g4 = g_heap g ++ ext) /\
        match o with None => True | Some (m4, nd4) => bnode (Z.to_nat id) t g4 nd4 /\ (no_lk nd4 \/ all_lk nd4) end) end.
    { destruct (fst m3 =? TypeLookup).
      - destruct (gen_lookups_total f _ (Z.to_nat id) t IH (snd m3) 0 nd3 r3 g) as (o & r4 & g4 & -> & (Hr4 & Ho4 & (ext4 & Eg4) & _) & Hn4); auto; [lia|lia|intros j Hj; lia|].
        cbn [bind]. destruct o as [nd4|].
        2: { do 3 eexists. split; [reflexivity|]. split; [lia|]. split; auto. split; eauto. }
        destruct Hn4 as (Hn4 & Hu4 & _).
        destruct (gen_fill_total (Z.to_nat id) t (skipn (snd m3) (t_lookups t)) (snd m3) nd4 g4) as (o & g5 & -> & Ho5 & (ext5 & Eg5) & Hn5); auto.
        { intros j. rewrite <- (firstn_skipn (snd m3) (t_lookups t)) at 2. destruct (Nat.le_gt_cases (snd m3) (length (t_lookups t))) as [Hle|Hgt].
          - rewrite nth_error_app2 by (rewrite firstn_length; lia). rewrite firstn_length. f_equal. lia.
          - rewrite skipn_all2 by lia. rewrite firstn_all2 by lia. rewrite app_nil_r. rewrite (proj2 (nth_error_None (t_lookups t) _)) by lia. destruct j; reflexivity. }
        cbn [bind]. assert (Eg : exists ext, g_heap g5 = g_heap g ++ ext) by (exists (ext4 ++ ext5); rewrite Eg5, Eg4, app_assoc; reflexivity).
        destruct o as [nd5|].
        2: { do 3 eexists. split; [reflexivity|]. split; [lia|]. split; auto. }
        destruct Hn5 as (Hn5 & Hu5 & _).
        destruct (get_member_total d r4) as (m5 & r5 & -> & Hr5 & _); [lia|]. cbn [bind].
        do 3 eexists. split; [reflexivity|]. split; [lia|]. split; auto. split; auto. destruct m5; auto. split; auto. right.
        intros Hin. destruct (In_nth_error _ _ Hin) as (j & Hj). apply (Hu5 j); auto.
        assert (Hjl : (j < length (nd_lookups nd5))%nat) by (apply nth_error_Some; congruence).
        destruct Hn5 as ((_ & _ & _ & L5 & _) & _). rewrite skipn_length. lia.
      - do 3 eexists. split; [reflexivity|]. split; [lia|]. split; auto. split; [exists []; rewrite app_nil_r; auto|auto]. }
    destruct Y as (o & r4 & g4 & -> & Hr4 & Ho4 & (ext4 & Eg4) & Hn4). cbn [bind]. destruct o as [[m4 nd4]|].
    2: { do 3 eexists. split; [reflexivity|]. split; [lia|]. split; auto. split; [eauto|discriminate]. }
    destruct Hn4 as (Hn4 & Hlk4).
    destruct (gen_hybrids_total f _ (Z.to_nat id) t IH f m4 nd4 r4 g4) as (o & r5 & g5 & -> & (Hr5 & Ho5 & (ext5 & Eg5) & _) & Hn5); auto; [lia|lia|left; lia|].
    cbn [bind]. destruct o as [nd5|].
    - destruct Hn5 as (Hn5 & Hl5). do 3 eexists. split; [reflexivity|]. split; [lia|]. split; [|split].
      + split; cbn [g_heap g_refs].
        * apply gheap_snoc; [apply Ho5|]. destruct Hn5. exists (Z.to_nat id), t. split; auto. split; auto.
          unfold no_lk, all_lk in *. rewrite Hl5. auto.
        * intros x Hx. rewrite app_length. simpl. rewrite in_app_iff in Hx. destruct Hx as [Hx|[<-|[]]]; [|lia].
          apply (proj2 Ho5) in Hx. lia.
      + exists (ext4 ++ ext5 ++ [nd5]). cbn [g_heap]. rewrite Eg5, Eg4, <- !app_assoc. reflexivity.
      + intros k Hk. injection Hk as <-. simpl. rewrite app_length. simpl. lia.
    - do 3 eexists. split; [reflexivity|]. split; [lia|]. split; auto. split; [|discriminate].
      exists (ext4 ++ ext5). rewrite Eg5, Eg4, <- app_assoc. reflexivity.
  Qed.
End GenTotal.

(** heaps in which children precede their consumers are acyclic *)
Lemma ordered_acyclic : forall (h : heap), (forall i nd, nth_error h i = Some nd ->
    (forall c, In (Some c) (nd_lookups nd) -> (c < i)%nat) /\ (forall c v, In (Some c, v) (nd_hybrids nd) -> (c < i)%nat)) ->
  forall root, acyclic_from h root.
Proof.
  intros h H root m c _ Hl Hr.
  assert (X : forall a b, link h a b -> (b < a)%nat).
  { intros a b (nd & Hn & [Hc|(v & Hc)]); destruct (H a nd Hn); eauto. }
  assert (Y : forall a b, reach h a b -> (b <= a)%nat).
  { intros a b Hr'. induction Hr'; auto. apply X in H0. lia. }
  apply X in Hl. apply Y in Hr. lia.
Qed.
