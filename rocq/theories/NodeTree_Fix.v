(** Serialising with fix-up. *)
From Coq Require Import ZArith List Bool Lia ZifyBool ZifyNat.
From Verif Require Import Prelude Registry_Model Base64_Model NodeTree_Model NodeTree_Spec NodeTree_Tokens NodeTree_Ser NodeTree_Des.
Import ListNotations.
Open Scope Z_scope.

(** [b] is [a] with some connections removed *)
Definition ptr_le (p q : option nat) : Prop := q = p \/ q = None.
Record nd_le (a b : node_data) : Prop := {
  le_meta : nd_meta b = nd_meta a;
  le_vars : nd_vars b = nd_vars a;
  le_lk : Forall2 ptr_le (nd_lookups a) (nd_lookups b);
  le_hy : Forall2 (fun p q => ptr_le (fst p) (fst q) /\ snd q = snd p) (nd_hybrids a) (nd_hybrids b)
}.
Definition shrinks (h h' : heap) : Prop := Forall2 nd_le h h'.

Lemma Forall2_refl_in : forall A (P : A -> A -> Prop) l, (forall x, P x x) -> Forall2 P l l.
Proof. induction l; constructor; auto. Qed.
Lemma Forall2_trans_in : forall A (P : A -> A -> Prop) a b c, (forall x y z, P x y -> P y z -> P x z) -> Forall2 P a b -> Forall2 P b c -> Forall2 P a c.
Proof. intros A P a b c HT H. revert c. induction H; intros c H2; inversion H2; subst; constructor; eauto. Qed.

Lemma nd_le_refl : forall a, nd_le a a.
Proof. intros a. constructor; auto; apply Forall2_refl_in; unfold ptr_le; auto. Qed.
Lemma nd_le_trans : forall a b c, nd_le a b -> nd_le b c -> nd_le a c.
Proof.
  intros a b c [] []. constructor; try congruence.
  - eapply Forall2_trans_in; eauto. unfold ptr_le. intros x y z [->| ->] [->| ->]; auto.
  - eapply Forall2_trans_in; eauto. unfold ptr_le. intros x y z ([E1|E1] & E2) ([E3|E3] & E4); split; try congruence; rewrite E3; auto.
Qed.
Lemma shrinks_refl : forall h, shrinks h h.
Proof. intros. apply Forall2_refl_in. apply nd_le_refl. Qed.

Lemma Forall2_nth_l : forall A B (P : A -> B -> Prop) a b i x, Forall2 P a b -> nth_error a i = Some x -> exists y, nth_error b i = Some y /\ P x y.
Proof. intros A B P a b i x H. revert i. induction H; intros [|i] Hi; simpl in *; try discriminate; eauto. injection Hi as <-. eauto. Qed.
Lemma Forall2_nth_r : forall A B (P : A -> B -> Prop) a b i y, Forall2 P a b -> nth_error b i = Some y -> exists x, nth_error a i = Some x /\ P x y.
Proof. intros A B P a b i y H. revert i. induction H; intros [|i] Hi; simpl in *; try discriminate; eauto. injection Hi as <-. eauto. Qed.

Lemma shrinks_upd : forall h h1 n nd nd', shrinks h h1 -> nth_error h1 n = Some nd -> nd_le nd nd' -> shrinks h (upd h1 n nd').
Proof.
  intros h h1 n nd nd' H. revert n. induction H; intros [|n] Hn Hle; simpl in *; try discriminate.
  - injection Hn as ->. constructor; auto. eapply nd_le_trans; eauto.
  - constructor; auto. apply IHForall2; auto.
Qed.

Lemma shrinks_length : forall h h', shrinks h h' -> length h' = length h.
Proof. intros h h' H. induction H; simpl; congruence. Qed.

Lemma Forall2_In_r : forall A B (P : A -> B -> Prop) a b y, Forall2 P a b -> In y b -> exists x, In x a /\ P x y.
Proof. intros A B P a b y H. induction H; intros []; subst; eauto. - exists x. split; auto. left; auto. - destruct IHForall2 as (z & ? & ?); auto. exists z. split; auto. right; auto. Qed.

Lemma shrinks_link : forall h h' a b, shrinks h h' -> link h' a b -> link h a b.
Proof.
  intros h h' a b HS (nd' & Hn & Hl). destruct (Forall2_nth_r _ _ _ _ _ _ _ HS Hn) as (nd & Hnd & []). exists nd. split; auto.
  destruct Hl as [Hl|(v & Hl)].
  - left. destruct (Forall2_In_r _ _ _ _ _ _ le_lk0 Hl) as (p & Hp & [E|E]); congruence.
  - right. destruct (Forall2_In_r _ _ _ _ _ _ le_hy0 Hl) as ([p w] & Hp & [E|E] & E2); simpl in *; [subst; eauto|discriminate].
Qed.

Lemma shrinks_meta : forall h h' x nd', shrinks h h' -> nth_error h' x = Some nd' -> exists nd, nth_error h x = Some nd /\ nd_meta nd' = nd_meta nd.
Proof. intros h h' x nd' HS Hn. destruct (Forall2_nth_r _ _ _ _ _ _ _ HS Hn) as (nd & Hnd & []). eauto. Qed.

(** null_loops *)
Lemma mem_In : forall l n, mem n l = true <-> In n l.
Proof.
  intros l n. unfold mem. rewrite existsb_exists. split.
  - intros (x & Hx & E). apply Nat.eqb_eq in E. subst; auto.
  - intros H. exists n. split; auto. apply Nat.eqb_refl.
Qed.
Lemma null_dep_le : forall deps p, ptr_le p (null_dep deps p).
Proof. intros deps [m|]; unfold null_dep, ptr_le; auto. destruct (mem m deps); auto. Qed.
Lemma null_loops_le : forall deps nd, nd_le nd (null_loops deps nd).
Proof.
  intros deps nd. constructor; auto; simpl.
  - induction (nd_lookups nd); constructor; auto. apply null_dep_le.
  - induction (nd_hybrids nd); constructor; auto. split; auto. apply null_dep_le.
Qed.
Lemma null_loops_free : forall deps nd c, In (Some c) (nd_lookups (null_loops deps nd)) \/ (exists v, In (Some c, v) (nd_hybrids (null_loops deps nd))) -> ~ In c deps.
Proof.
  intros deps nd c H Hin. apply mem_In in Hin. simpl in H. destruct H as [H|(v & H)]; apply in_map_iff in H.
  - destruct H as ([m|] & E & _); simpl in E; [|discriminate]. destruct (mem m deps) eqn:Em; [discriminate|]. injection E as ->. congruence.
  - destruct H as ([[m|] w] & E & _); simpl in E; [|discriminate]. destruct (mem m deps) eqn:Em; [discriminate|]. injection E as -> _. congruence.
Qed.
Lemma null_loops_id : forall deps nd, (forall c, In (Some c) (nd_lookups nd) \/ (exists v, In (Some c, v) (nd_hybrids nd)) -> ~ In c deps) -> null_loops deps nd = nd.
Proof.
  intros deps [m v l y] H. unfold null_loops. simpl in *. f_equal.
  - rewrite <- (map_id l) at 2. apply map_ext_in. intros [c|] Hc; simpl; auto. destruct (mem c deps) eqn:E; auto.
    apply mem_In in E. exfalso. apply (H c); auto.
  - rewrite <- (map_id y) at 2. apply map_ext_in. intros [[c|] w] Hc; simpl; auto. destruct (mem c deps) eqn:E; auto.
    apply mem_In in E. exfalso. apply (H c); eauto.
Qed.

Lemma upd_same : forall A (l : list A) i x, nth_error l i = Some x -> upd l i x = l.
Proof. induction l; intros [|i] x H; simpl in *; try discriminate; [injection H as ->; auto|]. f_equal. auto. Qed.

Section Fix.
  Variable reg : list node_type.
  Variable h : heap.
  Variable root : nat.
  (** every reachable node exists and has a registered type *)
  Hypothesis Hmeta : forall m, reach h root m -> exists nd id t, nth_error h m = Some nd /\ nd_meta nd = Some id /\ nth_error reg id = Some t.

  Definition disj (a b : list nat) : Prop := forall x, In x a -> ~ In x b.

  (** completed nodes *)
  Definition done (hp : heap) (R : list nat) : Prop :=
    NoDup R /\ closed_list hp R /\ forall x nd, In x R -> nth_error hp x = Some nd -> type_correct reg hp nd.

  Definition same_on (hp hp' : heap) (l : list nat) : Prop := forall x, In x l -> nth_error hp' x = nth_error hp x.

  Lemma type_correct_shrinks : forall hp hp' nd, shrinks h hp -> shrinks h hp' -> type_correct reg hp nd -> type_correct reg hp' nd.
  Proof.
    intros hp hp' nd S1 S2 H id t i l c cd cid ct A B C D E F G W.
    destruct (shrinks_meta _ _ _ _ S2 E) as (c0 & Hc0 & M0).
    destruct (Forall2_nth_l _ _ _ _ _ _ _ S1 Hc0) as (cd1 & Hcd1 & [M1 _ _ _]).
    apply (H id t i l c cd1 cid ct); auto. congruence.
  Qed.

  Lemma done_same : forall hp hp' R, shrinks h hp -> shrinks h hp' -> same_on hp hp' R -> done hp R -> done hp' R.
  Proof.
    intros hp hp' R S1 S2 HS (D1 & D2 & D3). split; auto. split.
    - intros i n c Hi (nd & Hn & Hl). apply (D2 i n c Hi). exists nd. split; auto. rewrite <- HS; auto. eapply nth_error_In; eauto.
    - intros x nd Hx Hn. eapply type_correct_shrinks; [exact S1|exact S2|]. apply (D3 x); auto. rewrite <- HS; auto.
  Qed.

  Definition FInv (deps : list nat) (s : ser_state) (R : list nat) : Prop :=
    shrinks h (s_heap s) /\ s_refs s = mkrefs R /\ done (s_heap s) R /\ disj deps R.

  Definition FPost (deps : list nat) (s : ser_state) (R : list nat) (c : nat) (b : bool) (s' : ser_state) : Prop :=
    shrinks h (s_heap s') /\ same_on (s_heap s) (s_heap s') deps /\
    if b then exists ts R', FInv deps s' R' /\ WStep (s_out s) (s_out s') ts /\ Enc reg (s_heap s') R c ts R' /\ same_on (s_heap s) (s_heap s') R
    else True.

  Definition frec (deps : list nat) (rec : ser_state -> nat -> res (bool * ser_state)) : Prop :=
    forall s R c, FInv deps s R -> ~ In c deps -> reach h root c -> exists b s', rec s c = Ok (b, s') /\ FPost deps s R c b s'.

  Lemma shrinks_rlink : forall hp m c, shrinks h hp -> reach h root m -> link hp m c -> reach h root c.
  Proof. intros hp m c HS Hr Hl. eapply reach_link; eauto. eapply shrinks_link; eauto. Qed.

  Lemma node_type_ok : forall hp c, shrinks h hp -> reach h root c ->
    exists t, node_type_of reg hp c = Ok t /\ forall cd cid ct, nth_error hp c = Some cd -> nd_meta cd = Some cid -> nth_error reg cid = Some ct -> ct = t.
  Proof.
    intros hp c HS Hr. destruct (Hmeta c Hr) as (nd & id & t & Hn & Hid & Ht).
    destruct (Forall2_nth_l _ _ _ _ _ _ _ HS Hn) as (nd' & Hn' & [M _ _ _]).
    exists t. split.
    - unfold node_type_of, rd. rewrite Hn'. cbn [bind]. rewrite M, Hid. rewrite Ht. reflexivity.
    - intros cd cid ct A B C. rewrite A in Hn'. injection Hn' as ->. congruence.
  Qed.

  (** index-wise type correctness of the lookups [ps] against [ls] *)
  Definition lk_acc (hp : heap) (ls : list lookup_decl) (ps : list (option nat)) : Prop :=
    forall j l c cd cid ct, nth_error ls j = Some l -> nth_error ps j = Some (Some c) -> nth_error hp c = Some cd -> nd_meta cd = Some cid ->
      nth_error reg cid = Some ct -> accepts l ct = true.

  Lemma lk_acc_shrinks : forall hp hp' ls ps, shrinks h hp -> shrinks h hp' -> lk_acc hp ls ps -> lk_acc hp' ls ps.
  Proof.
    intros hp hp' ls ps S1 S2 H j l c cd cid ct A B C D E.
    destruct (shrinks_meta _ _ _ _ S2 C) as (c0 & Hc0 & M0).
    destruct (Forall2_nth_l _ _ _ _ _ _ _ S1 Hc0) as (cd1 & Hcd1 & [M1 _ _ _]).
    apply (H j l c cd1 cid ct); auto. congruence.
  Qed.

  Lemma fix_lookups : forall deps rec n nd, frec deps rec -> In n deps -> reach h root n ->
    (forall c, In (Some c) (nd_lookups nd) -> ~ In c deps) ->
    forall ps ls i s R, (forall j, nth_error ps j = nth_error (nd_lookups nd) (i + j)) -> length ls = length ps ->
      (forall p, In p ps -> In p (nd_lookups nd)) ->
      nth_error (s_heap s) n = Some nd -> FInv deps s R ->
      exists b s', ser_lookups rec reg true n i ls s = Ok (b, s') /\ shrinks h (s_heap s') /\ (forall x, In x deps -> x <> n -> nth_error (s_heap s') x = nth_error (s_heap s) x) /\
        if b then exists ts R', FInv deps s' R' /\ WStep (s_out s) (s_out s') ts /\ EncL reg (s_heap s') R ps ts R' /\ same_on (s_heap s) (s_heap s') R /\
                   nth_error (s_heap s') n = Some nd /\ lk_acc (s_heap s') ls ps
        else True.
  Proof.
    intros deps rec n nd Hrec Hnd Hreach Hfree. induction ps as [|p ps IH]; intros ls i s R Hps Hl Hin Hn HI; destruct ls as [|l ls]; try discriminate.
    - simpl. do 2 eexists. split; [reflexivity|]. split; [apply HI|]. split; auto. exists [], R. split; auto. split; [apply WStep_refl|]. split; [constructor|]. split; [intros x _; auto|].
      split; auto. intros j l c cd cid ct Hj. destruct j; discriminate.
    - cbn [ser_lookups]. unfold rd at 1. rewrite Hn. cbn [bind].
      unfold rd. pose proof (Hps 0%nat) as H0. simpl in H0. rewrite Nat.add_0_r in H0. rewrite <- H0. cbn [bind].
      destruct p as [c|].
      2: { do 2 eexists. split; [reflexivity|]. split; [apply HI|]. split; auto. }
      assert (Hlink : link (s_heap s) n c) by (eapply link_lookup; eauto; apply Hin; left; auto).
      assert (Hc : reach h root c) by (eapply shrinks_rlink; eauto; apply HI).
      destruct (node_type_ok (s_heap s) c (proj1 HI) Hc) as (t & Et & Ht). rewrite Et. cbn [bind].
      destruct (accepts l t) eqn:Ea.
      + destruct (Hrec s R c HI) as (b & s1 & E1 & S1 & D1 & P1); auto.
        { apply Hfree. apply Hin. left; auto. }
        rewrite E1. cbn [bind]. destruct b.
        * destruct P1 as (ts1 & R1 & I1 & W1 & Enc1 & Sm1).
          destruct (IH ls (S i) s1 R1) as (b & s2 & E2 & S2 & D2 & P2); auto.
          { intros j. specialize (Hps (S j)). simpl in Hps. rewrite Hps. f_equal. lia. }
          { intros q Hq. apply Hin. right; auto. }
          { rewrite D1; auto. }
          exists b, s2. split; [exact E2|]. split; auto. split.
          { intros x Hx Hne. rewrite D2; auto. }
          destruct b; [|exact I].
          destruct P2 as (ts2 & R2 & I2 & W2 & Enc2 & Sm2 & Hn2 & A2). exists (ts1 ++ ts2), R2. split; auto.
          split; [eapply WStep_trans; eauto|]. split; [|split].
          -- econstructor; [|exact Enc2]. eapply (proj1 (Enc_heap reg (s_heap s1) (s_heap s2))); eauto.
          -- intros x Hx. rewrite Sm2; auto. destruct (proj1 (Enc_new reg (s_heap s1)) _ _ _ _ Enc1) as (N & -> & _). rewrite in_app_iff. auto.
          -- split; auto. intros j l' c' cd cid ct A B C D E. destruct j as [|j]; simpl in A, B.
             ++ injection A as <-. injection B as <-. destruct (shrinks_meta _ _ _ _ S2 C) as (c0 & Hc0 & M0).
                destruct (Forall2_nth_l _ _ _ _ _ _ _ (proj1 HI) Hc0) as (cd1 & Hcd1 & [M1 _ _ _]).
                rewrite (Ht cd1 cid ct); auto. congruence.
             ++ apply (A2 j l' c' cd cid ct); auto.
        * do 2 eexists. split; [reflexivity|]. split; auto. 
      + do 2 eexists. split; [reflexivity|]. cbn [with_heap s_heap]. split.
        * eapply shrinks_upd; eauto; [apply HI|]. constructor; auto; simpl.
          -- assert (F : forall l i, Forall2 ptr_le l (upd l i None)).
             { intros l0. induction l0; intros [|k]; simpl; constructor; auto; unfold ptr_le; auto; apply Forall2_refl_in; auto. }
             apply F.
          -- apply Forall2_refl_in. unfold ptr_le. auto.
        * split; auto. intros x Hx Hne. apply nth_error_upd_neq. auto.
  Qed.

  Lemma fix_hybrids : forall deps rec n nd, frec deps rec -> In n deps -> reach h root n ->
    (forall c v, In (Some c, v) (nd_hybrids nd) -> ~ In c deps) ->
    forall ps ds i s R, (forall j, nth_error ps j = nth_error (nd_hybrids nd) (i + j)) -> length ds = length ps ->
      (forall p, In p ps -> In p (nd_hybrids nd)) ->
      nth_error (s_heap s) n = Some nd -> FInv deps s R ->
      exists b s', ser_hybrids rec reg true n i ds s = Ok (b, s') /\ shrinks h (s_heap s') /\ same_on (s_heap s) (s_heap s') deps /\
        if b then exists ts R', FInv deps s' R' /\ WStep (s_out s) (s_out s') ts /\ EncH reg (s_heap s') R i ps ds ts R' /\ same_on (s_heap s) (s_heap s') R
        else True.
  Proof.
    intros deps rec n nd Hrec Hnd Hreach Hfree. induction ps as [|[p v] ps IH]; intros ds i s R Hps Hl Hin Hn HI; destruct ds as [|d ds]; try discriminate.
    - simpl. do 2 eexists. split; [reflexivity|]. split; [apply HI|]. split; [intros x _; auto|]. exists [], R. split; auto. split; [apply WStep_refl|]. split; [constructor|]. intros x _; auto.
    - cbn [ser_hybrids]. unfold rd at 1. rewrite Hn. cbn [bind].
      unfold rd. pose proof (Hps 0%nat) as H0. simpl in H0. rewrite Nat.add_0_r in H0. rewrite <- H0. cbn [bind fst snd].
      assert (Hps' : forall j, nth_error ps j = nth_error (nd_hybrids nd) (S i + j)).
      { intros j. specialize (Hps (S j)). simpl in Hps. rewrite Hps. f_equal. lia. }
      destruct p as [c|].
      + assert (Hlink : link (s_heap s) n c) by (eapply link_hybrid; eauto; apply Hin; left; reflexivity).
        assert (Hc : reach h root c) by (eapply shrinks_rlink; eauto; apply HI).
        destruct (node_type_ok (s_heap s) c (proj1 HI) Hc) as (t & Et & Ht). rewrite Et. cbn [bind].
        set (s0 := with_out s (add_member (s_out s) TypeHybridLookup i)).
        destruct (Hrec s0 R c HI) as (b & s1 & E1 & S1 & D1 & P1); auto.
        { eapply Hfree. apply Hin. left; reflexivity. }
        rewrite E1. cbn [bind]. destruct b.
        * destruct P1 as (ts1 & R1 & I1 & W1 & Enc1 & Sm1).
          destruct (IH ds (S i) s1 R1) as (b & s2 & E2 & S2 & D2 & P2); auto.
          { intros q Hq. apply Hin. right; auto. }
          { rewrite D1; auto. }
          exists b, s2. split; [exact E2|]. split; auto. split.
          { intros x Hx. rewrite D2 by auto. apply D1; auto. }
          destruct b; [|exact I].
          destruct P2 as (ts2 & R2 & I2 & W2 & Enc2 & Sm2). exists (mtok TypeHybridLookup i :: ts1 ++ ts2), R2. split; auto.
          split; [|split].
          -- change (mtok TypeHybridLookup i :: ts1 ++ ts2) with ([mtok TypeHybridLookup i] ++ ts1 ++ ts2).
             eapply WStep_trans; [apply WStep_member|]. eapply WStep_trans; eauto.
          -- econstructor; [|exact Enc2]. eapply (proj1 (Enc_heap reg (s_heap s1) (s_heap s2))); eauto.
          -- intros x Hx. rewrite Sm2; [apply Sm1; auto|]. destruct (proj1 (Enc_new reg (s_heap s1)) _ _ _ _ Enc1) as (N & -> & _). rewrite in_app_iff. auto.
        * do 2 eexists. split; [reflexivity|]. split; auto.
      + set (s1 := if f32_neq v (h_default d) then _ else s).
        assert (Hs1 : s_heap s1 = s_heap s /\ s_refs s1 = s_refs s) by (subst s1; destruct (f32_neq v (h_default d)); auto).
        destruct Hs1 as (Hs1 & Hs2).
        destruct (IH ds (S i) s1 R) as (b & s2 & E2 & S2 & D2 & P2); auto.
        { intros q Hq. apply Hin. right; auto. }
        { congruence. }
        { unfold FInv. rewrite Hs1, Hs2. exact HI. }
        exists b, s2. split; [exact E2|]. split; auto. rewrite <- Hs1. split; auto. destruct b; [|exact I].
        destruct P2 as (ts2 & R2 & I2 & W2 & Enc2 & Sm2). do 2 eexists. split; [exact I2|]. split; [|split; [econstructor; exact Enc2|auto]].
        eapply WStep_trans; [|exact W2]. subst s1. destruct (f32_neq v (h_default d)); [|apply WStep_refl].
        change [mtok TypeHybridVariable i; TB (le_bytes 4 v)] with ([mtok TypeHybridVariable i] ++ [TB (le_bytes 4 v)]).
        eapply WStep_trans; [apply WStep_member|apply WStep_value].
  Qed.

  Lemma ser_fix : forall fuel deps, NoDup deps -> (forall x, In x deps -> (x < length h)%nat) -> (length h < fuel + length deps)%nat ->
    frec deps (ser fuel reg true deps).
  Proof.
    induction fuel as [|f IH]; intros deps HN Hb Hf s R n HI Hnd Hr.
    - exfalso. assert (length deps <= length h)%nat; [|lia].
      rewrite <- (seq_length (length h) 0). apply NoDup_incl_length; auto. intros p Hin. apply in_seq. specialize (Hb p Hin). lia.
    - cbn [ser]. destruct HI as (HS & HR & HD & Hdj). destruct (Hmeta n Hr) as (nd0 & id & t & Hn0 & Hid & Ht).
      destruct (Forall2_nth_l _ _ _ _ _ _ _ HS Hn0) as (nd & Hn & Hle).
      assert (Hidn : nd_meta nd = Some id) by (rewrite (le_meta _ _ Hle); auto).
      unfold rd at 1. rewrite Hn. cbn [bind]. rewrite Hidn. unfold rd at 1. rewrite Ht. cbn [bind].
      assert (Hfail : FPost deps s R n false s) by (split; auto; split; [intros x _; auto|exact I]).
      destruct (Nat.eqb (length (nd_vars nd)) (length (t_vars t)) &&
                Nat.eqb (length (nd_lookups nd)) (length (t_lookups t)) &&
                Nat.eqb (length (nd_hybrids nd)) (length (t_hybrids t))) eqn:El; cbn [negb].
      2: { do 2 eexists. split; [reflexivity|]. auto. }
      apply andb_prop in El. destruct El as (El & L3). apply andb_prop in El. destruct El as (L1 & L2).
      apply Nat.eqb_eq in L1, L2, L3.
      set (nd' := null_loops (n :: deps) nd). set (hp := upd (s_heap s) n nd').
      assert (Hnlt : (n < length h)%nat) by (apply nth_error_Some; congruence).
      assert (Hnlt' : (n < length (s_heap s))%nat) by (rewrite (shrinks_length _ _ HS); auto).
      assert (Hhp : nth_error hp n = Some nd') by (unfold hp; apply nth_error_upd_eq; auto).
      assert (Hother : forall x, x <> n -> nth_error hp x = nth_error (s_heap s) x) by (intros x Hx; unfold hp; apply nth_error_upd_neq; auto).
      assert (HSp : shrinks h hp) by (eapply shrinks_upd; eauto; apply null_loops_le).
      cbn [with_heap s_refs s_out s_heap]. rewrite HR. pose proof (assoc_mkrefs R n) as Ha. destruct (assoc n (mkrefs R)) as [r|].
      { (* already written: unchanged *)
        destruct Ha as (i & Hi & ->).
        assert (Hid' : nd' = nd).
        { apply null_loops_id. intros c Hc. destruct HD as (D1 & D2 & _). destruct (D2 i n c Hi) as (j & Hj & Hjc).
          { exists nd. split; auto. }
          intros [<-|Hin]; [|apply (Hdj c Hin); eapply nth_error_In; eauto].
          assert (i = j) by (eapply NoDup_nth_inj; eauto). lia. }
        assert (Hhs : hp = s_heap s) by (unfold hp; rewrite Hid'; apply upd_same; auto).
        do 2 eexists. split; [reflexivity|]. unfold FPost, FInv. cbn [with_out s_heap s_refs s_out]. rewrite Hhs. split; auto. split; [intros x _; auto|].
        exists [TB (le_bytes 1 255); ref_tok i], R. split; [repeat split; auto; apply HD|]. split; [|split; [constructor; auto|intros x _; auto]].
        change [TB (le_bytes 1 255); ref_tok i] with ([TB (le_bytes 1 255)] ++ [ref_tok i]).
        eapply WStep_trans; apply WStep_value. }
      assert (HsameR : same_on (s_heap s) hp R) by (intros x Hx; apply Hother; intros ->; auto).
      change (nd_vars nd') with (nd_vars nd).
      set (w0 := if Nat.eqb (length (t_lookups t)) 0 then _ else _).
      assert (W0 : WStep (s_out s) w0 ([TB (le_bytes 1 (Z.of_nat id))] ++ var_toks 0 (nd_vars nd) (t_vars t) ++ count_toks (length (t_lookups t)))).
      { eapply WStep_trans; [apply WStep_value|]. eapply WStep_trans; [apply WStep_vars|]. apply WStep_count. }
      set (s0 := with_out _ w0).
      assert (HN' : NoDup (n :: deps)) by (constructor; auto).
      assert (Hrec : frec (n :: deps) (ser f reg true (n :: deps))).
      { apply IH; auto; [|simpl; lia]. intros x [<-|Hx]; auto. }
      assert (I0 : FInv (n :: deps) s0 R).
      { split; [exact HSp|]. split; auto. split; [eapply done_same; [exact HS|exact HSp|exact HsameR|exact HD]|]. intros x [<-|Hx]; auto. }
      assert (Lk : length (nd_lookups nd') = length (t_lookups t)) by (unfold nd'; simpl; rewrite map_length; auto).
      assert (Hy : length (nd_hybrids nd') = length (t_hybrids t)) by (unfold nd'; simpl; rewrite map_length; auto).
      destruct (fix_lookups (n :: deps) _ n nd' Hrec (or_introl eq_refl) Hr) with (ps := nd_lookups nd') (ls := t_lookups t) (i := 0%nat) (s := s0) (R := R)
        as (b1 & s1 & E1 & S1 & D1 & P1); auto.
      { intros c Hc. apply (null_loops_free (n :: deps) nd c). left. exact Hc. }
      rewrite E1. cbn [bind]. 
      assert (D1' : same_on (s_heap s) (s_heap s1) deps).
      { intros x Hx. assert (x <> n) by (intros ->; auto). rewrite D1; [|right; exact Hx|exact H]. simpl. apply Hother. auto. }
      destruct b1; cbn [negb].
      2: { do 2 eexists. split; [reflexivity|]. split; auto. }
      destruct P1 as (tl & R1 & I1 & W1 & EL & Sm1 & Hn1 & A1).
      destruct (fix_hybrids (n :: deps) _ n nd' Hrec (or_introl eq_refl) Hr) with (ps := nd_hybrids nd') (ds := t_hybrids t) (i := 0%nat) (s := s1) (R := R1)
        as (b2 & s2 & E2 & S2 & D2 & P2); auto.
      { intros c v Hc. apply (null_loops_free (n :: deps) nd c). right. exists v. exact Hc. }
      rewrite E2. cbn [bind].
      assert (D2' : same_on (s_heap s) (s_heap s2) deps).
      { intros x Hx. rewrite D2; [auto|right; auto]. }
      destruct b2; cbn [negb].
      2: { do 2 eexists. split; [reflexivity|]. split; auto. }
      destruct P2 as (th & R2 & I2 & W2 & EH & Sm2).
      assert (HnR2 : ~ In n R2) by (apply I2; left; auto).
      assert (Hn2 : nth_error (s_heap s2) n = Some nd') by (rewrite D2; [auto|left; auto]).
      destruct (proj1 (proj2 (Enc_new reg (s_heap s1))) _ _ _ _ EL) as (NL & EqR1 & _).
      destruct (proj2 (proj2 (Enc_new reg (s_heap s2))) _ _ _ _ _ _ EH) as (NH & EqR2 & _).
      do 2 eexists. split; [reflexivity|]. destruct I2 as (_ & HR2 & HD2 & Hdj2).
      rewrite HR2. pose proof (assoc_mkrefs R2 n) as Ha2. destruct (assoc n (mkrefs R2)).
      { destruct Ha2 as (i & Hi & _). exfalso. apply HnR2. eapply nth_error_In; eauto. }
      assert (EN : Enc reg (s_heap s2) R n (TB (le_bytes 1 (Z.of_nat id)) :: var_toks 0 (nd_vars nd') (t_vars t) ++ count_toks (length (t_lookups t)) ++ tl ++ th ++ [TEnd]) (R2 ++ [n])).
      { econstructor; eauto. eapply (proj1 (proj2 (Enc_heap reg (s_heap s1) (s_heap s2)))); eauto. }
      split; [exact S2|]. split; [exact D2'|]. cbn [s_out s_refs s_heap].
      exists (TB (le_bytes 1 (Z.of_nat id)) :: var_toks 0 (nd_vars nd') (t_vars t) ++ count_toks (length (t_lookups t)) ++ tl ++ th ++ [TEnd]), (R2 ++ [n]). split; [|split; [|split; [exact EN|]]].
      + unfold FInv. cbn [s_heap s_refs]. rewrite mkrefs_snoc, mkrefs_length. split; auto. split; auto. split.
        * destruct HD2 as (DA & DB & DC). split; [apply NoDup_snoc; auto|]. split.
          -- assert (HDR : done (s_heap s2) R).
             { eapply done_same; [exact HS|exact S2| |exact HD]. intros x Hx. rewrite Sm2; [|rewrite EqR1, in_app_iff; auto].
               rewrite Sm1 by auto. apply HsameR; auto. }
             destruct HDR as (HDa & HDb & _). eapply (proj1 (Enc_closed reg (s_heap s2)) _ _ _ _ EN); auto.
          -- intros x xd Hx Hxn. rewrite in_app_iff in Hx. destruct Hx as [Hx|[<-|[]]]; [eapply DC; eauto|].
             rewrite Hn2 in Hxn. injection Hxn as <-. intros id' t' i l c cd cid ct Q1 Q2 Q3 Q4 Q5 Q6 Q7 Q8.
             assert (Q0 : nd_meta nd' = nd_meta nd) by reflexivity. rewrite Q0, Hidn in Q1. injection Q1 as <-. rewrite Ht in Q2. injection Q2 as <-.
             pose proof (lk_acc_shrinks _ _ _ _ S1 S2 A1 i l c cd cid ct Q3 Q4 Q5 Q6 Q7) as Hacc. unfold accepts in Hacc. rewrite Q8 in Hacc. exact Hacc.
        * intros x Hx Hin. rewrite in_app_iff in Hin. destruct Hin as [Hin|[<-|[]]]; [|auto]. apply (Hdj2 x); auto. right; auto.
      + pose proof (WStep_trans _ _ _ _ _ W0 (WStep_trans _ _ _ _ _ W1 (WStep_trans _ _ _ _ _ W2 (WStep_end _)))) as W.
        simpl in W. rewrite <- !app_assoc in W. exact W.
      + intros x Hx. rewrite Sm2; [|rewrite EqR1, in_app_iff; auto]. rewrite Sm1 by auto. apply HsameR; auto.
  Qed.
End Fix.

(** ** Fix-up does nothing on a valid graph *)
Section FixValid.
  Variable reg : list node_type.
  Variable h : heap.
  Variable root : nat.
  Hypothesis Hac : acyclic_from h root.
  Hypothesis Hmeta : forall m, reach h root m -> exists nd id t, nth_error h m = Some nd /\ nd_meta nd = Some id /\ nth_error reg id = Some t.
  Hypothesis Hty : typed_from reg h root.

  Lemma type_of_reach : forall c, reach h root c -> exists t, node_type_of reg h c = Ok t.
  Proof.
    intros c Hr. destruct (Hmeta c Hr) as (nd & id & t & Hn & Hid & Ht). exists t. unfold node_type_of, rd. rewrite Hn. cbn [bind]. rewrite Hid, Ht. reflexivity.
  Qed.

  Definition agree (n : nat) (rec1 rec2 : ser_state -> nat -> res (bool * ser_state)) : Prop :=
    forall s c, s_heap s = h -> link h n c -> rec1 s c = rec2 s c /\ forall b s', rec2 s c = Ok (b, s') -> s_heap s' = h.

  Lemma valid_lookups : forall rec1 rec2 n nd id t, agree n rec1 rec2 -> reach h root n -> nth_error h n = Some nd -> nd_meta nd = Some id -> nth_error reg id = Some t ->
    forall ls i s, s_heap s = h -> (forall j l, nth_error ls j = Some l -> nth_error (t_lookups t) (i + j) = Some l) ->
      ser_lookups rec1 reg true n i ls s = ser_lookups rec2 reg false n i ls s /\
      forall b s', ser_lookups rec2 reg false n i ls s = Ok (b, s') -> s_heap s' = h.
  Proof.
    intros rec1 rec2 n nd id t HA Hr Hn Hid Ht. induction ls as [|l ls IH]; intros i s Hs Hls; cbn [ser_lookups].
    - split; [reflexivity|]. intros b s' E. injection E as <- <-. auto.
    - rewrite Hs. unfold rd at 1 3 5. rewrite Hn. cbn [bind]. unfold rd. destruct (nth_error (nd_lookups nd) i) as [[c|]|] eqn:Ep; cbn [bind].
      + assert (Hl : link h n c) by (eapply link_lookup; eauto; eapply nth_error_In; eauto).
        assert (Hc : reach h root c) by (eapply reach_link; eauto).
        destruct (type_of_reach c Hc) as (tc & Etc). rewrite Etc. cbn [bind].
        assert (Ha : accepts l tc = true).
        { unfold accepts. destruct (l_warp l) eqn:El; auto. simpl.
          destruct (Hmeta c Hc) as (cd & cid & ct & Hcd & Hcid & Hct). unfold node_type_of, rd in Etc. rewrite Hcd in Etc. cbn [bind] in Etc. rewrite Hcid, Hct in Etc. injection Etc as <-.
          eapply (Hty n nd Hr Hn id t i l c cd cid ct); eauto. specialize (Hls 0%nat l eq_refl). rewrite Nat.add_0_r in Hls. auto. }
        rewrite Ha. destruct (HA s c Hs Hl) as (E & Hh). rewrite E. destruct (rec2 s c) as [[b s1]| |] eqn:E2; cbn [bind]; [|split; [auto|discriminate]|split; [auto|discriminate]].
        destruct b.
        * apply IH; eauto. intros j l' Hj. specialize (Hls (S j) l' Hj). replace (S i + j)%nat with (i + S j)%nat by lia. auto.
        * split; [reflexivity|]. intros b s' E'. injection E' as <- <-. eauto.
      + split; [reflexivity|]. intros b s' E. injection E as <- <-. auto.
      + split; [reflexivity|]. intros b s' E. discriminate.
  Qed.

  Lemma valid_hybrids : forall rec1 rec2 n nd, agree n rec1 rec2 -> reach h root n -> nth_error h n = Some nd ->
    forall ds i s, s_heap s = h ->
      ser_hybrids rec1 reg true n i ds s = ser_hybrids rec2 reg false n i ds s /\
      forall b s', ser_hybrids rec2 reg false n i ds s = Ok (b, s') -> s_heap s' = h.
  Proof.
    intros rec1 rec2 n nd HA Hr Hn. induction ds as [|d ds IH]; intros i s Hs; cbn [ser_hybrids].
    - split; [reflexivity|]. intros b s' E. injection E as <- <-. auto.
    - rewrite Hs. unfold rd at 1 3 5. rewrite Hn. cbn [bind]. unfold rd. destruct (nth_error (nd_hybrids nd) i) as [[[c|] v]|] eqn:Ep; cbn [bind fst snd].
      + assert (Hl : link h n c) by (eapply link_hybrid; eauto; eapply nth_error_In; eauto).
        assert (Hc : reach h root c) by (eapply reach_link; eauto).
        destruct (type_of_reach c Hc) as (tc & Etc). rewrite Etc. cbn [bind].
        set (s0 := with_out s _). destruct (HA s0 c Hs Hl) as (E & Hh). rewrite E.
        destruct (rec2 s0 c) as [[b s1]| |] eqn:E2; cbn [bind]; [|split; [auto|discriminate]|split; [auto|discriminate]].
        destruct b; [apply IH; eauto|]. split; [reflexivity|]. intros b s' E'. injection E' as <- <-. eauto.
      + apply IH. destruct (f32_neq v (h_default d)); auto.
      + split; [reflexivity|]. intros b s' E. discriminate.
  Qed.

  Lemma ser_fix_valid : forall fuel deps deps2 s n, s_heap s = h -> reach h root n ->
    (forall p, In p deps -> reach h root p /\ exists c, link h p c /\ reach h c n) ->
    ser fuel reg true deps s n = ser fuel reg false deps2 s n /\
    forall b s', ser fuel reg false deps2 s n = Ok (b, s') -> s_heap s' = h.
  Proof.
    induction fuel as [|f IH]; intros deps deps2 s n Hs Hr Hdeps; cbn [ser]; [split; [auto|discriminate]|].
    destruct (Hmeta n Hr) as (nd & id & t & Hn & Hid & Ht). rewrite Hs. unfold rd at 1 3 5. rewrite Hn. cbn [bind]. rewrite Hid. unfold rd at 1 2 3. rewrite Ht. cbn [bind].
    destruct (Nat.eqb (length (nd_vars nd)) (length (t_vars t)) &&
                Nat.eqb (length (nd_lookups nd)) (length (t_lookups t)) &&
                Nat.eqb (length (nd_hybrids nd)) (length (t_hybrids t))) eqn:El; cbn [negb].
    2: { split; [reflexivity|]. intros b s' E. injection E as <- <-. auto. }
    assert (Hid' : null_loops (n :: deps) nd = nd).
    { apply null_loops_id. intros c Hc. assert (Hl : link h n c) by (exists nd; auto). intros [<-|Hin].
      - apply (Hac n n Hr Hl). constructor.
      - destruct (Hdeps c Hin) as (Hrc & c' & Hl' & Hr'). apply (Hac c c' Hrc Hl'). eapply reach_link; eauto. }
    rewrite Hid'. rewrite (upd_same _ h n nd Hn).
    assert (Ews : with_heap s h = s) by (destruct s; simpl in *; subst; reflexivity). rewrite Ews.
    destruct (assoc n (s_refs s)).
    { split; [reflexivity|]. intros b s' E. injection E as <- <-. auto. }
    assert (HA : agree n (ser f reg true (n :: deps)) (ser f reg false deps2)).
    { intros s0 c Hs0 Hl. apply IH; auto; [eapply reach_link; eauto|]. intros p [<-|Hin].
      - split; auto. exists c. split; auto. constructor.
      - destruct (Hdeps p Hin) as (Hrp & c' & Hl' & Hr'). split; auto. exists c'. split; auto. eapply reach_link; eauto. }
    set (s0 := with_out s _).
    destruct (valid_lookups _ _ n nd id t HA Hr Hn Hid Ht (t_lookups t) 0 s0 Hs ltac:(auto)) as (E1 & H1). rewrite E1.
    destruct (ser_lookups (ser f reg false deps2) reg false n 0 (t_lookups t) s0) as [[b1 s1]| |]; cbn [bind]; [|split; [auto|discriminate]|split; [auto|discriminate]].
    specialize (H1 _ _ eq_refl). destruct b1; cbn [negb].
    2: { split; [reflexivity|]. intros b s' E. injection E as <- <-. auto. }
    destruct (valid_hybrids _ _ n nd HA Hr Hn (t_hybrids t) 0 s1 H1) as (E2 & H2). rewrite E2.
    destruct (ser_hybrids (ser f reg false deps2) reg false n 0 (t_hybrids t) s1) as [[b2 s2]| |]; cbn [bind]; [|split; [auto|discriminate]|split; [auto|discriminate]].
    specialize (H2 _ _ eq_refl). destruct b2; cbn [negb].
    - split; [reflexivity|]. intros b s' E. injection E as <- <-. auto.
    - split; [reflexivity|]. intros b s' E. injection E as <- <-. auto.
  Qed.
End FixValid.
