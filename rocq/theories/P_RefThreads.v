(** Property C19: node lifetime when several threads copy, use and drop handles. *)
From Coq Require Import ZArith List Bool Lia Relation_Operators.
From Verif Require Import Prelude SmartNode_Model SmartNode_Proofs CRef_Proofs P_SmartNode RefThreads_Model RefThreads_Proofs.
Import ListNotations.
Open Scope Z_scope.

(** ** Specification *)
(** states reached by any interleaving of the threads' steps *)
Inductive greach (n : nat) : gstate -> Prop :=
| greach0 : greach n (gstate0 n)
| greachS : forall st t a st', greach n st -> enabled st t a -> gstep st t a = Ok st' -> greach n st'.

(** [t] is about to return the memory of [o]: the destructor of [o] has started there *)
Definition destroying (st : gstate) (t o : nat) : Prop :=
  exists th, nth_error (g_threads st) t = Some th /\ In (WFree o) (th_work th).
(** references somebody still holds: handles of the threads, references a running Release
    has still to give back, and sources of nodes whose destructor has not started *)
Definition thread_refs (th : thread) : list (option nat) :=
  th_vars th ++ flat_map (fun w => match w with WRel o => [Some o] | WFree _ => [] end) (th_work th).
Definition being_destroyed (st : gstate) : list nat :=
  flat_map (fun th => flat_map (fun w => match w with WFree o => [o] | WRel _ => [] end) (th_work th)) (g_threads st).
Fixpoint node_refs (D : list nat) (i : nat) (H : nheap) : list (option nat) :=
  match H with
  | [] => []
  | c :: H => (match c with Some ob => if existsb (Nat.eqb i) D then [] else o_mem ob | None => [] end) ++ node_refs D (S i) H
  end.
Definition grefs (st : gstate) (o : nat) : nat :=
  count_occ opt_eq_dec (flat_map thread_refs (g_threads st) ++ node_refs (being_destroyed st) 0 (g_nodes st)) (Some o).

Lemma greach_inv : forall n st, greach n st -> GInv st.
Proof.
  intros n st R. induction R as [|st t a st' R IH HE E].
  - assert (A : forall o, occ o (allrefs (repeat {| th_vars := []; th_work := [] |} n)) = 0) by (intros; induction n; auto).
    assert (F : frees (repeat {| th_vars := []; th_work := [] |} n) = []) by (clear A; induction n; auto).
    constructor; cbn [gstate0 g_nodes g_threads]; rewrite ?F.
    + eapply Inv_ext_eq; [|apply Inv0]. intros; symmetry; auto.
    + constructor.
    + intros i [].
    + intros i ob o X. destruct i; discriminate.
  - destruct (gstep_ok st t a IH HE) as (s2 & E2 & I2). congruence.
Qed.

Lemma node_refs_tot : forall o D H i, totf (own D o) i H = Z.of_nat (count_occ opt_eq_dec (node_refs D i H) (Some o)).
Proof.
  induction H as [|c H IH]; intros i; [reflexivity|]. cbn [totf node_refs]. rewrite count_occ_app, Nat2Z.inj_add, <- (IH (S i)). f_equal.
  unfold own, inb. destruct c as [ob|]; [|reflexivity]. destruct (existsb (Nat.eqb i) D); [reflexivity|]. apply occ_count.
Qed.
Lemma grefs_tot : forall st o, Z.of_nat (grefs st o) = totf (own (frees (g_threads st)) o) 0 (g_nodes st) + occ o (allrefs (g_threads st)).
Proof. intros. unfold grefs. rewrite count_occ_app, Nat2Z.inj_add, node_refs_tot, <- !occ_count. apply Z.add_comm. Qed.
Lemma destroying_frees : forall st o, (exists t, destroying st t o) <-> In o (frees (g_threads st)).
Proof.
  intros st o. unfold frees. rewrite in_flat_map. split.
  - intros (t & th & E & Hin). exists th. split; [eapply nth_error_In; eauto|]. unfold wfrees. apply in_flat_map. exists (WFree o). split; auto. left; auto.
  - intros (th & Hth & Hin). apply In_nth_error in Hth. destruct Hth as (t & E). exists t, th. split; auto. unfold wfrees in Hin. apply in_flat_map in Hin. destruct Hin as (w & Hw & X).
    destruct w; [destruct X|]. destruct X as [->|[]]. auto.
Qed.

(** ** C19 *)

(** whatever the other threads do, no step of any thread touches a freed node or frees a
    node twice (both would be UB) *)
Theorem C19_no_use_after_free : forall n st t a, greach n st -> enabled st t a -> exists st', gstep st t a = Ok st' /\ greach n st'.
Proof.
  intros n st t a R HE. destruct (gstep_ok st t a (greach_inv n st R) HE) as (s2 & E2 & _). exists s2. split; auto. econstructor; eauto.
Qed.
Print Assumptions C19_no_use_after_free.

(** a node in memory whose destructor has not started has a counter equal to the number of
    references that exist, and there is one; once its destructor has started nobody refers
    to it any more; every reference is to such a node *)
Theorem C19_count_exact : forall n st o, greach n st ->
  (forall ob, nth_error (g_nodes st) o = Some (Some ob) -> (forall t, ~ destroying st t o) -> o_rc ob = Z.of_nat (grefs st o) /\ (0 < grefs st o)%nat) /\
  ((exists t, destroying st t o) -> live (g_nodes st) o /\ grefs st o = 0%nat) /\
  ((0 < grefs st o)%nat -> live (g_nodes st) o).
Proof.
  intros n st o R. destruct (greach_inv n st R) as [I ND AL AC].
  assert (EX : (0 < grefs st o)%nat -> exists ob, cell (g_nodes st) (frees (g_threads st)) o ob).
  { intros G. assert (G' : 0 < Z.of_nat (grefs st o)) by lia. rewrite grefs_tot in G'. pose proof (occ_nonneg o (allrefs (g_threads st))).
    destruct (Z.eq_dec (occ o (allrefs (g_threads st))) 0) as [Z0|Z0]; [|apply (i_ext _ _ _ _ I o); lia].
    assert (P : 0 < totf (own (frees (g_threads st)) o) 0 (g_nodes st)) by lia. rewrite node_refs_tot in P.
    assert (P1 : (0 < count_occ opt_eq_dec (node_refs (frees (g_threads st)) 0 (g_nodes st)) (Some o))%nat) by lia. apply count_occ_In in P1.
    assert (NR : forall D H i, In (Some o) (node_refs D i H) -> exists k ob, nth_error H k = Some (Some ob) /\ inb (i + k)%nat D = false /\ In (Some o) (o_mem ob)).
    { clear. induction H as [|c H IH]; intros i Hin; [destruct Hin|]. cbn [node_refs] in Hin. apply in_app_or in Hin. destruct Hin as [Hin|Hin].
      - destruct c as [ob|]; [|destruct Hin]. destruct (existsb (Nat.eqb i) D) eqn:X; [destruct Hin|]. exists 0%nat, ob. rewrite Nat.add_0_r. auto.
      - destruct (IH (S i) Hin) as (k & ob & A & B & C). exists (S k), ob. rewrite <- Nat.add_succ_comm. auto. }
    destruct (NR _ _ _ P1) as (k & ob & A & B & C). cbn in B. destruct (i_mem _ _ _ _ I k ob o) as (ob' & X); [split; [auto|apply inb_false; auto]|auto|]. eauto. }
  split; [|split].
  - intros ob E NDo. assert (HC : cell (g_nodes st) (frees (g_threads st)) o ob).
    { split; auto. intros X. apply destroying_frees in X. destruct X as (t & X). apply (NDo t X). }
    pose proof (i_rc _ _ _ _ I o ob HC) as RC. pose proof (i_pos _ _ _ _ I o ob HC (fun x => x)) as POS. rewrite <- grefs_tot in RC. split; [exact RC|lia].
  - intros D. apply destroying_frees in D. split; [apply AL; auto|]. destruct (Nat.eq_dec (grefs st o) 0) as [|N]; auto. destruct EX as (ob & _ & X); [lia|]. contradiction.
  - intros G. destruct (EX G) as (ob & E & _). exists ob; auto.
Qed.
Print Assumptions C19_count_exact.

(** at most one thread destroys a node, and only once *)
Theorem C19_one_destroyer : forall n st, greach n st ->
  NoDup (being_destroyed st) /\ (forall o t t', destroying st t o -> destroying st t' o -> t = t').
Proof.
  intros n st R. destruct (greach_inv n st R) as [I ND AL AC]. split; [exact ND|].
  intros o t t' (th & E & Hin) (th' & E' & Hin').
  assert (IW : forall th, In (WFree o) (th_work th) -> In o (wfrees (th_work th))) by (intros h X; unfold wfrees; apply in_flat_map; exists (WFree o); split; auto; left; auto).
  revert ND E E' IW Hin Hin'. unfold frees. generalize (g_threads st). intros T. revert t t'.
  induction T as [|h T IH]; intros [|t] [|t'] ND E E' IW Hin Hin'; try discriminate; auto; cbn [flat_map nth_error] in *.
  - exfalso. injection E as ->. apply nth_error_In in E'.
    assert (X : In o (flat_map (fun th => wfrees (th_work th)) T)) by (apply in_flat_map; eauto).
    pose proof (IW th Hin) as Y. clear -ND X Y. induction (wfrees (th_work th)) as [|y l IHl]; [destruct Y|]. cbn in ND. inversion_clear ND. destruct Y as [->|Y]; [apply H; apply in_or_app; auto|auto].
  - exfalso. injection E' as ->. apply nth_error_In in E.
    assert (X : In o (flat_map (fun th => wfrees (th_work th)) T)) by (apply in_flat_map; eauto).
    pose proof (IW th' Hin') as Y. clear -ND X Y. induction (wfrees (th_work th')) as [|y l IHl]; [destruct Y|]. cbn in ND. inversion_clear ND. destruct Y as [->|Y]; [apply H; apply in_or_app; auto|auto].
  - f_equal. eapply IH; eauto. clear -ND. induction (wfrees (th_work h)); auto. cbn in ND. inversion_clear ND. auto.
Qed.
Print Assumptions C19_one_destroyer.

(** the destructor starts exactly with the release of the last reference *)
Theorem C19_last_release_destroys : forall n st t st' o, greach n st -> enabled st t AWork -> gstep st t AWork = Ok st' ->
  (forall t, ~ destroying st t o) -> ((exists t, destroying st' t o) <->
    (exists th w, nth_error (g_threads st) t = Some th /\ th_work th = WRel o :: w) /\ grefs st o = 1%nat).
Proof.
  intros n st t st' o R HE E NDs. destruct (greach_inv n st R) as [I ND AL AC]. pose proof HE as (th & ET & EW).
  assert (NF : ~ In o (frees (g_threads st))) by (intros X; apply destroying_frees in X; destruct X as (t0 & X); apply (NDs t0 X)).
  rewrite destroying_frees. unfold gstep in E. rewrite (rd_Ok _ _ _ _ ET) in E. cbn [bind] in E.
  destruct (split_upd _ (g_threads st) t th ET) as (ta & tb & TE & LT & UP). unfold set_thread in E.
  assert (NF' := NF). rewrite TE, frees_mid in NF'. rewrite !in_app_iff in NF'.
  destruct (th_work th) as [|[q|q] w] eqn:W; [congruence| |].
  - apply bind_Ok_inv in E. destruct E as ((prev & H1) & EF & E). unfold fetch_add in EF. apply bind_Ok_inv in EF. destruct EF as (ob & ED & EF). injection EF as <- <-.
    unfold deref in ED. destruct (nth_error (g_nodes st) q) as [[ob'|]|] eqn:EN; try discriminate. injection ED as ->.
    assert (QC : cell (g_nodes st) (frees (g_threads st)) q ob).
    { destruct (i_ext _ _ _ _ I q) as (ob' & C); [|destruct C as (C1 & C2); split; auto].
      rewrite TE, allrefs_mid, W, wrefs_rel. unfold one. replace (ptr_eqb (Some q) (Some q)) with true by (symmetry; apply ptr_eqb_eq; auto).
      pose proof (occ_nonneg q (th_vars th)). pose proof (occ_nonneg q (wrefs w)). pose proof (occ_nonneg q (allrefs ta)). pose proof (occ_nonneg q (allrefs tb)). lia. }
    pose proof (i_rc _ _ _ _ I q ob QC) as RC. rewrite <- grefs_tot in RC.
    destruct (Z.eqb_spec (o_rc ob) 1) as [R1|R1].
    + apply bind_Ok_inv in E. destruct E as (ob2 & _ & E). injection E as <-. cbn [g_threads]. rewrite UP, frees_mid. cbn [th_work]. rewrite wfrees_app, wfrees_member. cbn [wfrees flat_map app]. rewrite !in_app_iff. cbn [In]. fold (wfrees w). cbn [wfrees flat_map app] in NF'. fold (wfrees w) in NF'.
      split.
      * intros X. assert (q = o) by (rewrite in_app_iff in X; tauto). subst q. split; [exists th, w; auto|lia].
      * intros ((th2 & w2 & A & B) & _). rewrite ET in A. injection A as <-. rewrite W in B. injection B as -> _. auto.
    + injection E as <-. cbn [g_threads]. rewrite UP, frees_mid. cbn [th_work]. rewrite !in_app_iff. cbn [wfrees flat_map app] in NF'. fold (wfrees w) in NF'.
      split; [tauto|]. intros ((th2 & w2 & A & B) & G). rewrite ET in A. injection A as <-. rewrite W in B. injection B as -> _. lia.
  - apply bind_Ok_inv in E. destruct E as (ob & _ & E). injection E as <-. cbn [g_threads]. rewrite UP, frees_mid. cbn [th_work]. rewrite !in_app_iff. cbn [wfrees flat_map app In] in NF'. fold (wfrees w) in NF'.
    split; [tauto|]. intros ((th2 & w2 & A & B) & G). rewrite ET in A. injection A as <-. rewrite W in B. discriminate.
Qed.
Print Assumptions C19_last_release_destroys.

(** when every thread has finished and dropped its handles, nothing is left in memory *)
Theorem C19_no_leak : forall n st, greach n st ->
  (forall th, In th (g_threads st) -> th_work th = [] /\ forall p, In p (th_vars th) -> p = None) ->
  forall o, ~ live (g_nodes st) o.
Proof.
  intros n st R HT. pose proof (greach_inv n st R) as [I ND AL AC].
  assert (AR : forall o, ~ In (Some o) (flat_map thread_refs (g_threads st))).
  { intros o X. apply in_flat_map in X. destruct X as (th & Hth & X). destruct (HT th Hth) as (W & V). unfold thread_refs in X. rewrite W in X. cbn in X. rewrite app_nil_r in X. apply V in X. discriminate. }
  assert (NDs : forall t o, ~ destroying st t o).
  { intros t o (th & E & X). apply nth_error_In in E. destruct (HT th E) as (W & _). rewrite W in X. destruct X. }
  assert (GEN : forall k o, (length (g_nodes st) - o <= k)%nat -> ~ live (g_nodes st) o).
  { induction k as [|k IH]; intros o Hk (ob & E).
    - apply nth_lt in E. lia.
    - pose proof (nth_lt _ _ _ _ E) as LO. destruct (proj1 (C19_count_exact n st o R) ob E (fun t => NDs t o)) as (_ & G).
      unfold grefs in G. apply count_occ_In in G. apply in_app_or in G. destruct G as [G|G]; [apply (AR o G)|].
      assert (NR : forall D H i, In (Some o) (node_refs D i H) -> exists k ob, nth_error H k = Some (Some ob) /\ In (Some o) (o_mem ob)).
      { clear. induction H as [|c H IH]; intros i Hin; [destruct Hin|]. cbn [node_refs] in Hin. apply in_app_or in Hin. destruct Hin as [Hin|Hin].
        - destruct c as [ob|]; [|destruct Hin]. destruct (existsb (Nat.eqb i) D) eqn:X; [destruct Hin|]. exists 0%nat, ob. auto.
        - destruct (IH (S i) Hin) as (k & ob & A & C). exists (S k), ob. auto. }
      destruct (NR _ _ _ G) as (q & obq & EQ & Hin). pose proof (AC q obq o EQ Hin). apply (IH q); [lia|exists obq; auto]. }
  intros o. apply (GEN (length (g_nodes st) - o)%nat o). lia.
Qed.
Print Assumptions C19_no_leak.

(** running releases finish: from any reachable state only boundedly many release steps
    can be taken, by all threads together in any order, before none is left *)
Inductive releases : list nat -> gstate -> gstate -> Prop :=
| rel_nil : forall st, releases [] st st
| rel_cons : forall t ts st st1 st2, enabled st t AWork -> gstep st t AWork = Ok st1 -> releases ts st1 st2 -> releases (t :: ts) st st2.

Definition nweight (D : list nat) (i : nat) (c : option obj) : Z :=
  match c with Some ob => if inb i D then 0 else 2 + Z.of_nat (length (o_mem ob)) | None => 0 end.
Definition works (T : list thread) : Z := fold_right (fun th n => Z.of_nat (length (th_work th)) + n) 0 T.
Definition potential (st : gstate) : Z := works (g_threads st) + totf (nweight (frees (g_threads st))) 0 (g_nodes st).
Lemma works_mid : forall a th b, works (a ++ th :: b) = works a + Z.of_nat (length (th_work th)) + works b.
Proof.
  assert (C : forall x l, works (x :: l) = Z.of_nat (length (th_work x)) + works l) by reflexivity.
  induction a as [|x a IH]; intros; cbn [app]; rewrite !C; [change (works []) with 0; lia|]. rewrite IH. lia.
Qed.
Lemma works_nonneg : forall T, 0 <= works T.
Proof. induction T; cbn [works fold_right]; [lia|]. fold (works T). lia. Qed.
Lemma nweight_nonneg : forall D i c, 0 <= nweight D i c.
Proof. intros D i [ob|]; unfold nweight; [destruct (inb i D)|]; lia. Qed.
Lemma potential_nonneg : forall st, 0 <= potential st.
Proof. intros. unfold potential. pose proof (works_nonneg (g_threads st)). pose proof (totf_nonneg (nweight (frees (g_threads st))) (g_nodes st) 0 (fun i c => nweight_nonneg _ i c)). lia. Qed.
Lemma member_work_length : forall m, (length (member_work m) <= length m)%nat.
Proof.
  intros. unfold member_work. rewrite <- (rev_length m). induction (rev m) as [|p l IH]; cbn; [lia|]. rewrite app_length. destruct p; cbn; lia.
Qed.
Lemma inb_ext : forall i D D', (In i D <-> In i D') -> inb i D = inb i D'.
Proof. intros i D D' E. destruct (inb i D) eqn:X, (inb i D') eqn:Y; auto; [apply inb_In in X; apply E in X; apply inb_In in X; congruence|apply inb_In in Y; apply E in Y; apply inb_In in Y; congruence]. Qed.

Lemma release_decreases : forall n st t st', greach n st -> enabled st t AWork -> gstep st t AWork = Ok st' -> potential st' < potential st.
Proof.
  intros n st t st' R HE E. destruct (greach_inv n st R) as [I ND AL AC]. pose proof HE as (th & ET & EW).
  unfold gstep in E. rewrite (rd_Ok _ _ _ _ ET) in E. cbn [bind] in E.
  destruct (split_upd _ (g_threads st) t th ET) as (ta & tb & TE & LT & UP). unfold set_thread in E. unfold potential.
  destruct (th_work th) as [|[q|q] w] eqn:W; [congruence| |].
  - apply bind_Ok_inv in E. destruct E as ((prev & H1) & EF & E). unfold fetch_add in EF. apply bind_Ok_inv in EF. destruct EF as (ob & ED & EF). injection EF as <- <-.
    unfold deref in ED. destruct (nth_error (g_nodes st) q) as [[ob'|]|] eqn:EN; try discriminate. injection ED as ->.
    assert (QC : ~ In q (frees (g_threads st))).
    { destruct (i_ext _ _ _ _ I q) as (ob' & C); [|destruct C as (C1 & C2); auto].
      rewrite TE, allrefs_mid, W, wrefs_rel. unfold one. replace (ptr_eqb (Some q) (Some q)) with true by (symmetry; apply ptr_eqb_eq; auto).
      pose proof (occ_nonneg q (th_vars th)). pose proof (occ_nonneg q (wrefs w)). pose proof (occ_nonneg q (allrefs ta)). pose proof (occ_nonneg q (allrefs tb)). lia. }
    set (ob1 := {| o_rc := o_rc ob + -1; o_mem := o_mem ob |}) in *.
    assert (LQ := nth_lt _ _ _ _ EN).
    destruct (Z.eqb_spec (o_rc ob) 1) as [R1|R1].
    + apply bind_Ok_inv in E. destruct E as (ob2 & E2 & E). injection E as <-. cbn [g_threads g_nodes]. unfold deref in E2. rewrite nth_error_upd_eq in E2 by auto. injection E2 as <-. cbn [o_mem ob1].
      rewrite UP. set (th' := {| th_vars := th_vars th; th_work := member_work (o_mem ob) ++ WFree q :: w |}).
      assert (FI : forall x, In x (frees (ta ++ th' :: tb)) <-> x = q \/ In x (frees (g_threads st))).
      { intros x. rewrite TE, !frees_mid, W. unfold th'. cbn [th_work]. rewrite wfrees_app, wfrees_member. cbn [wfrees flat_map app]. fold (wfrees w). rewrite !in_app_iff. cbn [In]. rewrite !in_app_iff. intuition congruence. }
      rewrite (totf_diff (nweight (frees (ta ++ th' :: tb))) (nweight (frees (g_threads st))) _ 0 q (Some ob1)).
      * rewrite (totf_upd _ _ 0 q (Some ob) (Some ob1)) by auto. cbn [Nat.add nweight ob1 o_mem].
        replace (inb q (frees (ta ++ th' :: tb))) with true by (symmetry; apply inb_In, FI; auto).
        replace (inb q (frees (g_threads st))) with false by (symmetry; apply inb_false; auto).
        rewrite TE, !works_mid, W. unfold th'. cbn [th_work]. rewrite app_length. cbn [length]. pose proof (member_work_length (o_mem ob)). lia.
      * apply nth_error_upd_eq. auto.
      * intros j d Hj Nj. cbn [Nat.add]. unfold nweight. destruct d; auto. rewrite (inb_ext j (frees (ta ++ th' :: tb)) (frees (g_threads st))); auto. rewrite FI. intuition congruence.
    + injection E as <-. cbn [g_threads g_nodes]. rewrite UP, (totf_upd _ _ 0 q (Some ob) (Some ob1)) by auto. cbn [nweight ob1 o_mem].
      rewrite TE, !works_mid, !frees_mid, W. cbn [th_work wfrees flat_map app length]. fold (wfrees w). lia.
  - apply bind_Ok_inv in E. destruct E as (ob & ED & E). injection E as <-. cbn [g_threads g_nodes]. unfold deref in ED. destruct (nth_error (g_nodes st) q) as [[ob'|]|] eqn:EN; try discriminate. injection ED as ->.
    rewrite UP. set (th' := {| th_vars := th_vars th; th_work := w |}).
    rewrite (totf_diff (nweight (frees (ta ++ th' :: tb))) (nweight (frees (g_threads st))) _ 0 q None).
    * rewrite (totf_upd _ _ 0 q (Some ob) None) by auto. cbn [nweight Nat.add]. replace (inb q (frees (g_threads st))) with true by (symmetry; apply inb_In; rewrite TE, frees_mid, W; cbn; rewrite in_app_iff; cbn; auto).
      rewrite TE, !works_mid, W. unfold th'. cbn [th_work length]. lia.
    * apply nth_error_upd_eq. eapply nth_lt; eauto.
    * intros j d Hj Nj. cbn [Nat.add]. unfold nweight. destruct d; auto. rewrite (inb_ext j (frees (ta ++ th' :: tb)) (frees (g_threads st))); auto.
      rewrite TE, !frees_mid, W. unfold th'. cbn [th_work wfrees flat_map app]. fold (wfrees w). rewrite !in_app_iff. cbn [In]. rewrite !in_app_iff. intuition congruence.
Qed.
Theorem C19_releases_finish : forall n st, greach n st -> exists bound, forall ts st', releases ts st st' -> (length ts <= bound)%nat.
Proof.
  intros n st R. exists (Z.to_nat (potential st)). intros ts st' X. assert (P : Z.of_nat (length ts) <= potential st).
  { induction X as [st|t ts st st1 st2 HE E X IH]; [cbn; apply potential_nonneg|]. pose proof (release_decreases n st t st1 R HE E). assert (greach n st1) by (econstructor; eauto). specialize (IH H0). cbn [length]. lia. }
  lia.
Qed.
Print Assumptions C19_releases_finish.

(** ** Memory order *)
(** ReferencesFetchAdd is relaxed (Generator.inl:512-522): a decrement of the counter does
    not synchronise with a later one. In the C++ memory model the steps of one run are then
    ordered only by program order and by whatever passed a handle between threads. *)
Inductive memop := MUse (o : nat) | MCount (o : nat) | MFree (o : nat) | MPass (t : nat) | MOther.
Definition memop_of (st : gstate) (t : nat) (a : action) : memop :=
  match nth_error (g_threads st) t with
  | None => MOther
  | Some th =>
      match a with
      | AUse i => match nth_error (th_vars th) i with Some (Some o) => MUse o | _ => MOther end
      | ACopy i => match nth_error (th_vars th) i with Some (Some o) => MCount o | _ => MOther end
      | AMove _ t' => MPass t'
      | AWork => match th_work th with WRel o :: _ => MCount o | WFree o :: _ => MFree o | [] => MOther end
      | _ => MOther
      end
  end.
(** a run from the start: which thread did which memory operation, in order *)
Inductive grun (n : nat) : list (nat * memop) -> gstate -> Prop :=
| grun0 : grun n [] (gstate0 n)
| grunS : forall tr st t a st', grun n tr st -> enabled st t a -> gstep st t a = Ok st' -> grun n (tr ++ [(t, memop_of st t a)]) st'.
(** ordering edges; [acq_rel]: whether the counter operations were acquire-release *)
Definition edge (acq_rel : bool) (tr : list (nat * memop)) (i j : nat) : Prop :=
  (i < j)%nat /\ exists t m t' m', nth_error tr i = Some (t, m) /\ nth_error tr j = Some (t', m') /\
  (t = t' \/ m = MPass t' \/ (acq_rel = true /\ exists o, m = MCount o /\ m' = MCount o)).
Definition hb (acq_rel : bool) (tr : list (nat * memop)) : nat -> nat -> Prop := clos_trans nat (edge acq_rel tr).
(** a use of a node and the return of its memory that are not ordered: a data race *)
Definition race (acq_rel : bool) (tr : list (nat * memop)) : Prop :=
  exists i j o t t', nth_error tr i = Some (t, MUse o) /\ nth_error tr j = Some (t', MFree o) /\ ~ hb acq_rel tr i j /\ ~ hb acq_rel tr j i.

(** with the relaxed order of the code there are race-y runs: thread 1 uses a node it
    shares with thread 0 and drops its handle; thread 0 drops the last one and frees *)
Theorem C19_relaxed_order_refuted : exists tr st, grun 2 tr st /\ race false tr /\ ~ race true tr.
Proof.
  set (tr := [(0%nat, MOther); (0%nat, MCount 0); (0%nat, MPass 1); (1%nat, MUse 0); (1%nat, MOther); (1%nat, MCount 0); (0%nat, MOther); (0%nat, MCount 0); (0%nat, MFree 0)]).
  exists tr. eexists. split; [|split].
  - unfold tr.
    change tr with ((((((((([] ++ [(0%nat, MOther)]) ++ [(0%nat, MCount 0)]) ++ [(0%nat, MPass 1)]) ++ [(1%nat, MUse 0)]) ++ [(1%nat, MOther)]) ++ [(1%nat, MCount 0)]) ++ [(0%nat, MOther)]) ++ [(0%nat, MCount 0)]) ++ [(0%nat, MFree 0)]).
    pose proof (grun0 2) as R0.
    pose proof (grunS 2 _ _ 0%nat (ANew 0) _ R0 (ex_intro _ _ (conj eq_refl eq_refl)) eq_refl) as R1. cbn in R1.
    pose proof (grunS 2 _ _ 0%nat (ACopy 0) _ R1 (ex_intro _ _ (conj eq_refl (conj eq_refl (le_n _)))) eq_refl) as R2. cbn in R2.
    pose proof (grunS 2 _ _ 0%nat (AMove 1 1) _ R2 (ex_intro _ _ (conj eq_refl (conj eq_refl (conj (le_n _) (le_n _))))) eq_refl) as R3. cbn in R3.
    pose proof (grunS 2 _ _ 1%nat (AUse 0) _ R3 (ex_intro _ _ (conj eq_refl (conj eq_refl (ex_intro _ 0%nat eq_refl)))) eq_refl) as R4. cbn in R4.
    pose proof (grunS 2 _ _ 1%nat (ADrop 0) _ R4 (ex_intro _ _ (conj eq_refl (conj eq_refl (le_n _)))) eq_refl) as R5. cbn in R5.
    assert (W6 : enabled {| g_nodes := [Some {| o_rc := 2; o_mem := [] |}]; g_threads := [{| th_vars := [Some 0%nat; None]; th_work := [] |}; {| th_vars := [None]; th_work := [WRel 0] |}] |} 1 AWork) by (eexists; split; [reflexivity|discriminate]).
    pose proof (grunS 2 _ _ 1%nat AWork _ R5 W6 eq_refl) as R6. cbn in R6.
    assert (W7 : enabled {| g_nodes := [Some {| o_rc := 1; o_mem := [] |}]; g_threads := [{| th_vars := [Some 0%nat; None]; th_work := [] |}; {| th_vars := [None]; th_work := [] |}] |} 0 (ADrop 0)) by (eexists; split; [reflexivity|cbn; split; [reflexivity|lia]]).
    pose proof (grunS 2 _ _ 0%nat (ADrop 0) _ R6 W7 eq_refl) as R7. cbn in R7.
    match type of R7 with grun _ _ ?s => assert (W8 : enabled s 0 AWork) by (eexists; split; [reflexivity|discriminate]) end.
    pose proof (grunS 2 _ _ 0%nat AWork _ R7 W8 eq_refl) as R8. cbn in R8.
    match type of R8 with grun _ _ ?s => assert (W9 : enabled s 0 AWork) by (eexists; split; [reflexivity|discriminate]) end.
    pose proof (grunS 2 _ _ 0%nat AWork _ R8 W9 eq_refl) as R9. cbn in R9. exact R9.
  - assert (LT : forall b i j, hb b tr i j -> (i < j)%nat) by (intros b i j X; induction X as [x y (L & _)|]; lia).
    exists 3%nat, 8%nat, 0%nat, 1%nat, 0%nat. split; [reflexivity|]. split; [reflexivity|]. split; [|intros X; apply LT in X; lia].
    (* everything after the use in thread 1 stays in thread 1 *)
    assert (ST : forall i j, hb false tr i j -> (3 <= i)%nat -> (exists m, nth_error tr i = Some (1%nat, m)) -> (exists m, nth_error tr j = Some (1%nat, m))).
    { intros i j X. induction X as [x y (L & t & m & t' & m' & A & B & C)|x y z X1 IH1 X2 IH2]; intros GE (m0 & E0).
      - rewrite A in E0. injection E0 as -> <-. destruct C as [<-|[C|(C & _)]]; [eauto| |discriminate].
        subst m. assert (x < 9)%nat by (assert (E1 : nth_error tr x <> None) by congruence; apply nth_error_Some in E1; exact E1).
        do 9 (destruct x as [|x]; [cbn in A; try lia; try discriminate|]). lia.
      - apply IH2; [apply LT in X1; lia|]. apply IH1; eauto. }
    intros X. destruct (ST 3%nat 8%nat X (le_n _) (ex_intro _ _ eq_refl)) as (m & E). discriminate.
  - (* acquire-release orders use - drop - drop - free *)
    intros (i & j & o & t & t' & A & B & C & _). apply C.
    assert (i = 3%nat /\ j = 8%nat) as (-> & ->).
    { assert (i < 9)%nat by (assert (E1 : nth_error tr i <> None) by congruence; apply nth_error_Some in E1; exact E1).
      assert (j < 9)%nat by (assert (E1 : nth_error tr j <> None) by congruence; apply nth_error_Some in E1; exact E1).
      split; [do 9 (destruct i as [|i]; [cbn in A; try discriminate; auto|]); lia|do 9 (destruct j as [|j]; [cbn in B; try discriminate; auto|]); lia]. }
    apply t_trans with 5%nat; [apply t_step; split; [lia|]; do 4 eexists; split; [reflexivity|]; split; [reflexivity|]; auto|].
    apply t_trans with 7%nat; [apply t_step; split; [lia|]; do 4 eexists; split; [reflexivity|]; split; [reflexivity|]; right; right; split; eauto|].
    apply t_step. split; [lia|]. do 4 eexists. split; [reflexivity|]. split; [reflexivity|]. auto.
Qed.
Print Assumptions C19_relaxed_order_refuted.

(** two threads share a node and its source; the second thread's drop destroys both *)
Example C19_demo : exists st st', greach 2 st /\ enabled st 1 AWork /\ grefs st 0 = 1%nat /\ grefs st 1 = 1%nat /\ gstep st 1 AWork = Ok st' /\ destroying st' 1 1.
Proof.
  exists {| g_nodes := [Some {| o_rc := 1; o_mem := [] |}; Some {| o_rc := 1; o_mem := [Some 0%nat] |}]; g_threads := [{| th_vars := [None]; th_work := [] |}; {| th_vars := [None]; th_work := [WRel 1] |}] |}.
  eexists. split; [|split; [eexists; split; [reflexivity|discriminate]|split; [reflexivity|split; [reflexivity|split; [reflexivity|]]]]].
  - pose proof (greach0 2) as R0.
    pose proof (greachS 2 _ 0%nat (ANew 0) _ R0 (ex_intro _ _ (conj eq_refl eq_refl)) eq_refl) as R1. cbn in R1.
    pose proof (greachS 2 _ 0%nat (ANew 1) _ R1 (ex_intro _ _ (conj eq_refl eq_refl)) eq_refl) as R2. cbn in R2.
    pose proof (greachS 2 _ 0%nat (AMove 0 1) _ R2 (ex_intro _ _ (conj eq_refl (conj eq_refl (conj (le_n _) (le_n _))))) eq_refl) as R3. cbn in R3.
    pose proof (greachS 2 _ 1%nat (ADrop 0) _ R3 (ex_intro _ _ (conj eq_refl (conj eq_refl (le_n _)))) eq_refl) as R4. cbn in R4. exact R4.
  - eexists. split; [reflexivity|]. cbn. auto.
Qed.
