(** Invariant of the interleaved handle machine. *)
From Coq Require Import ZArith List Bool Lia.
From Verif Require Import Prelude SmartNode_Model SmartNode_Proofs CRef_Proofs RefThreads_Model.
Import ListNotations.
Open Scope Z_scope.

Definition wrefs (w : list work) : list (option nat) := flat_map (fun x => match x with WRel o => [Some o] | WFree _ => [] end) w.
Definition wfrees (w : list work) : list nat := flat_map (fun x => match x with WFree o => [o] | WRel _ => [] end) w.
Definition trefs (th : thread) : list (option nat) := th_vars th ++ wrefs (th_work th).
Definition allrefs (T : list thread) : list (option nat) := flat_map trefs T.
Definition frees (T : list thread) : list nat := flat_map (fun th => wfrees (th_work th)) T.

Record GInv (st : gstate) : Prop := {
  gv_inv : Inv (g_nodes st) (fun o => occ o (allrefs (g_threads st))) (frees (g_threads st)) [];
  gv_nd : NoDup (frees (g_threads st));
  gv_al : forall i, In i (frees (g_threads st)) -> alloc (g_nodes st) i;
  gv_acyc : forall i ob o, nth_error (g_nodes st) i = Some (Some ob) -> In (Some o) (o_mem ob) -> (o < i)%nat
}.

Lemma Inv_D_ext : forall H ext D D' L, (forall i, In i D <-> In i D') -> Inv H ext D L -> Inv H ext D' L.
Proof.
  intros H ext D D' L E [A B C F G].
  assert (IB : forall i, inb i D = inb i D').
  { intros i. destruct (inb i D) eqn:X, (inb i D') eqn:Y; auto; [apply inb_In in X; apply E in X; apply inb_In in X; congruence|apply inb_In in Y; apply E in Y; apply inb_In in Y; congruence]. }
  assert (CC : forall o ob, cell H D o ob <-> cell H D' o ob) by (intros; unfold cell; rewrite E; tauto).
  assert (TT : forall o, totf (own D o) 0 H = totf (own D' o) 0 H) by (intros; apply totf_ext; intros; unfold own; rewrite IB; auto).
  constructor.
  - intros. rewrite <- TT. apply A, CC. auto.
  - intros o ob HC. apply CC in HC. eauto.
  - auto.
  - intros o Ho. destruct (F o Ho) as (ob & X). exists ob. apply CC. auto.
  - intros i ob o HC Hin. apply CC in HC. destruct (G i ob o HC Hin) as (ob' & X). exists ob'. apply CC. auto.
Qed.

Lemma wrefs_rel : forall x o w, occ x (wrefs (WRel o :: w)) = one (Some o) x + occ x (wrefs w). Proof. reflexivity. Qed.
Lemma wrefs_app : forall a b, wrefs (a ++ b) = wrefs a ++ wrefs b. Proof. intros. apply flat_map_app. Qed.
Lemma wfrees_app : forall a b, wfrees (a ++ b) = wfrees a ++ wfrees b. Proof. intros. apply flat_map_app. Qed.
Lemma occ_rev : forall o l, occ o (rev l) = occ o l.
Proof. induction l; simpl; auto. rewrite occ_app. simpl. lia. Qed.
Lemma wrefs_member : forall o m, occ o (wrefs (member_work m)) = occ o m.
Proof.
  intros. unfold member_work. rewrite <- (occ_rev o m). induction (rev m) as [|p l IH]; [reflexivity|]. cbn [flat_map]. rewrite wrefs_app, occ_app, IH.
  destruct p as [q|]; simpl; [lia|reflexivity].
Qed.
Lemma wfrees_member : forall m, wfrees (member_work m) = [].
Proof. intros. unfold member_work. induction (rev m) as [|p l IH]; [reflexivity|]. cbn [flat_map]. rewrite wfrees_app, IH. destruct p; reflexivity. Qed.

Lemma split_upd : forall A (l : list A) i x, nth_error l i = Some x -> exists a b, l = a ++ x :: b /\ length a = i /\ forall y, upd l i y = a ++ y :: b.
Proof. intros A l i x E. destruct (nth_error_split l i E) as (a & b & -> & <-). exists a, b. split; auto. split; auto. intros. apply upd_mid. auto. Qed.

Lemma allrefs_mid : forall a th b o, occ o (allrefs (a ++ th :: b)) = occ o (allrefs a) + occ o (th_vars th) + occ o (wrefs (th_work th)) + occ o (allrefs b).
Proof. intros. unfold allrefs. rewrite flat_map_app, occ_app. cbn [flat_map]. rewrite occ_app. unfold trefs at 2. rewrite occ_app. lia. Qed.
Lemma frees_mid : forall a th b, frees (a ++ th :: b) = frees a ++ wfrees (th_work th) ++ frees b.
Proof. intros. unfold frees. rewrite flat_map_app. reflexivity. Qed.

Lemma occ_firstn_skipn : forall o k l, occ o (firstn k l) + occ o (skipn k l) = occ o l.
Proof. intros. rewrite <- occ_app, firstn_skipn. reflexivity. Qed.

(** a new node takes over handles as its sources *)
Lemma new_with : forall H ext ext' D ms, Inv H ext D [] -> (forall i, In i D -> (i < length H)%nat) ->
  (forall x, ext' x = ext x + one (Some (length H)) x - occ x ms) -> (forall x, occ x ms <= ext x) ->
  Inv (H ++ [Some {| o_rc := 1; o_mem := ms |}]) ext' D [].
Proof.
  intros H ext ext' D ms HI HD HE HM. pose proof (cinv_new H ext D 0 HI HD) as [A B C F G]. pose proof (i_nn _ _ _ _ HI) as C0. pose proof (i_ext _ _ _ _ HI) as F0.
  set (c := Some {| o_rc := 1; o_mem := ms |}). set (c0 := Some {| o_rc := 1; o_mem := repeat None 0 |}) in *. set (o := length H) in *.
  assert (OD : ~ In o D) by (intros X; apply HD in X; unfold o in X; lia).
  assert (NX : forall i, i <> o -> nth_error (H ++ [c]) i = nth_error (H ++ [c0]) i).
  { intros i Hi. destruct (Nat.lt_ge_cases i (length H)); [rewrite !nth_error_app1 by auto; auto|]. unfold o in Hi. rewrite !nth_error_app2 by lia. destruct (i - length H)%nat eqn:Q; [lia|]. reflexivity. }
  assert (NE : forall d, nth_error (H ++ [d]) o = Some d) by (intros; unfold o; rewrite nth_error_app2 by lia; rewrite Nat.sub_diag; reflexivity).
  assert (TT : forall x, totf (own D x) 0 (H ++ [c]) = totf (own D x) 0 (H ++ [c0]) + occ x ms).
  { intros x. rewrite !totf_app. cbn [totf own c c0 o_mem repeat Nat.add]. fold o. replace (inb o D) with false by (symmetry; apply inb_false; auto). simpl. lia. }
  assert (CE : forall x, (exists ob0, cell (H ++ [c0]) D x ob0) -> exists ob1, cell (H ++ [c]) D x ob1).
  { intros x (ob0 & X & Y). destruct (Nat.eq_dec x o) as [->|N]; [exists {| o_rc := 1; o_mem := ms |}; split; auto|]. exists ob0. split; auto. rewrite NX; auto. }
  assert (CO : forall x, 0 < ext x -> exists ob1, cell (H ++ [c]) D x ob1).
  { intros x Hx. apply CE. apply F. unfold inc, one. destruct (ptr_eqb (Some o) (Some x)); lia. }
  constructor.
  - intros x obx (E & NDx). rewrite TT, HE. destruct (Nat.eq_dec x o) as [->|N].
    + rewrite NE in E. injection E as <-. cbn [o_rc]. pose proof (A o {| o_rc := 1; o_mem := repeat None 0 |}) as X. cbn [o_rc] in X. rewrite X; [|split; auto; apply NE]. unfold inc. fold o. lia.
    + rewrite NX in E by auto. rewrite (A x obx) by (split; auto). unfold inc. fold o. lia.
  - intros x obx (E & NDx) HL. destruct (Nat.eq_dec x o) as [->|N]; [rewrite NE in E; injection E as <-; simpl; lia|]. rewrite NX in E by auto. apply (B x obx); auto. split; auto.
  - intros x. rewrite HE. specialize (HM x). unfold one. specialize (C0 x). fold o. destruct (ptr_eqb (Some o) (Some x)); lia.
  - intros x Hx. rewrite HE in Hx. apply CE, F. unfold inc. fold o in Hx. pose proof (occ_nonneg x ms). lia.
  - intros i obi x (E & NDx) Hin. destruct (Nat.eq_dec i o) as [->|N].
    + rewrite NE in E. injection E as <-. cbn in Hin. apply occ_pos in Hin. apply CO. specialize (HM x). lia.
    + rewrite NX in E by auto. apply CE. apply (G i obi x); auto. split; auto.
Qed.

Lemma alloc_upd_some : forall H i c o, alloc H o -> alloc (upd H i (Some c)) o.
Proof.
  intros H i c o (ob & E). destruct (Nat.eq_dec i o) as [->|N]; [exists c; apply nth_error_upd_eq; eapply nth_lt; eauto|exists ob; rewrite nth_error_upd_neq; auto].
Qed.

Lemma acyc_rc : forall H o ob r, nth_error H o = Some (Some ob) ->
  (forall i ob x, nth_error H i = Some (Some ob) -> In (Some x) (o_mem ob) -> (x < i)%nat) ->
  forall i ob' x, nth_error (upd H o (Some {| o_rc := r; o_mem := o_mem ob |})) i = Some (Some ob') -> In (Some x) (o_mem ob') -> (x < i)%nat.
Proof.
  intros H o ob r EO AC i ob' x E Hin. destruct (Nat.eq_dec o i) as [->|N].
  - rewrite nth_error_upd_eq in E by (eapply nth_lt; eauto). injection E as <-. eapply AC; eauto.
  - rewrite nth_error_upd_neq in E by auto. eapply AC; eauto.
Qed.

Lemma gstep_ok : forall st t a, GInv st -> enabled st t a -> exists st', gstep st t a = Ok st' /\ GInv st'.
Proof.
  intros [H T] t a [GI ND AL AC] (th & ET & EN). cbn [g_nodes g_threads] in *.
  destruct (split_upd _ T t th ET) as (ta & tb & -> & LT & UP). unfold gstep. cbn [g_nodes g_threads]. rewrite (rd_Ok _ _ _ _ ET). cbn [bind].
  unfold set_thread. cbn [g_nodes g_threads].
  assert (OV : forall i o, nth_error (th_vars th) i = Some (Some o) -> 0 < occ o (allrefs (ta ++ th :: tb))).
  { intros i o E. rewrite allrefs_mid. apply occ_in in E. pose proof (occ_nonneg o (wrefs (th_work th))). pose proof (occ_nonneg o (allrefs ta)). pose proof (occ_nonneg o (allrefs tb)). lia. }
  destruct a as [i|i|i|i t'|k|]; cbn [g_nodes g_threads] in *.
  - (* copy *)
    destruct EN as (W & LI). destruct (rd_ok _ (th_vars th) i LI) as (p & -> & EP). cbn [bind]. destruct p as [o|].
    + destruct (i_ext _ _ _ _ GI o) as (ob & HC); [eauto|]. pose proof HC as (EO & NDo). unfold fetch_add, deref. rewrite EO. cbn [bind].
      eexists. split; [reflexivity|]. rewrite UP. rewrite W. constructor; cbn [g_nodes g_threads].
      * eapply Inv_D_ext; [|eapply rc_change_inv; [exact GI|exact HC|..]].
        -- intros x. rewrite !frees_mid, W. reflexivity.
        -- intros x. rewrite !allrefs_mid, W. cbn [th_vars th_work wrefs flat_map]. rewrite occ_app, occ_one. unfold one, ptr_eqb. rewrite (Nat.eqb_sym o x). cbn [occ fold_right]. lia.
        -- apply occ_nonneg.
        -- pose proof (i_pos _ _ _ _ GI o ob HC (fun x => x)). lia.
      * rewrite frees_mid in *. rewrite W in ND. exact ND.
      * intros x Hx. apply alloc_upd_some. apply AL. rewrite frees_mid in *. rewrite W. exact Hx.
      * eapply acyc_rc; eauto.
    + eexists. split; [reflexivity|]. rewrite UP. constructor; cbn [g_nodes g_threads]; auto.
      * eapply Inv_D_ext; [|eapply Inv_ext_eq; [|exact GI]].
        -- intros x. rewrite !frees_mid. reflexivity.
        -- intros x. rewrite !allrefs_mid. cbn [th_vars th_work]. rewrite occ_app. simpl. lia.
      * rewrite frees_mid in *. exact ND.
      * intros x Hx. apply AL. rewrite frees_mid in *. exact Hx.
  - (* use *)
    destruct EN as (W & o & EP). rewrite (rd_Ok _ _ _ _ EP). cbn [bind]. destruct (i_ext _ _ _ _ GI o) as (ob & EO & _); [eauto|]. unfold deref. rewrite EO. cbn [bind].
    eexists. split; [reflexivity|]. constructor; auto.
  - (* drop *)
    destruct EN as (W & LI). destruct (rd_ok _ (th_vars th) i LI) as (p & -> & EP). cbn [bind]. rewrite wr_ok by auto. cbn [bind]. rewrite W, app_nil_r.
    eexists. split; [reflexivity|]. rewrite UP. constructor; cbn [g_nodes g_threads]; auto.
    + eapply Inv_D_ext; [|eapply Inv_ext_eq; [|exact GI]].
      * intros x. rewrite !frees_mid, W. cbn [th_work]. destruct p; reflexivity.
      * intros x. rewrite !allrefs_mid, W. cbn [th_vars th_work]. rewrite (occ_upd x _ i p None EP). unfold one. destruct p as [o|]; cbn [wrefs flat_map app occ fold_right ptr_eqb]; lia.
    + rewrite frees_mid in *. rewrite W in ND. cbn [th_work]. destruct p; exact ND.
    + intros x Hx. apply AL. rewrite frees_mid in *. rewrite W. cbn [th_work] in Hx. destruct p; exact Hx.
  - (* move *)
    destruct EN as (W & LI & LT'). destruct (rd_ok _ (th_vars th) i LI) as (p & -> & EP). cbn [bind]. rewrite wr_ok by auto. cbn [bind]. rewrite UP.
    set (th1 := {| th_vars := upd (th_vars th) i None; th_work := th_work th |}).
    destruct (rd_ok _ (ta ++ th1 :: tb) t') as (th' & -> & ET'); [rewrite app_length in *; exact LT'|]. cbn [bind].
    destruct (split_upd _ _ t' th' ET') as (ua & ub & EQ & _ & UP'). rewrite UP'. eexists. split; [reflexivity|].
    assert (O1 : forall x, occ x (allrefs (ta ++ th :: tb)) = occ x (allrefs (ua ++ {| th_vars := th_vars th' ++ [p]; th_work := th_work th' |} :: ub))).
    { intros x. assert (E1 : occ x (allrefs (ta ++ th1 :: tb)) = occ x (allrefs (ta ++ th :: tb)) - one p x).
      { rewrite !allrefs_mid. unfold th1. cbn [th_vars th_work]. rewrite (occ_upd x _ i p None EP). unfold one. simpl. lia. }
      rewrite EQ in E1. rewrite (allrefs_mid ua th' ub) in E1. rewrite (allrefs_mid ua _ ub). cbn [th_vars th_work]. rewrite occ_app, occ_one. lia. }
    assert (F1 : frees (ta ++ th :: tb) = frees (ua ++ {| th_vars := th_vars th' ++ [p]; th_work := th_work th' |} :: ub)).
    { transitivity (frees (ta ++ th1 :: tb)); [rewrite !frees_mid; reflexivity|]. rewrite EQ, !frees_mid. reflexivity. }
    constructor; cbn [g_nodes g_threads]; rewrite <- ?F1; auto. eapply Inv_ext_eq; [|exact GI]. exact O1.
  - (* new *)
    eexists. split; [reflexivity|]. rewrite UP. rewrite EN. constructor; cbn [g_nodes g_threads].
    + assert (FE : frees (ta ++ {| th_vars := skipn k (th_vars th) ++ [Some (length H)]; th_work := [] |} :: tb) = frees (ta ++ th :: tb)) by (rewrite !frees_mid, EN; reflexivity).
      rewrite FE. eapply new_with; [exact GI| | |].
      * intros x Hx. destruct (AL x Hx) as (ob & E). eapply nth_lt; eauto.
      * intros x. rewrite !allrefs_mid, EN. cbn [th_vars th_work]. rewrite occ_app, occ_one. pose proof (occ_firstn_skipn x k (th_vars th)). lia.
      * intros x. cbn beta. rewrite allrefs_mid. pose proof (occ_firstn_skipn x k (th_vars th)). pose proof (occ_nonneg x (skipn k (th_vars th))).
        pose proof (occ_nonneg x (wrefs (th_work th))). pose proof (occ_nonneg x (allrefs ta)). pose proof (occ_nonneg x (allrefs tb)). lia.
    + rewrite frees_mid in *. rewrite EN in ND. exact ND.
    + intros x Hx. assert (A : alloc H x) by (apply AL; rewrite frees_mid in *; rewrite EN; exact Hx). destruct A as (ob & E). exists ob. rewrite nth_error_app1; auto. eapply nth_lt; eauto.
    + intros i ob o E Hin. destruct (Nat.lt_ge_cases i (length H)) as [L|L].
      * rewrite nth_error_app1 in E by auto. eapply AC; eauto.
      * rewrite nth_error_app2 in E by auto. destruct (i - length H)%nat eqn:Q; [|destruct n; discriminate]. cbn in E. injection E as <-. cbn in Hin.
        assert (IN : In (Some o) (th_vars th)) by (rewrite <- (firstn_skipn k (th_vars th)); apply in_or_app; auto).
        apply In_nth_error in IN. destruct IN as (j & EJ). destruct (i_ext _ _ _ _ GI o) as (ob & EO & _); [eauto|]. apply nth_lt in EO. lia.
  - (* work *)
    destruct (th_work th) as [|[o|o] w] eqn:W; [congruence| |].
    + (* release *)
      destruct (i_ext _ _ _ _ GI o) as (ob & HC).
      { rewrite allrefs_mid, W. cbn [wrefs flat_map app occ fold_right]. fold (wrefs w). fold (occ o (wrefs w)). replace (ptr_eqb (Some o) (Some o)) with true by (symmetry; apply ptr_eqb_eq; auto).
        pose proof (occ_nonneg o (th_vars th)). pose proof (occ_nonneg o (wrefs w)). pose proof (occ_nonneg o (allrefs ta)). pose proof (occ_nonneg o (allrefs tb)). lia. }
      pose proof HC as (EO & NDo). unfold fetch_add, deref. rewrite EO. cbn [bind].
      pose proof (i_pos _ _ _ _ GI o ob HC (fun x => x)) as POS.
      destruct (Z.eqb_spec (o_rc ob) 1) as [R1|R1].
      * rewrite nth_error_upd_eq by (eapply nth_lt; eauto). cbn [bind o_mem]. eexists. split; [reflexivity|]. rewrite UP.
        assert (FE : forall x, In x (frees (ta ++ {| th_vars := th_vars th; th_work := member_work (o_mem ob) ++ WFree o :: w |} :: tb)) <-> In x (o :: frees (ta ++ th :: tb))).
        { intros x. rewrite !frees_mid, W. cbn [th_work]. rewrite wfrees_app, wfrees_member. cbn [app wfrees flat_map]. fold (wfrees w). simpl. rewrite !in_app_iff. simpl. rewrite !in_app_iff. tauto. }
        constructor; cbn [g_nodes g_threads].
        -- eapply Inv_D_ext; [intros x; symmetry; apply FE|]. eapply Inv_ext_eq; [|eapply start_destroy; eauto].
           ++ intros x. cbn beta. rewrite !allrefs_mid, W. cbn [th_vars th_work]. rewrite wrefs_app, occ_app, wrefs_member. cbn [wrefs flat_map app occ fold_right]. fold (wrefs w). fold (occ x (wrefs w)). unfold one. lia.
           ++ cbn beta. rewrite allrefs_mid, W. cbn [wrefs flat_map app occ fold_right]. fold (wrefs w). fold (occ o (wrefs w)). replace (ptr_eqb (Some o) (Some o)) with true by (symmetry; apply ptr_eqb_eq; auto).
              pose proof (occ_nonneg o (th_vars th)). pose proof (occ_nonneg o (wrefs w)). pose proof (occ_nonneg o (allrefs ta)). pose proof (occ_nonneg o (allrefs tb)). lia.
        -- rewrite frees_mid in *. cbn [th_work]. rewrite W in ND. cbn [wfrees flat_map app] in ND. fold (wfrees w) in ND. rewrite wfrees_app, wfrees_member. cbn [wfrees flat_map app]. fold (wfrees w).
           apply NoDup_Add with (a := o) (l := frees ta ++ wfrees w ++ frees tb); [apply Add_app|]. split; auto. rewrite W in NDo. exact NDo.
        -- intros x Hx. apply FE in Hx. apply alloc_upd_some. destruct Hx as [<-|Hx]; [exists ob; auto|apply AL; auto].
        -- eapply acyc_rc; eauto.
      * eexists. split; [reflexivity|]. rewrite UP. constructor; cbn [g_nodes g_threads].
        -- eapply Inv_D_ext; [|eapply rc_change_inv; [exact GI|exact HC|..]].
           ++ intros x. rewrite !frees_mid, W. reflexivity.
           ++ intros x. rewrite !allrefs_mid, W. cbn [th_vars th_work]. rewrite wrefs_rel. unfold one, ptr_eqb. rewrite (Nat.eqb_sym o x). destruct (Nat.eqb x o); lia.
           ++ apply occ_nonneg.
           ++ lia.
        -- rewrite frees_mid in *. rewrite W in ND. exact ND.
        -- intros x Hx. apply alloc_upd_some. apply AL. rewrite frees_mid in *. rewrite W. exact Hx.
        -- eapply acyc_rc; eauto.
    + (* free *)
      assert (IND : In o (frees (ta ++ th :: tb))) by (rewrite frees_mid, W; cbn; rewrite in_app_iff; right; left; auto).
      destruct (AL o IND) as (ob & EO). unfold deref. rewrite EO. cbn [bind]. eexists. split; [reflexivity|]. rewrite UP.
      rewrite frees_mid, W in ND. cbn [wfrees flat_map app] in ND. fold (wfrees w) in ND. pose proof (NoDup_remove_1 _ _ _ ND) as ND1. pose proof (NoDup_remove_2 _ _ _ ND) as ND2.
      constructor; cbn [g_nodes g_threads].
      * rewrite frees_mid. cbn [th_work]. eapply finish_destroy; [|exact ND2|exact EO].
        eapply Inv_D_ext; [|eapply Inv_ext_eq; [|exact GI]].
        -- intros x. rewrite frees_mid, W. cbn [wfrees flat_map app]. fold (wfrees w). simpl. rewrite !in_app_iff. simpl. rewrite !in_app_iff. tauto.
        -- intros x. rewrite !allrefs_mid, W. reflexivity.
      * rewrite frees_mid. exact ND1.
      * intros x Hx. rewrite frees_mid in Hx. cbn [th_work] in Hx. assert (x <> o) by (intros ->; auto). destruct (AL x) as (obx & EX).
        { rewrite frees_mid, W. cbn [wfrees flat_map app]. fold (wfrees w). rewrite in_app_iff in *. simpl. tauto. }
        exists obx. rewrite nth_error_upd_neq by auto. exact EX.
      * intros i obi x E Hin. destruct (Nat.eq_dec o i) as [->|N]; [rewrite nth_error_upd_eq in E by (eapply nth_lt; eauto); discriminate|]. rewrite nth_error_upd_neq in E by auto. eapply AC; eauto.
Qed.
