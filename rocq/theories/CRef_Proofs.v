(** Invariant of the C API reference machine: nodes whose last reference was dropped by
    fnDeleteNodeRef stay in memory for ever (the ghost set [D]). *)
From Coq Require Import ZArith List Bool Lia.
From Verif Require Import Prelude SmartNode_Model SmartNode_Proofs CRef_Model.
Import ListNotations.
Open Scope Z_scope.

Definition cop_ok (st : cstate) (c : cop) : Prop :=
  match c with
  | CNew _ => True
  | CDelete r => exists o, nth_error (cs_refs st) r = Some (Some o)
  | CSetSource d j s _ =>
      (exists o ob, nth_error (cs_refs st) d = Some (Some o) /\ nth_error (cs_heap st) o = Some (Some ob) /\ (j < length (o_mem ob))%nat) /\
      (forall r, s = Some r -> exists x, nth_error (cs_refs st) r = Some (Some x))
  | CSetValue d j => exists o ob, nth_error (cs_refs st) d = Some (Some o) /\ nth_error (cs_heap st) o = Some (Some ob) /\ (j < length (o_mem ob))%nat
  end.

Record CInv (lk : nat -> Z) (D : list nat) (st : cstate) : Prop := {
  ci_lk : forall o, 0 <= lk o;
  ci_inv : Inv (cs_heap st) (extv (cs_refs st) lk) D [];
  ci_D : forall i, In i D -> (i < length (cs_heap st))%nat
}.

Lemma cinv_new : forall H ext D k, Inv H ext D [] -> (forall i, In i D -> (i < length H)%nat) ->
  Inv (H ++ [Some {| o_rc := 1; o_mem := repeat None k |}]) (inc ext (Some (length H))) D [].
Proof.
  intros H ext D k HI HD. pose proof HI as [A B C F G]. set (c := Some _). set (o := length H).
  assert (OD : ~ In o D) by (intros X; apply HD in X; unfold o in X; lia).
  assert (NO : nth_error H o = None) by (apply nth_error_None; unfold o; lia).
  assert (E0 : ext o = 0). { pose proof (C o). destruct (Z.eq_dec (ext o) 0); auto. destruct (F o) as (x & X & _); [lia|congruence]. }
  assert (NX : forall i, i <> o -> nth_error (H ++ [c]) i = nth_error H i).
  { intros i Hi. destruct (Nat.lt_ge_cases i (length H)); [apply nth_error_app1; auto|]. unfold o in Hi. rewrite nth_error_app2 by lia. destruct (i - length H)%nat eqn:Q; [lia|].
    simpl. rewrite (proj2 (nth_error_None H i)) by lia. destruct n; auto. }
  assert (NE : nth_error (H ++ [c]) o = Some c). { unfold o. rewrite nth_error_app2 by lia. rewrite Nat.sub_diag. reflexivity. }
  assert (TT : forall x, totf (own D x) 0 (H ++ [c]) = totf (own D x) 0 H).
  { intros x. rewrite totf_app. cbn [totf own c o_mem]. rewrite occ_repeat. destruct (inb _ D); lia. }
  assert (T0 : totf (own D o) 0 H = 0).
  { pose proof (totf_nonneg (own D o) H 0 (own_nonneg D o)). destruct (Z.eq_dec (totf (own D o) 0 H) 0); auto. exfalso.
    assert (GEN : forall K i, (totf (own D o) i K <> 0) -> exists j ob, nth_error K j = Some (Some ob) /\ ~ In (i + j)%nat D /\ In (Some o) (o_mem ob)).
    { clear. induction K as [|x K IH]; intros i Hn; simpl in Hn; [congruence|]. destruct (Z.eq_dec (own D o i x) 0) as [Z0|Z0].
      - destruct (IH (S i)) as (j & ob & P1 & P2 & P3); [lia|]. exists (S j), ob. replace (i + S j)%nat with (S i + j)%nat by lia. auto.
      - destruct x as [ob|]; simpl in Z0; [|lia]. exists 0%nat, ob. rewrite Nat.add_0_r. split; auto. destruct (inb i D) eqn:Q; [lia|]. split; [apply inb_false; auto|]. apply occ_pos. pose proof (occ_nonneg o (o_mem ob)). lia. }
    destruct (GEN H 0%nat n) as (i & ob & Ei & Hi & Hin). destruct (G i ob o) as (x & X & _); [split; auto|auto|congruence]. }
  assert (CE : forall x, (exists ob0, cell H D x ob0) -> exists ob1, cell (H ++ [c]) D x ob1).
  { intros x (ob0 & C0 & C1). exists ob0. split; auto. rewrite nth_error_app1; auto. eapply nth_lt; eauto. }
  constructor.
  - intros x obx (E & NDx). rewrite TT. unfold inc, one, ptr_eqb. destruct (Nat.eqb_spec o x) as [<-|N].
    + rewrite NE in E. injection E as <-. cbn [o_rc]. lia.
    + rewrite NX in E by auto. rewrite (A x obx); [lia|split; auto].
  - intros x obx (E & NDx) HL. destruct (Nat.eq_dec x o) as [->|N]; [rewrite NE in E; injection E as <-; simpl; lia|]. rewrite NX in E by auto. apply (B x obx); auto. split; auto.
  - intros x. unfold inc, one. specialize (C x). destruct (ptr_eqb (Some o) (Some x)); lia.
  - intros x HX. unfold inc, one, ptr_eqb in HX. destruct (Nat.eqb_spec o x) as [e|N]; [rewrite <- e; exists {| o_rc := 1; o_mem := repeat None k |}; split; auto|]. apply CE, F. lia.
  - intros i obi x (E & NDx) Hin. apply CE. destruct (Nat.eq_dec i o) as [->|N].
    + rewrite NE in E. injection E as <-. cbn in Hin. apply repeat_spec in Hin. discriminate.
    + rewrite NX in E by auto. apply (G i obi x); auto. split; auto.
Qed.

(** one step: defined, keeps the invariant, and never touches a leaked node *)
Lemma cstep_ok : forall st c lk D, CInv lk D st -> cop_ok st c ->
  exists st', cexec1 st c = Ok st' /\ exists lk' D', CInv lk' D' st' /\ incl D D' /\ (forall i, In i D -> nth_error (cs_heap st') i = nth_error (cs_heap st) i) /\
    (forall r o ob, c = CDelete r -> nth_error (cs_refs st) r = Some (Some o) -> nth_error (cs_heap st) o = Some (Some ob) -> o_rc ob = 1 ->
       In o D' /\ nth_error (cs_heap st') o = Some (Some {| o_rc := 0; o_mem := o_mem ob |})).
Proof.
  intros [H R] c lk D [LK HI HD] HO. unfold cexec1. set (f := S (length (cs_heap {| cs_heap := H; cs_refs := R |}))). cbn [cs_heap cs_refs] in *.
  assert (FL : (length H <= f)%nat) by (unfold f; simpl; lia).
  assert (XV : forall i o, nth_error R i = Some (Some o) -> 1 <= extv R lk o) by (intros i o E; eapply ext_of_var; eauto).
  assert (XC : forall i o, nth_error R i = Some (Some o) -> exists ob, cell H D o ob) by (intros i o E; apply (i_ext _ _ _ _ HI); apply XV in E; lia).
  destruct c; cbn [cstep cop_ok cs_heap cs_refs] in *.
  - (* New *)
    cbn [try_inc]. unfold fetch_add at 1, deref. rewrite nth_error_app2 by lia. rewrite Nat.sub_diag. cbn [nth_error bind o_rc o_mem]. rewrite upd_mid by auto.
    pose proof (cinv_new H _ D k HI HD) as I1. set (H1 := H ++ [Some {| o_rc := 0 + 1; o_mem := repeat None k |}]).
    assert (N1 : nth_error H1 (length H) = Some (Some {| o_rc := 0 + 1; o_mem := repeat None k |})) by (unfold H1; rewrite nth_error_app2 by lia; rewrite Nat.sub_diag; reflexivity).
    change (H ++ [Some {| o_rc := 1; o_mem := repeat None k |}]) with H1 in I1.
    assert (OD : ~ In (length H) D) by (intros X; apply HD in X; lia).
    destruct (try_inc_ok H1 _ D [] (Some (length H)) I1) as (H2 & E2 & I2 & F2); [intros o [= <-]; eexists; split; eauto|].
    cbn [try_inc] in E2. destruct (fetch_add H1 (length H) 1) as [[pr Hx]| |] eqn:EF; try discriminate. cbn [bind] in E2 |- *. injection E2 as ->.
    destruct (release_top f H2 _ D [] (Some (length H)) I2) as (H3 & -> & I3 & F3).
    { intros o [= <-]. unfold inc, one. simpl. rewrite Nat.eqb_refl. unfold extv. pose proof (occ_nonneg (length H) R). specialize (LK (length H)). lia. }
    { rewrite (fr_len _ _ _ F2). unfold H1, f. rewrite app_length. simpl. lia. }
    cbn [bind]. eexists. split; [reflexivity|]. exists lk, D. cbn [cs_heap cs_refs]. split; [|split; [apply incl_refl|split]].
    + constructor; auto; cbn [cs_heap cs_refs].
      * eapply Inv_ext_eq; [|exact I3]. intros o. unfold dec, inc, extv. rewrite occ_app, occ_one. lia.
      * intros i Hi. rewrite (fr_len _ _ _ F3), (fr_len _ _ _ F2). unfold H1. rewrite app_length. apply HD in Hi. lia.
    + intros i Hi. rewrite (fr_D _ _ _ F3), (fr_D _ _ _ F2) by auto. unfold H1. apply nth_error_app1. auto.
    + discriminate.
  - (* Delete *)
    destruct HO as (o & EO). destruct (XC r o EO) as (ob & HC). pose proof HC as (EH & ND).
    unfold deref_ref. rewrite (rd_Ok _ R r _ EO). cbn [bind]. unfold fetch_add, deref. rewrite EH. cbn [bind]. rewrite wr_ok by (eapply nth_lt; eauto). cbn [bind].
    eexists. split; [reflexivity|]. cbn [cs_heap cs_refs]. destruct (Z.eq_dec (o_rc ob) 1) as [R1|R1].
    + exists (fun x => lk x + occ x (o_mem ob)), (o :: D). split; [|split; [apply incl_tl, incl_refl|split]].
      * constructor; cbn [cs_heap cs_refs].
        -- intros x. specialize (LK x). pose proof (occ_nonneg x (o_mem ob)). lia.
        -- eapply Inv_ext_eq; [|eapply start_destroy; eauto]. intros x. unfold extv. rewrite (occ_upd x R r _ None EO). assert (Q : one None x = 0) by reflexivity. rewrite Q. lia.
        -- intros i [<-|Hi]; rewrite upd_length; auto. eapply nth_lt; eauto.
      * intros i Hi. apply nth_error_upd_neq. intros <-; auto.
      * intros r' o' ob' [= <-] E1 E2 _. rewrite EO in E1. injection E1 as <-. rewrite EH in E2. injection E2 as <-. split; [left; auto|].
        rewrite nth_error_upd_eq by (eapply nth_lt; eauto). rewrite R1. reflexivity.
    + exists lk, D. split; [|split; [apply incl_refl|split]].
      * constructor; cbn [cs_heap cs_refs]; auto; [|intros; rewrite upd_length; auto].
        pose proof (i_pos _ _ _ _ HI o ob HC (fun x => x)) as P. pose proof (XV r o EO) as X.
        apply (rc_change_inv H (extv R lk)); auto; [| |lia].
        -- intros x. unfold extv. rewrite (occ_upd x R r _ None EO). unfold one, ptr_eqb. rewrite (Nat.eqb_sym x o). destruct (Nat.eqb o x); lia.
        -- unfold extv in *. rewrite (occ_upd o R r _ None EO). unfold one, ptr_eqb. rewrite Nat.eqb_refl. lia.
      * intros i Hi. apply nth_error_upd_neq. intros <-; auto.
      * intros r' o' ob' [= <-] E1 E2 E3. rewrite EO in E1. injection E1 as <-. rewrite EH in E2. injection E2 as <-. contradiction.
  - (* SetSource *)
    destruct HO as ((o & ob & EO & EH & HJ) & HS). unfold deref_ref at 1. rewrite (rd_Ok _ R d _ EO). cbn [bind].
    assert (ND : ~ In o D) by (destruct (XC d o EO) as (x & _ & X); auto).
    assert (NW : exists new, match s with None => Ok None | Some r => x <- deref_ref R r ; Ok (Some x) end = Ok new /\ (forall x, new = Some x -> 1 <= extv R lk x)).
    { destruct s as [r|]; [|exists None; split; [auto|discriminate]]. destruct (HS r eq_refl) as (x & EX). exists (Some x). unfold deref_ref. rewrite (rd_Ok _ R r _ EX). cbn. split; auto. intros y [= <-]. eauto. }
    destruct NW as (new & -> & XN). cbn [bind].
    assert (HN : has H D new) by (eapply has_ext; eauto).
    destruct (try_inc_ok H _ D [] new HI HN) as (H1 & -> & I1 & F1). cbn [bind].
    assert (FIN : forall H9, Inv H9 (extv R lk) D [] -> length H9 = length H -> (forall i, In i D -> nth_error H9 i = nth_error H i) ->
      exists st', Ok {| cs_heap := H9; cs_refs := R |} = Ok st' /\ exists lk' D', CInv lk' D' st' /\ incl D D' /\ (forall i, In i D -> nth_error (cs_heap st') i = nth_error H i) /\
       (forall r o ob, CSetSource d j s accept = CDelete r -> nth_error R r = Some (Some o) -> nth_error H o = Some (Some ob) -> o_rc ob = 1 ->
       In o D' /\ nth_error (cs_heap st') o = Some (Some {| o_rc := 0; o_mem := o_mem ob |}))).
    { intros H9 I9 L9 D9. eexists. split; [reflexivity|]. exists lk, D. split; [|split; [apply incl_refl|split; [auto|discriminate]]]. constructor; cbn [cs_heap cs_refs]; auto. intros. rewrite L9. auto. }
    destruct new as [x|].
    + destruct accept.
      * assert (X1 : forall y, Some x = Some y -> 1 <= extv R lk y) by auto.
        destruct (try_inc_ok H1 _ D [] (Some x) I1) as (H2 & -> & I2 & F2).
        { eapply has_ext; [exact I1|]. intros y [= <-]. unfold inc, one. specialize (XN x eq_refl). destruct (ptr_eqb (Some x) (Some x)); lia. }
        cbn [bind].
        assert (ob2E : exists ob2, nth_error H2 o = Some (Some ob2)).
        { destruct (i_ext _ _ _ _ I2 o) as (z & Z1 & _); eauto. unfold inc, one. pose proof (XV d o EO). destruct (ptr_eqb (Some x) (Some o)); lia. }
        destruct ob2E as (ob2 & EO2). destruct (fr_mem _ _ _ F2 o ob2 EO2) as (ob1 & EO1 & M2). destruct (fr_mem _ _ _ F1 o ob1 EO1) as (ob0 & EO0 & M1). rewrite EH in EO0. injection EO0 as <-. specialize (M1 ND). specialize (M2 ND).
        unfold read_slot, deref. rewrite EO2. cbn [bind]. destruct (rd_ok _ (o_mem ob2) j) as (cur & -> & EJ); [rewrite M2, M1; auto|]. cbn [bind].
        destruct (slot_assign_ok f H2 _ D [] o j ob2 cur (Some x) I2 ND EO2 EJ) as (H3 & H4 & -> & E4 & I4 & L4 & D4).
        { unfold inc, one. pose proof (XV d o EO). destruct (ptr_eqb (Some x) (Some o)); lia. }
        { eapply has_ext; [exact I2|]. intros y [= <-]. unfold inc, one. specialize (XN x eq_refl). destruct (ptr_eqb (Some x) (Some x)); lia. }
        { rewrite (fr_len _ _ _ F2), (fr_len _ _ _ F1). auto. }
        cbn [bind]. rewrite E4. cbn [bind].
        destruct (release_top f H4 _ D [] (Some x) I4) as (H5 & -> & I5 & F5).
        { intros y [= <-]. unfold inc, one. specialize (XN x eq_refl). destruct (ptr_eqb (Some x) (Some x)); lia. }
        { rewrite L4, (fr_len _ _ _ F2), (fr_len _ _ _ F1). auto. }
        cbn [bind]. destruct (release_top f H5 _ D [] (Some x) I5) as (H6 & -> & I6 & F6).
        { intros y [= <-]. unfold dec, inc, one. specialize (XN x eq_refl). destruct (ptr_eqb (Some x) (Some x)); lia. }
        { rewrite (fr_len _ _ _ F5), L4, (fr_len _ _ _ F2), (fr_len _ _ _ F1). auto. }
        cbn [bind]. apply FIN.
        -- eapply Inv_ext_eq; [|exact I6]. intros y. unfold dec, inc. lia.
        -- rewrite (fr_len _ _ _ F6), (fr_len _ _ _ F5), L4, (fr_len _ _ _ F2), (fr_len _ _ _ F1). auto.
        -- intros i Hi. rewrite (fr_D _ _ _ F6), (fr_D _ _ _ F5), D4, (fr_D _ _ _ F2), (fr_D _ _ _ F1); auto.
      * destruct (release_top f H1 _ D [] (Some x) I1) as (H2 & -> & I2 & F2).
        { intros y [= <-]. unfold inc, one. specialize (XN x eq_refl). destruct (ptr_eqb (Some x) (Some x)); lia. }
        { rewrite (fr_len _ _ _ F1). auto. }
        cbn [bind]. apply FIN.
        -- eapply Inv_ext_eq; [|exact I2]. intros y. unfold dec, inc. lia.
        -- rewrite (fr_len _ _ _ F2), (fr_len _ _ _ F1). auto.
        -- intros i Hi. rewrite (fr_D _ _ _ F2), (fr_D _ _ _ F1); auto.
    + cbn [release]. destruct f; cbn [release bind]; apply FIN; auto; try (intros i Hi; apply (fr_D _ _ _ F1); auto); try apply (fr_len _ _ _ F1);
        (eapply Inv_ext_eq; [|exact I1]; intros y; unfold inc, one; simpl; lia).
  - (* SetValue *)
    destruct HO as (o & ob & EO & EH & HJ). unfold deref_ref at 1. rewrite (rd_Ok _ R d _ EO). cbn [bind].
    assert (ND : ~ In o D) by (destruct (XC d o EO) as (x & _ & X); auto).
    unfold read_slot, deref. rewrite EH. cbn [bind]. destruct (rd_ok _ (o_mem ob) j HJ) as (cur & -> & EJ). cbn [bind].
    destruct (slot_write_inv H _ D [] o j ob cur None HI ND EH EJ) as (H1 & -> & D1 & I1); [discriminate|]. cbn [bind].
    assert (LH1 : length H1 = length H) by (rewrite D1; apply upd_length).
    destruct (release_top f H1 _ D [] cur I1) as (H2 & -> & I2 & F2); [|lia|].
    { intros x ->. unfold dec, inc, one. simpl. rewrite Nat.eqb_refl. pose proof (i_nn _ _ _ _ HI x). lia. }
    cbn [bind]. eexists. split; [reflexivity|]. exists lk, D. cbn [cs_heap cs_refs]. split; [|split; [apply incl_refl|split; [|discriminate]]].
    + constructor; cbn [cs_heap cs_refs]; auto; [|intros; rewrite (fr_len _ _ _ F2), LH1; auto].
      eapply Inv_ext_eq; [|exact I2]. intros x. unfold dec, inc, one. simpl. lia.
    + intros i Hi. rewrite (fr_D _ _ _ F2) by auto. rewrite D1. apply nth_error_upd_neq. intros <-; auto.
Qed.
