(** Properties C18 (node lifetime under handle operations) and C20 (C API references). *)
From Coq Require Import ZArith List Bool Lia.
From Verif Require Import Prelude SmartNode_Model SmartNode_Proofs CRef_Model CRef_Proofs.
Import ListNotations.
Open Scope Z_scope.

(** ** Specification *)
(** node [o] is in memory *)
Definition live (H : nheap) (o : nat) : Prop := exists ob, nth_error H o = Some (Some ob).
(** all handles that exist: those of the program and those inside nodes in memory *)
Definition handles (vars : list (option nat)) (H : nheap) : list (option nat) :=
  vars ++ flat_map (fun c => match c with Some ob => o_mem ob | None => [] end) H.
Definition opt_eq_dec (a b : option nat) : {a = b} + {a <> b}.
Proof. decide equality. apply Nat.eq_dec. Defined.
Definition owners (vars : list (option nat)) (H : nheap) (o : nat) : nat := count_occ opt_eq_dec (handles vars H) (Some o).

(** states a program reaches: handle variables exist, a handle that is dereferenced is
    not null and the member exists ([op_ok]) *)
Inductive reach : hstate -> Prop :=
| reach0 : reach hstate0
| reachS : forall st c st', reach st -> op_ok st c -> exec1 st c = Ok st' -> reach st'.

Lemma occ_count : forall o l, occ o l = Z.of_nat (count_occ opt_eq_dec l (Some o)).
Proof.
  induction l as [|p l IH]; [reflexivity|]. cbn [occ fold_right count_occ]. fold (occ o l). rewrite IH.
  destruct (opt_eq_dec p (Some o)) as [->|N]; [replace (ptr_eqb (Some o) (Some o)) with true by (symmetry; apply ptr_eqb_eq; auto); lia|].
  replace (ptr_eqb p (Some o)) with false by (symmetry; apply ptr_eqb_neq; auto). lia.
Qed.
Lemma tot_handles : forall o H i, totf (own [] o) i H = Z.of_nat (count_occ opt_eq_dec (flat_map (fun c => match c with Some ob => o_mem ob | None => [] end) H) (Some o)).
Proof.
  induction H as [|c H IH]; intros i; [reflexivity|]. cbn [totf flat_map]. rewrite count_occ_app, Nat2Z.inj_add, <- (IH (S i)).
  f_equal. unfold own. destruct c; [cbn [inb existsb]; apply occ_count|reflexivity].
Qed.

Lemma Inv0 : forall L, Inv [] (fun _ => 0) [] L.
Proof. intros. constructor; try lia; intros; try (destruct H as (E & _); destruct o; discriminate); try (destruct H as (E & _); destruct i; discriminate). Qed.

Lemma reach_inv : forall st, reach st -> SInv (fun _ => 0) [] st.
Proof.
  intros st R. induction R as [|st c st' R IH HO E].
  - eapply Inv_ext_eq; [|apply Inv0]. reflexivity.
  - destruct (step_ok (fun _ => 0) [] (fun _ => Z.le_refl 0) st c IH (fun o (F : In o []) => match F with end) HO) as (s2 & E2 & I2 & _). congruence.
Qed.

(** ** C18 *)

(** no operation ever touches a freed node or frees one twice (either would be UB), and
    none diverges *)
Theorem C18_no_use_after_free : forall st c, reach st -> op_ok st c -> exists st', exec1 st c = Ok st' /\ reach st'.
Proof.
  intros st c R HO. destruct (step_ok (fun _ => 0) [] (fun _ => Z.le_refl 0) st c (reach_inv st R) (fun o (F : In o []) => match F with end) HO) as (s2 & E2 & _).
  exists s2. split; auto. econstructor; eauto.
Qed.
Print Assumptions C18_no_use_after_free.

(** a node is in memory exactly as long as somebody owns it, and its use count is the
    number of its owners *)
Theorem C18_lives_iff_owned : forall st o, reach st ->
  (live (hs_heap st) o <-> (0 < owners (hs_vars st) (hs_heap st) o)%nat) /\
  (forall ob, nth_error (hs_heap st) o = Some (Some ob) -> o_rc ob = Z.of_nat (owners (hs_vars st) (hs_heap st) o)).
Proof.
  intros st o R. pose proof (reach_inv st R) as I. unfold SInv, extv in I.
  assert (RC : forall ob, nth_error (hs_heap st) o = Some (Some ob) -> o_rc ob = Z.of_nat (owners (hs_vars st) (hs_heap st) o)).
  { intros ob E. rewrite (i_rc _ _ _ _ I o ob) by (split; auto). unfold owners, handles. rewrite count_occ_app, Nat2Z.inj_add, (tot_handles o _ 0), <- !occ_count. lia. }
  split; auto. split.
  - intros (ob & E). pose proof (i_pos _ _ _ _ I o ob (conj E (fun x => x)) (fun x => x)). rewrite (RC ob E) in H. lia.
  - intros HO. unfold owners, handles in HO. rewrite count_occ_app in HO.
    destruct (Nat.eq_dec (count_occ opt_eq_dec (hs_vars st) (Some o)) 0) as [Z0|Z0].
    + assert (P : (0 < count_occ opt_eq_dec (flat_map (fun c => match c with Some ob => o_mem ob | None => [] end) (hs_heap st)) (Some o))%nat) by lia.
      apply count_occ_In in P. apply in_flat_map in P. destruct P as (c & Hc & Hin). destruct c as [ob|]; [|destruct Hin]. apply In_nth_error in Hc. destruct Hc as (i & Hi).
      destruct (i_mem _ _ _ _ I i ob o) as (ob' & E & _); [split; auto|auto|]. exists ob'. auto.
    + destruct (i_ext _ _ _ _ I o) as (ob & E & _); [rewrite occ_count; lia|]. exists ob. auto.
Qed.
Print Assumptions C18_lives_iff_owned.

(** a handle (of the program or inside a node in memory) always points to a node in memory *)
Theorem C18_handles_valid : forall st o, reach st -> In (Some o) (handles (hs_vars st) (hs_heap st)) -> live (hs_heap st) o.
Proof.
  intros st o R H. apply (C18_lives_iff_owned st o R). unfold owners. apply count_occ_In. auto.
Qed.
Print Assumptions C18_handles_valid.

(** once all handles of the program are gone, and the sources of the nodes form no cycle,
    no node is left in memory *)
Theorem C18_no_leak : forall st, reach st -> (forall p, In p (hs_vars st) -> p = None) ->
  (exists rank : nat -> nat, forall i ob o, nth_error (hs_heap st) i = Some (Some ob) -> In (Some o) (o_mem ob) -> (rank o < rank i)%nat) ->
  forall o, ~ live (hs_heap st) o.
Proof.
  intros st R HV (rank & HR).
  assert (GEN : forall n o, (forall i, live (hs_heap st) i -> (rank i < n)%nat) -> (n - rank o <= n)%nat -> live (hs_heap st) o -> forall k, (n - rank o <= k)%nat -> False).
  { intros n o BD _ HL k. revert o HL. induction k as [|k IH]; intros o HL HK; [specialize (BD o HL); lia|].
    pose proof (proj1 (proj1 (C18_lives_iff_owned st o R)) HL) as OW. unfold owners, handles in OW. apply count_occ_In in OW. apply in_app_or in OW. destruct OW as [OW|OW].
    - apply HV in OW. discriminate.
    - apply in_flat_map in OW. destruct OW as (c & Hc & Hin). destruct c as [ob|]; [|destruct Hin]. apply In_nth_error in Hc. destruct Hc as (i & Hi).
      pose proof (HR i ob o Hi Hin). apply (IH i); [exists ob; auto|]. assert (live (hs_heap st) i) by (exists ob; auto). specialize (BD i H0). lia. }
  intros o HL.
  assert (BND : exists n, forall i, live (hs_heap st) i -> (rank i < n)%nat).
  { exists (S (list_max (map rank (seq 0 (length (hs_heap st)))))). intros i (ob & E). assert (X : (i < length (hs_heap st))%nat) by (apply nth_error_Some; congruence).
    pose proof (proj1 (list_max_le (map rank (seq 0 (length (hs_heap st)))) _) (le_n _)) as LM. rewrite Forall_forall in LM. specialize (LM (rank i)).
    assert (In (rank i) (map rank (seq 0 (length (hs_heap st))))) by (apply in_map, in_seq; lia). specialize (LM H). lia. }
  destruct BND as (n & BD). eapply (GEN n o BD); eauto. lia.
Qed.
Print Assumptions C18_no_leak.

(** a freed node never comes back *)
Lemma heap_grows : forall st c st' o, exec1 st c = Ok st' -> (o < length (hs_heap st))%nat -> live (hs_heap st') o -> live (hs_heap st) o.
Proof.
  intros [H V] c st' o E HO A. unfold exec1 in E. set (f := S (length (hs_heap {| hs_heap := H; hs_vars := V |}))) in E. clearbody f. cbn [hs_heap hs_vars] in *.
  assert (TI : forall H p H' x, try_inc H p = Ok H' -> live H' x -> live H x).
  { clear. intros H [q|] H' x E A; cbn in E; [|injection E as <-; auto]. apply bind_Ok_inv in E. destruct E as ((pr, H1) & E1 & E). injection E as <-. eapply fetch_add_alloc; eauto. }
  assert (AF : forall H a b H' x, assign_from f H a b = Ok H' -> live H' x -> live H x).
  { intros H0 a b H' x E0 A0. unfold assign_from in E0. destruct (ptr_eqb a b); [injection E0 as <-; auto|]. apply bind_Ok_inv in E0. destruct E0 as (H1 & E1 & E2).
    eapply TI; eauto. eapply release_mono; eauto. }
  destruct c; cbn [step hs_heap hs_vars] in E;
    repeat (match type of E with
            | bind _ _ = Ok _ => let x := fresh "x" in let H1 := fresh "E" in apply bind_Ok_inv in E; destruct E as (x & H1 & E)
            | (match ?p with Some _ => _ | None => _ end) = Ok _ => destruct p; [|discriminate]
            | (if ?b then _ else _) = Ok _ => destruct b
            end); try (injection E as <-; cbn [hs_heap] in A); eauto using release_mono, write_slot_alloc.
  - (* New *)
    assert (X : live (H ++ [Some {| o_rc := 0; o_mem := repeat None k |}]) o) by eauto. destruct X as (ob & X). rewrite nth_error_app1 in X by auto. exists ob; auto.
  - eapply release_mono; eauto.
  - eapply release_mono; eauto.
  - eapply TI; eauto. eapply release_mono; eauto.
  - eapply release_mono; eauto.
  - eapply AF; eauto. eapply write_slot_alloc; eauto.
  - eapply TI; eauto. eapply AF; eauto. eapply write_slot_alloc; eauto. eapply release_mono; eauto.
  - eapply write_slot_alloc; eauto. eapply release_mono; eauto.
Qed.
Theorem C18_freed_once : forall st c st' o, exec1 st c = Ok st' -> (o < length (hs_heap st))%nat -> ~ live (hs_heap st) o -> ~ live (hs_heap st') o.
Proof. intros st c st' o E HO N A. apply N. eapply heap_grows; eauto. Qed.
Print Assumptions C18_freed_once.

(** dropping a handle changes no surviving node: its sources are as before *)
Theorem C18_drop_preserves_others : forall st d st', reach st -> (d < length (hs_vars st))%nat -> exec1 st (ODestroy d) = Ok st' ->
  forall i ob', nth_error (hs_heap st') i = Some (Some ob') -> exists ob, nth_error (hs_heap st) i = Some (Some ob) /\ o_mem ob' = o_mem ob.
Proof.
  intros st d st' R Hd E i ob' Ei. pose proof (reach_inv st R) as I. unfold SInv in I. unfold exec1 in E. cbn [step] in E.
  destruct (rd_ok _ (hs_vars st) d Hd) as (cur & EC & EN). rewrite EC in E. cbn [bind] in E.
  destruct (release_top (S (length (hs_heap st))) (hs_heap st) _ [] [] cur I) as (H1 & E1 & I1 & F1).
  { intros o ->. eapply ext_of_var; eauto. intros; lia. }
  { lia. }
  rewrite E1 in E. cbn [bind] in E. apply bind_Ok_inv in E. destruct E as (V & _ & E). injection E as <-. cbn [hs_heap] in Ei.
  destruct (fr_mem _ _ _ F1 i ob' Ei) as (ob & A & B). exists ob. split; auto.
Qed.
Print Assumptions C18_drop_preserves_others.

(** a cycle keeps itself alive: the acyclicity hypothesis of [C18_no_leak] is needed *)
Theorem C18_cycle_leaks_refuted : exists st, reach st /\ (forall p, In p (hs_vars st) -> p = None) /\ live (hs_heap st) 0.
Proof.
  eexists. split.
  - eapply reachS; [eapply reachS; [eapply reachS; [apply reach0|..]|..]|..].
    + instantiate (1 := ONew 1). exact I.
    + reflexivity.
    + instantiate (1 := OSetSource 0 0 0). cbn. split; [lia|]. exists 0%nat. eexists. split; [reflexivity|]. split; [reflexivity|]. cbn. lia.
    + reflexivity.
    + instantiate (1 := ODestroy 0). cbn. lia.
    + reflexivity.
  - cbn. split; [intros p [<-|[]]; reflexivity|]. eexists. reflexivity.
Qed.
Print Assumptions C18_cycle_leaks_refuted.

(** a program that builds a chain, shares it, replaces a source and drops everything *)
Definition demo_ops : list op :=
  [ONew 1; ONew 2; OSetSource 1 0 0; ONew 1; OSetSourceConv 2 0 1; OCopy 2; ODestroy 1; OSetSource 2 0 0; OMove 0; OMoveConv 4 3; OReset 2; ODestroy 4].
Example C18_demo : exists st, exec hstate0 demo_ops = Ok st /\ hs_heap st = [None; None; None] /\ Forall (fun p => p = None) (hs_vars st).
Proof. eexists. split; [vm_compute; reflexivity|]. split; [reflexivity|]. repeat constructor. Qed.
Example C18_demo_mid : exists st, exec hstate0 (firstn 6 demo_ops) = Ok st /\ reach st /\ (owners (hs_vars st) (hs_heap st) 1 = 2)%nat.
Proof.
  set (st := {| hs_heap := [Some {| o_rc := 2; o_mem := [None] |}; Some {| o_rc := 2; o_mem := [Some 0%nat; None] |}; Some {| o_rc := 2; o_mem := [Some 1%nat] |}]; hs_vars := [Some 0; Some 1; Some 2; Some 2]%nat |}).
  exists st. split; [reflexivity|]. split; [|reflexivity].
  assert (GEN : forall cs s0 s1, reach s0 -> exec s0 cs = Ok s1 -> (forall pre c post s, cs = pre ++ c :: post -> exec s0 pre = Ok s -> op_ok s c) -> reach s1).
  { induction cs as [|c cs IH]; intros s0 s1 R E OKS; cbn in E; [injection E as <-; auto|]. apply bind_Ok_inv in E. destruct E as (s & E1 & E2).
    apply (IH s s1); auto.
    - eapply reachS; eauto. apply (OKS [] c cs s0); reflexivity.
    - intros pre c' post s' -> E3. apply (OKS (c :: pre) c' post s'); auto. cbn. rewrite E1. exact E3. }
  apply (GEN (firstn 6 demo_ops) hstate0); [apply reach0|reflexivity|].
  intros pre c post s EQ ES. do 6 (destruct pre as [|? pre]; [cbn in EQ; injection EQ as <- _; cbn in ES; injection ES as <-; cbn; try lia; try exact I;
    try (split; [lia|]; do 2 eexists; split; [reflexivity|]; split; [reflexivity|]; cbn; lia)|injection EQ as <- EQ]).
  destruct pre; discriminate.
Qed.

(** ** C20 *)
Inductive creach : cstate -> Prop :=
| creach0 : creach cstate0
| creachS : forall st c st', creach st -> cop_ok st c -> cexec1 st c = Ok st' -> creach st'.
(** later states *)
Inductive cafter (s : cstate) : cstate -> Prop :=
| cafter0 : cafter s s
| cafterS : forall st c st', cafter s st -> cop_ok st c -> cexec1 st c = Ok st' -> cafter s st'.

Lemma creach_inv : forall st, creach st -> exists lk D, CInv lk D st.
Proof.
  intros st R. induction R as [|st c st' R (lk & D & CI) HO E].
  - exists (fun _ => 0), []. constructor; [intros; lia| |intros i []]. eapply Inv_ext_eq; [|apply Inv0]. reflexivity.
  - destruct (cstep_ok st c lk D CI HO) as (s2 & E2 & lk' & D' & CI' & _). assert (s2 = st') by congruence. subst. eauto.
Qed.

(** a reference stays valid until it is deleted: every call on undeleted references is
    defined, and the referenced nodes are in memory *)
Theorem C20_reference_valid : forall st, creach st ->
  (forall r o, nth_error (cs_refs st) r = Some (Some o) -> live (cs_heap st) o) /\
  (forall c, cop_ok st c -> exists st', cexec1 st c = Ok st' /\ creach st').
Proof.
  intros st R. destruct (creach_inv st R) as (lk & D & CI). split.
  - intros r o E. destruct (i_ext _ _ _ _ (ci_inv _ _ _ CI) o) as (ob & X & _).
    + pose proof (ext_of_var lk (ci_lk _ _ _ CI) (cs_refs st) r o E). lia.
    + exists ob; auto.
  - intros c HO. destruct (cstep_ok st c lk D CI HO) as (s2 & E2 & _). exists s2. split; auto. econstructor; eauto.
Qed.
Print Assumptions C20_reference_valid.

(** ... but deleting the last reference of a node that nothing else uses does not destroy
    it: the node stays in memory for ever (for every program and every such node) *)
Theorem C20_delete_last_refuted : forall st r o ob st', creach st ->
  nth_error (cs_refs st) r = Some (Some o) -> nth_error (cs_heap st) o = Some (Some ob) -> o_rc ob = 1 ->
  cexec1 st (CDelete r) = Ok st' -> forall st'', cafter st' st'' -> live (cs_heap st'') o.
Proof.
  intros st r o ob st' R E1 E2 E3 E st'' A. destruct (creach_inv st R) as (lk & D & CI).
  destruct (cstep_ok st (CDelete r) lk D CI) as (s2 & S2 & lk' & D' & CI' & _ & _ & X); [exists o; auto|].
  assert (s2 = st') by congruence. subst s2. destruct (X r o ob eq_refl E1 E2 E3) as (HD & HN). clear X S2.
  assert (GEN : forall st'', cafter st' st'' -> exists lk D, CInv lk D st'' /\ In o D /\ nth_error (cs_heap st'') o = Some (Some {| o_rc := 0; o_mem := o_mem ob |})).
  { intros z Z. induction Z as [|s c s' Z (lk1 & D1 & CI1 & HD1 & HN1) HO EX]; [eauto|].
    destruct (cstep_ok s c lk1 D1 CI1 HO) as (s2 & S2 & lk2 & D2 & CI2 & INC & FR & _). assert (s2 = s') by congruence. subst s2.
    exists lk2, D2. split; auto. split; auto. rewrite FR; auto. }
  destruct (GEN st'' A) as (_ & _ & _ & _ & HX). eexists. exact HX.
Qed.
Print Assumptions C20_delete_last_refuted.

(** the hypotheses are met by the simplest C program *)
Example C20_demo : exists st st', creach st /\ nth_error (cs_refs st) 0 = Some (Some 0%nat) /\
  nth_error (cs_heap st) 0 = Some (Some {| o_rc := 1; o_mem := [None] |}) /\ cexec1 st (CDelete 0) = Ok st' /\
  nth_error (cs_refs st') 0 = Some None /\ nth_error (cs_heap st') 0 = Some (Some {| o_rc := 0; o_mem := [None] |}).
Proof.
  exists {| cs_heap := [Some {| o_rc := 1; o_mem := [None] |}]; cs_refs := [Some 0%nat] |}. eexists.
  split; [eapply (creachS cstate0 (CNew 1)); [apply creach0|exact I|reflexivity]|]. repeat split; reflexivity.
Qed.
