(** C55: the work queues of the previews, for any number of threads and every schedule. *)
From Coq Require Import ZArith List Bool Lia.
From Verif Require Import Prelude Queues_Model.
Import ListNotations.

Arguments Pushed {T}. Arguments PopCalled {T}. Arguments Popped {T}. Arguments Killed {T}. Arguments Cleared {T}. Arguments Counted {T}. Arguments Blocked {T}. Arguments Notified {T}. Arguments Spurious {T}.
Arguments mQueue {T}. Arguments mKillThreads {T}. Arguments threads {T}. Arguments step {T}. Arguments steps {T}. Arguments start {T}.

(** ** Specification on the observed trace *)
Definition pushed {T} (tr : list (nat * label T)) : list T := flat_map (fun x => match snd x with Pushed y _ => [y] | _ => [] end) tr.
Definition delivered {T} (tr : list (nat * label T)) : list T := flat_map (fun x => match snd x with Popped (Some y) => [y] | _ => [] end) tr.
Inductive subsequence {A} : list A -> list A -> Prop :=
  | sub_nil : forall l, subsequence [] l
  | sub_take : forall x l m, subsequence l m -> subsequence (x :: l) (x :: m)
  | sub_skip : forall x l m, subsequence l m -> subsequence l (x :: m).

Section Q.
Variable T : Type.
Implicit Types s : qstate T.

(** FIFO: without Clear, what was delivered, in order, followed by what is still queued, is exactly what was pushed, in order. *)
Lemma fifo_gen : forall s tr s', steps s tr s' -> (forall i, ~ In (i, Cleared) tr) -> mQueue s ++ pushed tr = delivered tr ++ mQueue s'.
Proof.
  induction 1; intros NC. { cbn. apply app_nil_r. }
  assert (IH : mQueue s1 ++ pushed tr = delivered tr ++ mQueue s2) by (apply IHsteps; intros j I; apply (NC j); right; auto).
  destruct H; cbn in *; try exact IH.
  - rewrite <- app_assoc in IH. exact IH.
  - rewrite H2. cbn. f_equal. exact IH.
  - destruct (NC i). left. reflexivity.
Qed.
Theorem C55_fifo_exactly_once : forall n tr s, steps (start n) tr s -> (forall i, ~ In (i, Cleared) tr) -> pushed tr = delivered tr ++ mQueue s.
Proof. intros n tr s S NC. apply (fifo_gen _ _ _ S NC). Qed.
Lemma sub_app_l : forall A (a l m : list A), subsequence l m -> subsequence l (a ++ m).
Proof. induction a; cbn; intros; auto. apply sub_skip. auto. Qed.
Lemma sub_gen : forall s tr s', steps s tr s' -> subsequence (delivered tr ++ mQueue s') (mQueue s ++ pushed tr).
Proof.
  induction 1. { cbn. rewrite app_nil_r. induction (mQueue s); constructor; auto. }
  destruct H; cbn in *; try exact IHsteps.
  - rewrite <- app_assoc in IHsteps. exact IHsteps.
  - rewrite H2. cbn. constructor. exact IHsteps.
  - apply sub_app_l. exact IHsteps.
Qed.
(** and with Clear, which drops jobs: still in order, and each at most once *)
Theorem C55_fifo_at_most_once : forall n tr s, steps (start n) tr s -> subsequence (delivered tr ++ mQueue s) (pushed tr).
Proof. intros n tr s S. apply (sub_gen _ _ _ S). Qed.

(** ** No lost wake-up *)
Definition is (p q : pc) : bool := match p, q with Idle, Idle | Popping, Popping | Waiting, Waiting | Notifying, Notifying => true | _, _ => false end.
Definition count (p : pc) (l : list pc) : nat := length (filter (is p) l).
Lemma count_upd : forall l i p q r, nth_error l i = Some p -> (count r (upd l i q) + (if is r p then 1 else 0) = count r l + (if is r q then 1 else 0))%nat.
Proof.
  induction l as [|a l IH]; intros i p q r E; destruct i; try discriminate; cbn in *.
  - injection E as ->. unfold count. cbn. destruct (is r p), (is r q); cbn; lia.
  - unfold count in *. cbn. specialize (IH _ _ q r E). destruct (is r a); cbn; lia.
Qed.
Lemma count_in : forall p l, In p l <-> (0 < count p l)%nat.
Proof.
  intros p l. unfold count. split; intros H.
  - assert (I : In p (filter (is p) l)) by (apply filter_In; split; auto; destruct p; reflexivity). destruct (filter (is p) l); [destruct I|cbn; lia].
  - destruct (filter (is p) l) as [|x f] eqn:E; [cbn in H; lia|]. assert (I : In x (filter (is p) l)) by (rewrite E; left; auto). apply filter_In in I. destruct I as (I & J). destruct p, x; try discriminate J; exact I.
Qed.
Lemma count_wake : forall l, count Waiting (map wake l) = 0%nat.
Proof. induction l as [|[] l IH]; cbn; auto. Qed.

Definition Inv s : Prop := In Waiting (threads s) -> mKillThreads s = false /\ (length (mQueue s) <= count Notifying (threads s) + count Popping (threads s))%nat.
Lemma inv_start : forall n, Inv (start n).
Proof. intros n I. cbn in I. apply repeat_spec in I. discriminate. Qed.
Lemma inv_step : forall s i l s', step s i l s' -> Inv s -> Inv s'.
Proof.
  intros s i l s' S IH W. unfold Inv in *. rewrite !count_in in *. destruct S; cbn [threads mQueue mKillThreads] in *;
    try (pose proof (fun q r => count_upd _ _ _ q r H) as K).
  - pose proof (K Notifying Waiting). pose proof (K Notifying Notifying). pose proof (K Notifying Popping). cbn in *. rewrite app_length. cbn. destruct IH; [lia|]. split; auto. lia.
  - assert (NE : i <> j) by congruence. assert (H0' : nth_error (upd (threads s) i Idle) j = Some Waiting) by (rewrite nth_error_upd_neq; auto).
    pose proof (K Idle Waiting). pose proof (K Idle Notifying). pose proof (K Idle Popping). pose proof (count_upd _ _ _ Popping Waiting H0'). pose proof (count_upd _ _ _ Popping Popping H0'). pose proof (count_upd _ _ _ Popping Notifying H0').
    cbn in *. destruct IH; [lia|]. split; auto. lia.
  - pose proof (K Idle Waiting). rewrite count_in in H0. cbn in *. lia.
  - pose proof (K Popping Waiting). pose proof (K Popping Notifying). pose proof (K Popping Popping). cbn in *. destruct IH; [lia|]. split; auto. lia.
  - pose proof (K Idle Waiting). cbn in *. destruct IH; [lia|]. congruence.
  - rewrite H1. cbn. split; [auto|lia].
  - pose proof (K Idle Waiting). pose proof (K Idle Notifying). pose proof (K Idle Popping). cbn in *. rewrite H1 in IH. cbn in IH. destruct IH; [lia|]. split; auto. lia.
  - pose proof (K Popping Waiting). pose proof (K Popping Notifying). pose proof (K Popping Popping). cbn in *. destruct IH; [lia|]. split; auto. lia.
  - rewrite count_wake in W. lia.
  - cbn. destruct IH; auto. split; auto. lia.
  - auto.
Qed.
Lemma inv_steps : forall s tr s', steps s tr s' -> Inv s -> Inv s'.
Proof. induction 1; auto. intros I. apply IHsteps. eapply inv_step; eauto. Qed.

(** When every running call has come to rest (each thread is outside the queue or blocked in
    Pop), no job is left while a worker is blocked: no wake-up is ever lost. *)
Definition at_rest s : Prop := Forall (fun p => p = Idle \/ p = Waiting) (threads s).
Theorem C55_no_lost_wakeup : forall n tr s, steps (start n) tr s -> at_rest s -> In Waiting (threads s) -> mQueue s = [].
Proof.
  intros n tr s S R W. destruct (inv_steps _ _ _ S (inv_start n) W) as (_ & L). unfold at_rest in R. rewrite Forall_forall in R.
  assert (N : count Notifying (threads s) = 0%nat). { destruct (count Notifying (threads s)) eqn:E; auto. assert (I : In Notifying (threads s)) by (apply count_in; lia). destruct (R _ I); discriminate. }
  assert (P : count Popping (threads s) = 0%nat). { destruct (count Popping (threads s)) eqn:E; auto. assert (I : In Popping (threads s)) by (apply count_in; lia). destruct (R _ I); discriminate. }
  destruct (mQueue s); auto. cbn in L. lia.
Qed.
(** The calls in progress do come to rest: a schedule without new calls and without spurious
    wake-ups has at most so many steps, and a state that is not at rest can always move. *)
Definition new_call (l : label T) : Prop := match l with Pushed _ _ | PopCalled | Killed | Cleared | Counted _ => True | _ => False end.
Definition work s : nat := 3 * count Notifying (threads s) + count Popping (threads s).
Lemma work_step : forall s i l s', step s i l s' -> ~ new_call l -> l <> Spurious -> (work s' < work s)%nat.
Proof.
  intros s i l s' S NN NS. unfold work. destruct S; cbn [threads] in *; try (destruct NN; exact I); try (destruct NS; reflexivity); try (pose proof (fun q r => count_upd _ _ _ q r H) as K).
  - assert (NE : i <> j) by congruence. assert (H0' : nth_error (upd (threads s) i Idle) j = Some Waiting) by (rewrite nth_error_upd_neq; auto).
    pose proof (K Idle Notifying). pose proof (K Idle Popping). pose proof (count_upd _ _ _ Popping Popping H0'). pose proof (count_upd _ _ _ Popping Notifying H0'). cbn in *. lia.
  - pose proof (K Idle Notifying). pose proof (K Idle Popping). cbn in *. lia.
  - pose proof (K Idle Notifying). pose proof (K Idle Popping). cbn in *. lia.
  - pose proof (K Waiting Notifying). pose proof (K Waiting Popping). cbn in *. lia.
  - pose proof (K Idle Notifying). pose proof (K Idle Popping). cbn in *. lia.
Qed.
Theorem C55_calls_come_to_rest : forall s tr s', steps s tr s' -> Forall (fun x => ~ new_call (snd x) /\ snd x <> Spurious) tr -> (length tr <= work s)%nat.
Proof. induction 1; intros F; cbn [length]; [lia|]. inversion F; subst. cbn in H3. destruct H3. pose proof (work_step _ _ _ _ H H1 H2). specialize (IHsteps H4). lia. Qed.
Lemma pc_dec : forall p q : pc, {p = q} + {p <> q}. Proof. decide equality. Qed.
Lemma find_pc : forall (l : list pc) p, In p l -> exists i, nth_error l i = Some p. Proof. intros. apply In_nth_error. auto. Qed.
Theorem C55_no_deadlock : forall s, ~ at_rest s -> exists i l s', step s i l s' /\ ~ new_call l /\ l <> Spurious.
Proof.
  intros s R. assert (E : exists p, In p (threads s) /\ (p = Popping \/ p = Notifying)).
  { unfold at_rest in R. induction (threads s) as [|p l IH]; [destruct R; constructor|]. destruct p; try (exists Popping; cbn; auto; fail); try (exists Notifying; cbn; auto; fail);
      (destruct IH as (q & I & Q); [intros F; apply R; constructor; auto|exists q; cbn; auto]). }
  destruct E as (p & I & [-> | ->]); destruct (find_pc _ _ I) as (i & E).
  - destruct (mKillThreads s) eqn:K. { do 3 eexists. split; [eapply StPopKilled; eauto|]. split; [auto|discriminate]. }
    destruct (mQueue s) as [|x q] eqn:Q; do 3 eexists; (split; [first [eapply StPop; eauto; fail | eapply StPopWait; eauto]|split; [auto|discriminate]]).
  - destruct (in_dec pc_dec Waiting (threads s)) as [W|W].
    + destruct (find_pc _ _ W) as (j & J). do 3 eexists. split; [eapply StNotify; eauto|]. split; [auto|discriminate].
    + do 3 eexists. split; [eapply StNotifyNone; eauto|]. split; [auto|discriminate].
Qed.

(** ** Shutdown *)
Lemma kill_sticks : forall s i l s', step s i l s' -> mKillThreads s = true -> mKillThreads s' = true.
Proof. intros s i l s' S K. destruct S; cbn; auto. Qed.
Lemma killed_after : forall tr s s', steps s tr s' -> (exists i, In (i, Killed) tr) \/ mKillThreads s = true -> mKillThreads s' = true.
Proof. induction 1; intros K; [destruct K as [(i & [])|K]; auto|]. apply IHsteps. destruct K as [(j & [E|I])|K]; [injection E as -> ->; inversion H; subst; right; reflexivity|left; eauto|right; eapply kill_sticks; eauto]. Qed.
(** After KillThreads no worker is blocked, no worker blocks again, and the next step of any worker inside Pop returns the empty job. *)
Theorem C55_shutdown_wakes_all : forall n tr s, steps (start n) tr s -> (exists i, In (i, Killed) tr) ->
  ~ In Waiting (threads s) /\ (forall i l s', nth_error (threads s) i = Some Popping -> step s i l s' -> l = Popped None) /\
  (forall i, nth_error (threads s) i = Some Popping -> exists s', step s i (Popped None) s').
Proof.
  intros n tr s S K. assert (KT : mKillThreads s = true) by (eapply killed_after; eauto). split; [|split].
  - intros W. destruct (inv_steps _ _ _ S (inv_start n) W). congruence.
  - intros i l s' P St. destruct St; congruence.
  - intros i P. eexists. apply StPopKilled; auto.
Qed.
End Q.
Print Assumptions C55_fifo_exactly_once.
Print Assumptions C55_fifo_at_most_once.
Print Assumptions C55_no_lost_wakeup.
Print Assumptions C55_calls_come_to_rest.
Print Assumptions C55_no_deadlock.
Print Assumptions C55_shutdown_wakes_all.

(** A schedule: two workers block, two jobs are pushed before either is notified, both are delivered, shutdown frees a third. *)
Example C55_schedule : exists s, steps (start 3)
   [(0, PopCalled); (0, Blocked); (1, PopCalled); (1, Blocked); (2, Pushed 10 1); (2, Notified); (2, Pushed 11 2); (0, Popped (Some 10)); (2, Notified); (1, Popped (Some 11)); (0, PopCalled); (0, Blocked); (2, Killed); (0, Popped None)]%nat s
   /\ mQueue s = [] /\ threads s = [Idle; Idle; Idle].
Proof.
  eexists. split.
  { unfold start. cbn [repeat]. eapply StCons; [apply StPopCall; reflexivity|]; cbn. eapply StCons; [apply StPopWait; reflexivity|]; cbn. eapply StCons; [apply StPopCall; reflexivity|]; cbn. eapply StCons; [apply StPopWait; reflexivity|]; cbn.
  eapply StCons; [exact (StPush _ {| Queues_Model.mQueue := []; Queues_Model.mKillThreads := false; Queues_Model.threads := [Waiting; Waiting; Idle] |} 2 10%nat eq_refl)|]; cbn. eapply StCons; [apply (StNotify _ _ 2 0); reflexivity|]; cbn. eapply StCons; [exact (StPush _ {| Queues_Model.mQueue := [10%nat]; Queues_Model.mKillThreads := false; Queues_Model.threads := [Popping; Waiting; Idle] |} 2 11%nat eq_refl)|]; cbn. eapply StCons; [eapply (StPop _ _ 0); reflexivity|]; cbn.
  eapply StCons; [apply (StNotify _ _ 2 1); reflexivity|]; cbn. eapply StCons; [eapply (StPop _ _ 1); reflexivity|]; cbn. eapply StCons; [apply StPopCall; reflexivity|]; cbn. eapply StCons; [apply StPopWait; reflexivity|]; cbn.
  eapply StCons; [apply (StKill _ _ 2); reflexivity|]; cbn. eapply StCons; [apply StPopKilled; reflexivity|]; cbn. apply StNil. }
  split; reflexivity.
Qed.

(** ** Results and versions *)
Arguments cdo {T}. Arguments cruns {T}. Arguments CPush {T}. Arguments CPop {T}. Arguments CIncVersion {T}. Arguments CCount {T}. Arguments mVersion {T}. Arguments cQueue {T}. Arguments CPopped {T}. Arguments CAccepted {T}. Arguments CVersion {T}. Arguments CSize {T}. Arguments cstart {T}.
Section C.
Variable T : Type.
Implicit Types s : cstate T.
(** A result is accepted exactly when its version is the current one; otherwise nothing changes. *)
Theorem C55_only_current_accepted : forall s x v, (v = mVersion s -> cdo s (CPush x v) = (CAccepted true, {| Queues_Model.mVersion := mVersion s; Queues_Model.cQueue := cQueue s ++ [x] |})) /\
  (v <> mVersion s -> cdo s (CPush x v) = (CAccepted false, s)).
Proof. intros s x v. cbn. split; intros H; [apply Z.eqb_eq in H|apply Z.eqb_neq in H]; rewrite H; reflexivity. Qed.

(** results in order, each once *)
Definition accepted (ops : list (cop T)) (rs : list (cres T)) : list T := flat_map (fun x => match x with (CPush y _, CAccepted true) => [y] | _ => [] end) (combine ops rs).
Definition taken (rs : list (cres T)) : list T := flat_map (fun x => match x with CPopped (Some y) => [y] | _ => [] end) rs.
Lemma cfifo : forall ops s, let '(rs, s') := cruns s ops in cQueue s ++ accepted ops rs = taken rs ++ cQueue s'.
Proof.
  induction ops as [|o ops IH]; intros s. { cbn. apply app_nil_r. }
  cbn [cruns]. destruct (cdo s o) as [a s1] eqn:D. specialize (IH s1). destruct (cruns s1 ops) as [rs s2]. unfold accepted, taken in *. cbn [combine flat_map]. rewrite <- app_assoc, <- IH. clear IH.
  destruct o; cbn in D.
  - injection D as <- <-. reflexivity.
  - injection D as <- <-. reflexivity.
  - destruct (cQueue s) eqn:Q; injection D as <- <-; cbn; rewrite ?Q; reflexivity.
  - destruct (Z.eqb version (mVersion s)); injection D as <- <-; cbn; rewrite <- ?app_assoc; reflexivity.
Qed.
Theorem C55_results_fifo : forall ops, let '(rs, s') := cruns cstart ops in accepted ops rs = taken rs ++ cQueue s'.
Proof. intros ops. apply (cfifo ops cstart). Qed.
End C.
Print Assumptions C55_only_current_accepted.
Print Assumptions C55_results_fifo.

(** ** The protocol of the mesh preview *)
(** tools/NodeEditor/MeshNoisePreview.cpp:126-141 (ReGenerate): the UI thread increments the
    version, then pops until the queue is empty, while workers push results tagged with the
    version they were started for; and only the UI thread pops or increments. The items below
    carry that tag, as Chunk::MeshData carries it by construction of the worker loop (397-415). *)
Definition tagged (o : cop (Z * nat)) : Prop := match o with CPush x v => fst x = v | _ => True end.
Definition worker (o : cop (Z * nat)) : Prop := match o with CPush _ _ | CCount => True | _ => False end.
Definition all_current (s : cstate (Z * nat)) : Prop := Forall (fun x => fst x = mVersion s) (cQueue s).
Lemma current_step : forall s o, tagged o -> o <> CIncVersion -> all_current s -> all_current (snd (cdo s o)) /\ mVersion (snd (cdo s o)) = mVersion s /\
  (forall x, fst (cdo s o) = CPopped (Some x) -> fst x = mVersion s).
Proof.
  intros s o Tg NI A. unfold all_current in *. destruct o as [| | |x v]; cbn in *; [congruence|auto| |].
  - split; [auto|]. split; [auto|]. intros y E. discriminate E.
  - destruct (cQueue s) eqn:Q; cbn; [rewrite Q; split; [auto|split; [auto|discriminate]]|]. inversion A; subst. split; auto. split; auto. intros x E. injection E as <-. auto.
  - destruct (Z.eqb_spec v (mVersion s)); cbn; (split; [|split; [auto|discriminate]]); auto. apply Forall_app. split; auto. constructor; auto. congruence.
Qed.
(** Once the queue has been found empty after a version change, every result popped until the next version change belongs to the current version. *)
Theorem C55_no_stale_results : forall ops s s1, cdo s CPop = (CPopped None, s1) -> Forall tagged ops -> ~ In CIncVersion ops ->
  Forall (fun r => forall x, r = CPopped (Some x) -> fst x = mVersion s) (fst (cruns s1 ops)).
Proof.
  intros ops s s1 E Tg NI. assert (A : all_current s1 /\ mVersion s1 = mVersion s).
  { cbn in E. destruct (cQueue s) eqn:Q; [|discriminate E]. injection E as <-. split; auto. unfold all_current. rewrite Q. constructor. }
  destruct A as (A & V). clear E. rewrite <- V. clear V s. revert s1 A. induction ops as [|o ops IH]; intros s A; [constructor|].
  inversion Tg; subst. destruct (current_step s o) as (A1 & V1 & P1); auto. { intros ->. apply NI. left. auto. }
  cbn [cruns]. destruct (cdo s o) as [a s1]. cbn in *. specialize (IH H2 ltac:(tauto) s1 A1). destruct (cruns s1 ops) as [rs s2]. cbn in *. constructor; auto. rewrite V1 in IH. exact IH.
Qed.
Print Assumptions C55_no_stale_results.
Example C55_stale_dropped : fst (cruns cstart [CPush (0, 1%nat) 0; CIncVersion; CPush (0, 2%nat) 0; CPop; CPop; CPush (1, 3%nat) 1; CPop])%Z
  = [CAccepted true; CVersion 1; CAccepted false; CPopped (Some (0, 1%nat)); CPopped None; CAccepted true; CPopped (Some (1, 3%nat))]%Z.
Proof. reflexivity. Qed.
(** without draining, a result of an outdated version pushed before the change is still returned (second line above is why); and the 32-bit version wraps: *)
Theorem C55_without_drain_refuted : fst (cruns cstart [CPush (0, 1%nat) 0; CIncVersion; CPop])%Z = [CAccepted true; CVersion 1; CPopped (Some (0, 1%nat))]%Z.
Proof. reflexivity. Qed.
Theorem C55_version_wraps_refuted : forall s : cstate (Z * nat), (mVersion s = 2 ^ 32 - 1)%Z -> mVersion (snd (cdo s CIncVersion)) = 0%Z.
Proof. intros s E. cbn [cdo snd Queues_Model.mVersion]. unfold mVersion. cbn. unfold mVersion in E. rewrite E. reflexivity. Qed.
