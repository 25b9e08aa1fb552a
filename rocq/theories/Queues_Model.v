(** The work queues of the node editor previews. Models tools/NodeEditor/MultiThreadQueues.h:6-108.
    Any number of threads call the members of one queue in any order. A step is one critical
    section (the mutex makes it atomic; std::condition_variable::wait releases the mutex and
    blocks in one step) or one notification after unlocking. The unlocked read of mKillThreads
    in ShouldKillThread (18-21) is not modelled. *)
From Coq Require Import ZArith List Bool Lia.
From Verif Require Import Prelude.
Import ListNotations.

Section GenerateQueue.
Variable T : Type.
(** where a thread is: outside the queue; in Pop about to (re)check the loop condition at 38 with
    the mutex; blocked in mCond.wait (45); in Push between unlock (57) and notify_one (58) *)
Inductive pc := Idle | Popping | Waiting | Notifying.
Record qstate := { mQueue : list T; mKillThreads : bool; threads : list pc }.
Definition start (n : nat) : qstate := {| mQueue := []; mKillThreads := false; threads := repeat Idle n |}.
(** what is observed: calls and their results *)
Inductive label :=
  | Pushed (x : T) (size : nat) | PopCalled | Popped (x : option T) | Killed | Cleared | Counted (n : nat)
  | Blocked | Notified | Spurious.
Definition wake (p : pc) : pc := match p with Waiting => Popping | _ => p end.

Inductive step (s : qstate) : nat -> label -> qstate -> Prop :=
  (** 51-57 *)
  | StPush : forall i x, nth_error (threads s) i = Some Idle ->
      step s i (Pushed x (length (mQueue s ++ [x]))) {| mQueue := mQueue s ++ [x]; mKillThreads := mKillThreads s; threads := upd (threads s) i Notifying |}
  (** 58, someone waits: one of the waiters becomes runnable *)
  | StNotify : forall i j, nth_error (threads s) i = Some Notifying -> nth_error (threads s) j = Some Waiting ->
      step s i Notified {| mQueue := mQueue s; mKillThreads := mKillThreads s; threads := upd (upd (threads s) i Idle) j Popping |}
  (** 58, no one waits *)
  | StNotifyNone : forall i, nth_error (threads s) i = Some Notifying -> ~ In Waiting (threads s) ->
      step s i Notified {| mQueue := mQueue s; mKillThreads := mKillThreads s; threads := upd (threads s) i Idle |}
  (** 35-37 *)
  | StPopCall : forall i, nth_error (threads s) i = Some Idle ->
      step s i PopCalled {| mQueue := mQueue s; mKillThreads := mKillThreads s; threads := upd (threads s) i Popping |}
  (** 38-43 *)
  | StPopKilled : forall i, nth_error (threads s) i = Some Popping -> mKillThreads s = true ->
      step s i (Popped None) {| mQueue := mQueue s; mKillThreads := mKillThreads s; threads := upd (threads s) i Idle |}
  (** 45 *)
  | StPopWait : forall i, nth_error (threads s) i = Some Popping -> mKillThreads s = false -> mQueue s = [] ->
      step s i Blocked {| mQueue := mQueue s; mKillThreads := mKillThreads s; threads := upd (threads s) i Waiting |}
  (** 47-49 *)
  | StPop : forall i x q, nth_error (threads s) i = Some Popping -> mKillThreads s = false -> mQueue s = x :: q ->
      step s i (Popped (Some x)) {| mQueue := q; mKillThreads := mKillThreads s; threads := upd (threads s) i Idle |}
  (** 45, spurious wake-up *)
  | StSpurious : forall i, nth_error (threads s) i = Some Waiting ->
      step s i Spurious {| mQueue := mQueue s; mKillThreads := mKillThreads s; threads := upd (threads s) i Popping |}
  (** 11-16 *)
  | StKill : forall i, nth_error (threads s) i = Some Idle ->
      step s i Killed {| mQueue := mQueue s; mKillThreads := true; threads := map wake (threads s) |}
  (** 23-27 *)
  | StClear : forall i, nth_error (threads s) i = Some Idle ->
      step s i Cleared {| mQueue := []; mKillThreads := mKillThreads s; threads := threads s |}
  (** 29-33 *)
  | StCount : forall i, nth_error (threads s) i = Some Idle -> step s i (Counted (length (mQueue s))) s.

Inductive steps (s : qstate) : list (nat * label) -> qstate -> Prop :=
  | StNil : steps s [] s
  | StCons : forall i l s1 tr s2, step s i l s1 -> steps s1 tr s2 -> steps s ((i, l) :: tr) s2.
End GenerateQueue.

(** ** CompleteQueue: 70-108; every member is one critical section, hence one step *)
Section CompleteQueue.
Variable T : Type.
Record cstate := { mVersion : Z; cQueue : list T }.
Definition cstart : cstate := {| mVersion := 0; cQueue := [] |}.
Inductive cop := CIncVersion | CCount | CPop | CPush (item : T) (version : Z).
Inductive cres := CVersion (v : Z) | CSize (n : nat) | CPopped (x : option T) | CAccepted (b : bool).
Definition cdo (s : cstate) (o : cop) : cres * cstate :=
  match o with
  | CIncVersion => let v := u32 (mVersion s + 1) in (CVersion v, {| mVersion := v; cQueue := cQueue s |})
  | CCount => (CSize (length (cQueue s)), s)
  | CPop => match cQueue s with [] => (CPopped None, s) | x :: q => (CPopped (Some x), {| mVersion := mVersion s; cQueue := q |}) end
  | CPush x v => if Z.eqb v (mVersion s) then (CAccepted true, {| mVersion := mVersion s; cQueue := cQueue s ++ [x] |}) else (CAccepted false, s)
  end.
Fixpoint cruns (s : cstate) (ops : list cop) : list cres * cstate :=
  match ops with [] => ([], s) | o :: r => let '(a, s1) := cdo s o in let '(l, s2) := cruns s1 r in (a :: l, s2) end.
End CompleteQueue.
