(** Handles used by several threads at once. Models SmartNode.h:89-129, 278-313 and
    Generator.inl:512-522 as atomic steps: each ReferencesFetchAdd, each free and each use
    of a node is one step, and the steps of all threads interleave arbitrarily
    (sequential consistency). Node sources are fixed before a node is shared: the API's
    setters are not meant to run concurrently, so they are not steps here.
    Simplification: unbounded counter. *)
From Coq Require Import ZArith List Bool.
From Verif Require Import Prelude SmartNode_Model.
Import ListNotations.
Open Scope Z_scope.

(** what a thread inside Release still has to do (SmartNode.h:284-303): drop a reference
    to a node, or return the memory of a node whose members have been destroyed *)
Inductive work := WRel (o : nat) | WFree (o : nat).
Record thread := { th_vars : list (option nat); th_work : list work }.
Record gstate := { g_nodes : nheap; g_threads : list thread }.

Inductive action :=
| ACopy (i : nat)       (* SmartNode v( h_i ): fetch_add( 1 ) *)
| AUse (i : nat)        (* h_i->GenUniformGrid2D( ... ): touches the node *)
| ADrop (i : nat)       (* ~SmartNode on h_i begins *)
| AMove (i t : nat)     (* h_i is moved to thread t *)
| ANew (k : nat)        (* a new node owning the thread's first k handles as sources *)
| AWork.                (* next atomic step of the running Release *)

Definition set_thread (st : gstate) (H : nheap) (t : nat) (th : thread) : gstate :=
  {| g_nodes := H; g_threads := upd (g_threads st) t th |}.

(** WRel for every non-null member, last member first *)
Definition member_work (m : list (option nat)) : list work :=
  flat_map (fun p => match p with Some o => [WRel o] | None => [] end) (rev m).

Definition gstep (st : gstate) (t : nat) (a : action) : res gstate :=
  th <- rd (g_threads st) t ;
  let H := g_nodes st in
  let V := th_vars th in
  match a with
  | ACopy i =>
      p <- rd V i ;
      match p with
      | None => Ok (set_thread st H t {| th_vars := V ++ [None]; th_work := th_work th |})
      | Some o => ' (_, H) <- fetch_add H o 1 ; Ok (set_thread st H t {| th_vars := V ++ [Some o]; th_work := th_work th |})
      end
  | AUse i =>
      p <- rd V i ;
      match p with None => UB | Some o => _ <- deref H o ; Ok st end
  | ADrop i =>
      p <- rd V i ; V <- wr V i None ;
      Ok (set_thread st H t {| th_vars := V; th_work := match p with Some o => [WRel o] | None => [] end ++ th_work th |})
  | AMove i t' =>
      p <- rd V i ; V <- wr V i None ;
      let st1 := set_thread st H t {| th_vars := V; th_work := th_work th |} in
      th' <- rd (g_threads st1) t' ;
      Ok (set_thread st1 H t' {| th_vars := th_vars th' ++ [p]; th_work := th_work th' |})
  | ANew k =>
      let o := length H in
      Ok (set_thread st (H ++ [Some {| o_rc := 1; o_mem := firstn k V |}]) t {| th_vars := skipn k V ++ [Some o]; th_work := th_work th |})
  | AWork =>
      match th_work th with
      | [] => Ok st
      | WRel o :: w =>
          ' (prev, H) <- fetch_add H o (-1) ;
          if prev =? 1
          then ob <- deref H o ; Ok (set_thread st H t {| th_vars := V; th_work := member_work (o_mem ob) ++ WFree o :: w |})
          else Ok (set_thread st H t {| th_vars := V; th_work := w |})
      | WFree o :: w =>
          _ <- deref H o ;
          Ok (set_thread st (upd H o None) t {| th_vars := V; th_work := w |})
      end
  end.

(** a thread calls handle operations only outside Release, on its own handles, and
    dereferences only non-null ones *)
Definition enabled (st : gstate) (t : nat) (a : action) : Prop :=
  exists th, nth_error (g_threads st) t = Some th /\
  match a with
  | ACopy i | ADrop i => th_work th = [] /\ (i < length (th_vars th))%nat
  | AUse i => th_work th = [] /\ exists o, nth_error (th_vars th) i = Some (Some o)
  | AMove i t' => th_work th = [] /\ (i < length (th_vars th))%nat /\ (t' < length (g_threads st))%nat
  | ANew k => th_work th = []
  | AWork => th_work th <> []
  end.
Definition gstate0 (n : nat) : gstate := {| g_nodes := []; g_threads := repeat {| th_vars := []; th_work := [] |} n |}.
