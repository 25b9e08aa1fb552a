(** Concurrent use of the node allocator. Models src/FastNoise/SmartNode.cpp:24-93 (one
    pool, lock-free) and 153-227 (the list of pools) as atomic steps that interleave
    arbitrarily. All accesses of mAllocState are to one atomic location, whose
    modification order makes interleavings the right model although they are relaxed. *)
From Coq Require Import ZArith List Bool.
From Verif Require Import Prelude Alloc_Model.
Import ListNotations.
Open Scope Z_scope.

(** ** One pool *)

(** A call in progress; any number of threads, each running one call at a time, give a
    set of calls in progress. [stamp] is ghost: the number of successful updates of the
    state word when [seen] was loaded. *)
Inductive call :=
| CAlloc (size align seen stamp : Z)   (* TryAlloc, allocState = seen (35 or 58) *)
| CFree (ptr size : Z) (found : bool)  (* Free after Contains (65) returned [found]; [size] is ghost *)
| CMark (seen stamp : Z).              (* MarkForRemoval after the load (83) *)

(** [m_live]: blocks (pointer, size) returned to the program and not passed to Free yet.
    [m_marked] is ghost: MarkForRemoval has succeeded. *)
Record pstate := { m_word : Z; m_live : list (Z * Z); m_calls : list call; m_done : Z; m_marked : bool }.
Definition pstate0 : pstate := {| m_word := 0; m_live := []; m_calls := []; m_done := 0; m_marked := false |}.

Section Pool.
  Variables data psize : Z.

  Inductive act :=
  | BeginAlloc (size align : Z)
  | BeginFree (i : nat)                (* of the i-th live block *)
  | BeginMark
  | Go (i : nat) (spurious : bool).    (* the i-th call continues *)

  Fixpoint drop {A} (i : nat) (l : list A) : list A :=
    match l, i with [], _ => [] | _ :: l', O => l' | x :: l', S j => x :: drop j l' end.

  (** the result of a completed call is visible in [m_live] / [m_marked] *)
  Definition pstep (st : pstate) (a : act) : res pstate :=
    match a with
    | BeginAlloc size align =>
        Ok {| m_word := m_word st; m_live := m_live st; m_calls := m_calls st ++ [CAlloc size align (m_word st) (m_done st)]; m_done := m_done st; m_marked := m_marked st |}
    | BeginFree i =>
        b <- rd (m_live st) i ;
        Ok {| m_word := m_word st; m_live := drop i (m_live st);
              m_calls := m_calls st ++ [CFree (fst b) (snd b) (contains data (m_word st) (fst b))]; m_done := m_done st; m_marked := m_marked st |}
    | BeginMark =>
        Ok {| m_word := m_word st; m_live := m_live st; m_calls := m_calls st ++ [CMark (m_word st) (m_done st)]; m_done := m_done st; m_marked := m_marked st |}
    | Go i spurious =>
        c <- rd (m_calls st) i ;
        match c with
        | CAlloc size align seen stamp =>
            match alloc_round data psize seen size align with
            | None =>                                        (* 50: return nullptr *)
                Ok {| m_word := m_word st; m_live := m_live st; m_calls := drop i (m_calls st); m_done := m_done st; m_marked := m_marked st |}
            | Some (slot, new) =>                            (* 58: compare_exchange_weak *)
                if (m_word st =? seen) && negb spurious
                then Ok {| m_word := new; m_live := (slot, size) :: m_live st; m_calls := drop i (m_calls st); m_done := m_done st + 1; m_marked := m_marked st |}
                else Ok {| m_word := m_word st; m_live := m_live st; m_calls := upd (m_calls st) i (CAlloc size align (m_word st) (m_done st)); m_done := m_done st; m_marked := m_marked st |}
            end
        | CFree ptr size found =>
            if found                                         (* 67: fetch_sub *)
            then Ok {| m_word := u64 (m_word st - 1); m_live := m_live st; m_calls := drop i (m_calls st); m_done := m_done st + 1; m_marked := m_marked st |}
            else Ok {| m_word := m_word st; m_live := m_live st; m_calls := drop i (m_calls st); m_done := m_done st; m_marked := m_marked st |}
        | CMark seen stamp =>
            match mark_for_removal psize seen with
            | None => Ok {| m_word := m_word st; m_live := m_live st; m_calls := drop i (m_calls st); m_done := m_done st; m_marked := m_marked st |}
            | Some new =>                                    (* 92: compare_exchange_strong *)
                if m_word st =? seen
                then Ok {| m_word := new; m_live := m_live st; m_calls := drop i (m_calls st); m_done := m_done st + 1; m_marked := true |}
                else Ok {| m_word := m_word st; m_live := m_live st; m_calls := drop i (m_calls st); m_done := m_done st; m_marked := m_marked st |}
            end
        end
    end.
End Pool.

(** ** The list of pools *)

(** A pool object in memory with its mNextPool; [None] = returned to the system. *)
Definition pmem := list (option (pool * option nat)).
Definition pderef (M : pmem) (n : nat) : res (pool * option nat) :=
  match nth_error M n with Some (Some c) => Ok c | _ => UB end.

(** position of a call inside the list operations *)
Inductive lcall :=
| LAlloc (at_ : option nat) (size align : Z)      (* AllocFromPools loop (177-191) *)
| LFree (at_ : option nat) (ptr : Z)              (* Free loop (155-171) *)
| LScan (at_ : nat) (empty : bool)                (* RemoveEmptyPool loop (198-226), pool = at_ *)
| LRemove (at_ : nat) (victim : nat)              (* holding mMutex: MarkForRemoval (210) *)
| LUnlink (at_ : nat) (victim : nat)              (* 212 *)
| LDelete (victim : nat)                          (* 214-216 *)
| LDone (r : option Z).
Record lstate := { l_mem : pmem; l_head : option nat; l_calls : list lcall; l_lock : bool }.

Definition set_call (st : lstate) (i : nat) (c : lcall) : lstate :=
  {| l_mem := l_mem st; l_head := l_head st; l_calls := upd (l_calls st) i c; l_lock := l_lock st |}.
Definition set_mem (st : lstate) (M : pmem) : lstate :=
  {| l_mem := M; l_head := l_head st; l_calls := l_calls st; l_lock := l_lock st |}.
Definition set_lock (st : lstate) (b : bool) : lstate :=
  {| l_mem := l_mem st; l_head := l_head st; l_calls := l_calls st; l_lock := b |}.

(** One step of call [i]; a TryAlloc or a pool's Free counts as one step here (its own
    steps are the previous section). Waiting for the mutex leaves the state unchanged.
    Creation of pools is not included. *)
Definition lstep (st : lstate) (i : nat) : res lstate :=
  c <- rd (l_calls st) i ;
  match c with
  | LAlloc None _ _ => Ok (set_call st i (LDone None))
  | LAlloc (Some n) size align =>
      ' (p, nx) <- pderef (l_mem st) n ;
      match try_alloc p size align with
      | Some (ptr, p') => Ok (set_mem (set_call st i (LDone (Some ptr))) (upd (l_mem st) n (Some (p', nx))))
      | None => Ok (set_call st i (LAlloc nx size align))
      end
  | LFree None _ => Ok (set_call st i (LDone None))
  | LFree (Some n) ptr =>
      ' (p, nx) <- pderef (l_mem st) n ;
      let (k, p') := pool_free p ptr in
      let st1 := set_mem st (upd (l_mem st) n (Some (p', nx))) in
      if 0 <? k then Ok (set_call st1 i (LDone None))
      else if k =? 0 then
        match l_head st with
        | None => UB
        | Some hd => ' (hp, _) <- pderef (l_mem st1) hd ; Ok (set_call st1 i (LScan hd (negb (0 <? alloc_count hp))))
        end
      else Ok (set_call st1 i (LFree nx ptr))
  | LScan n e =>
      ' (p, nx) <- pderef (l_mem st) n ;
      match nx with
      | None => Ok (set_call st i (LDone None))
      | Some m =>
          ' (q, _) <- pderef (l_mem st) m ;
          if alloc_count q =? 0 then
            if e then if l_lock st then Ok st else Ok (set_lock (set_call st i (LRemove n m)) true)
            else Ok (set_call st i (LScan m true))
          else Ok (set_call st i (LScan m e))
      end
  | LRemove n v =>
      ' (q, nx) <- pderef (l_mem st) v ;
      match mark_for_removal (p_size q) (p_state q) with
      | Some w => Ok (set_mem (set_call st i (LUnlink n v)) (upd (l_mem st) v (Some (with_state q w, nx))))
      | None => Ok (set_lock (set_call st i (LDone None)) false)
      end
  | LUnlink n v =>
      ' (q, nx) <- pderef (l_mem st) v ;
      ' (p, _) <- pderef (l_mem st) n ;
      Ok (set_mem (set_call st i (LDelete v)) (upd (l_mem st) n (Some (p, nx))))
  | LDelete v =>
      _ <- pderef (l_mem st) v ;
      Ok (set_lock (set_mem (set_call st i (LDone None)) (upd (l_mem st) v None)) false)
  | LDone _ => Ok st
  end.
Fixpoint lrun (st : lstate) (is : list nat) : res lstate :=
  match is with [] => Ok st | i :: r => st <- lstep st i ; lrun st r end.
