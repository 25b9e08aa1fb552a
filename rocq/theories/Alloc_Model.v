(** The pool allocator for node memory, used by one thread at a time.
    Models src/FastNoise/SmartNode.cpp:14-248.
    Addresses are integers below 2^64. The list of pools linked by mNextPool is a Coq list.
    [assert] is compiled out (release build). compare_exchange without competing threads
    succeeds (a spurious failure of the weak form repeats the same computation).
    sizeof( SmartNodeManagerPool ) = 24 on 64-bit targets: two 8-byte atomics and a
    uint32_t, padded to 8. *)
From Coq Require Import ZArith List Bool.
From Verif Require Import Prelude.
Import ListNotations.
Open Scope Z_scope.

Definition HDR : Z := 24.
Definition INT32_MAX : Z := 2^31 - 1.

(** SmartNode.cpp:100-102, with the address of the object *)
Record pool := { p_addr : Z; p_state : Z; p_size : Z }.
(** SmartNode.cpp:95-98  GetPool *)
Definition p_data (p : pool) : Z := p_addr p + HDR.
(** the two halves of mAllocState (27, 41-42) *)
Definition active_of (st : Z) : Z := u32 st.
Definition next_of (st : Z) : Z := u32 (Z.shiftr st 32).

(** SmartNode.cpp:17-19 *)
Definition new_pool (addr size : Z) : pool := {| p_addr := addr; p_state := 0; p_size := Z.min size INT32_MAX |}.

(** SmartNode.cpp:24-30  Contains, for the state word [st] it loads; nextFreeIndex - 1 is
    uint32_t arithmetic *)
Definition contains (data st ptr : Z) : bool :=
  (data <=? ptr) && (ptr <? data + u32 (next_of st - 1)).

(** std::align( align, size, ptr, space ): the aligned pointer, or None *)
Definition std_align (align size ptr space : Z) : option Z :=
  if space <? size then None
  else let aligned := Z.land (u64 (ptr - 1 + align)) (u64 (- align)) in
       if space - size <? aligned - ptr then None else Some aligned.

(** SmartNode.cpp:41-56: one round of the TryAlloc loop for the loaded state: the slot
    and the state to install; None = return nullptr *)
Definition alloc_round (data psize st size align : Z) : option (Z * Z) :=
  let activeAllocs := active_of st in
  let nextFree := next_of st in
  let startSlot := if activeAllocs =? 0 then data else data + nextFree in
  let space := if activeAllocs =? 0 then psize else u32 (psize - nextFree) in
  match std_align align size startSlot space with
  | None => None
  | Some slot =>
      let nextFree := u32 (slot + size - data) in
      let activeAllocs := u32 (activeAllocs + 1) in
      Some (slot, Z.lor activeAllocs (Z.shiftl nextFree 32))
  end.

Definition with_state (p : pool) (st : Z) : pool := {| p_addr := p_addr p; p_state := st; p_size := p_size p |}.

(** SmartNode.cpp:32-61  TryAlloc *)
Definition try_alloc (p : pool) (size align : Z) : option (Z * pool) :=
  match alloc_round (p_data p) (p_size p) (p_state p) size align with
  | None => None
  | Some (slot, st) => Some (slot, with_state p st)
  end.

(** SmartNode.cpp:63-74  Free: the remaining count, or a negative value *)
Definition pool_free (p : pool) (ptr : Z) : Z * pool :=
  if contains (p_data p) (p_state p) ptr
  then (s32 (p_state p) - 1, with_state p (u64 (p_state p - 1)))
  else (-1, p).

(** SmartNode.cpp:76-79 *)
Definition alloc_count (p : pool) : Z := s32 (p_state p).

(** SmartNode.cpp:81-93  MarkForRemoval: the state installed, None = false *)
Definition mark_for_removal (psize st : Z) : option Z :=
  if u32 st =? 0 then Some (u64 (u64 (Z.shiftl psize 32) + 1)) else None.

(** SmartNode.cpp:177-191 *)
Fixpoint alloc_from_pools (ps : list pool) (size align : Z) : option (Z * list pool) :=
  match ps with
  | [] => None
  | p :: r =>
      match try_alloc p size align with
      | Some (ptr, p') => Some (ptr, p' :: r)
      | None => match alloc_from_pools r size align with
                | Some (ptr, r') => Some (ptr, p :: r')
                | None => None
                end
      end
  end.

(** SmartNode.cpp:105-108, 229-230 *)
Record allocator := { a_pools : list pool; a_new_size : Z }.

(** bytes requested from malloc for a new pool (124), and the size given to its
    constructor (126; uint32_t subtraction) *)
Definition malloc_size (a : allocator) : Z := Z.max HDR (a_new_size a).
Definition new_pool_size (a : allocator) : Z := u32 (a_new_size a - HDR).

(** SmartNode.cpp:110-151  Alloc; [fresh] is what malloc returns if it is called (None =
    null). With one thread the second AllocFromPools repeats the first. *)
Definition alloc (a : allocator) (size align : Z) (fresh : option Z) : option Z * allocator :=
  match alloc_from_pools (a_pools a) size align with
  | Some (ptr, ps) => (Some ptr, {| a_pools := ps; a_new_size := a_new_size a |})
  | None =>
      match fresh with
      | None => (None, a)
      | Some addr =>
          let np := new_pool addr (new_pool_size a) in
          match try_alloc np size align with
          | Some (ptr, np') => (Some ptr, {| a_pools := a_pools a ++ [np']; a_new_size := a_new_size a |})
          | None => (None, {| a_pools := a_pools a ++ [np]; a_new_size := a_new_size a |})
          end
      end
  end.

(** SmartNode.cpp:198-226: the loop over the pools after the first; [e] = emptyPool is
    not null. Result: the remaining pools and the one given back to the system. *)
Fixpoint remove_loop (e : bool) (ps : list pool) : list pool * option pool :=
  match ps with
  | [] => ([], None)
  | p :: r =>
      if alloc_count p =? 0 then
        if e then match mark_for_removal (p_size p) (p_state p) with
                  | Some _ => (r, Some p)
                  | None => (p :: r, None)
                  end
        else let (r', q) := remove_loop true r in (p :: r', q)
      else let (r', q) := remove_loop e r in (p :: r', q)
  end.

(** SmartNode.cpp:193-227  RemoveEmptyPool (mPools is not null when it is called) *)
Definition remove_empty (ps : list pool) : list pool * option pool :=
  match ps with
  | [] => ([], None)
  | p :: r => let (r', q) := remove_loop (negb (0 <? alloc_count p)) r in (p :: r', q)
  end.

(** SmartNode.cpp:155-171: walk to the pool that takes the pointer *)
Fixpoint free_walk (ps : list pool) (ptr : Z) : option Z * list pool :=
  match ps with
  | [] => (None, [])
  | p :: r =>
      let (c, p') := pool_free p ptr in
      if 0 <=? c then (Some c, p' :: r)
      else let (o, r') := free_walk r ptr in (o, p' :: r')
  end.

(** SmartNode.cpp:153-174  Free; also returns the pool given back to the system *)
Definition free (a : allocator) (ptr : Z) : allocator * option pool :=
  let (o, ps) := free_walk (a_pools a) ptr in
  let (ps, q) := match o with Some 0 => remove_empty ps | _ => (ps, None) end in
  ({| a_pools := ps; a_new_size := a_new_size a |}, q).

(** SmartNode.cpp:235-238; initially 64 KiB (108) *)
Definition set_pool_size (a : allocator) (n : Z) : allocator := {| a_pools := a_pools a; a_new_size := u32 n |}.
Definition allocator0 : allocator := {| a_pools := []; a_new_size := 65536 |}.
