(** Reference-counted node handles. Models include/FastNoise/Utility/SmartNode.h:64-317
    (SmartNode<T>), include/FastNoise/Generators/Generator.h:113-148, 431-441
    (BaseSource, SetSourceMemberVariable) and Generator.inl:512-522
    (ReferencesFetchAdd), used by one thread.

    Memory is a list of cells; a cell is [None] once its node has been destroyed and
    returned to the allocator, and indices are never reused, so a stale pointer is
    visible as an access to a [None] cell, which is [UB].
    Simplifications: the 32-bit counter is an unbounded integer (2^32 handles to one node
    would be needed to wrap it); a node is its counter and the handles it owns (its
    source members); the static type of a handle only selects which operator runs. *)
From Coq Require Import ZArith List Bool.
From Verif Require Import Prelude.
Import ListNotations.
Open Scope Z_scope.

Record obj := { o_rc : Z; o_mem : list (option nat) }.
Definition nheap := list (option obj).

(** access through a pointer *)
Definition deref (H : nheap) (o : nat) : res obj :=
  match nth_error H o with Some (Some ob) => Ok ob | _ => UB end.

(** Generator.inl:512-522  mPtr->ReferencesFetchAdd( d ): returns the previous value *)
Definition fetch_add (H : nheap) (o : nat) (d : Z) : res (Z * nheap) :=
  ob <- deref H o ;
  Ok (o_rc ob, upd H o (Some {| o_rc := o_rc ob + d; o_mem := o_mem ob |})).

(** SmartNode.h:306-313  TryInc *)
Definition try_inc (H : nheap) (p : option nat) : res nheap :=
  match p with None => Ok H | Some o => ' (_, H) <- fetch_add H o 1 ; Ok H end.

Definition read_slot (H : nheap) (o j : nat) : res (option nat) := ob <- deref H o ; rd (o_mem ob) j.
Definition write_slot (H : nheap) (o j : nat) (p : option nat) : res nheap :=
  ob <- deref H o ; m <- wr (o_mem ob) j p ; Ok (upd H o (Some {| o_rc := o_rc ob; o_mem := m |})).

(** the implicit destructor of a node class: member handles are destroyed in reverse
    order, each by ~SmartNode (SmartNode.h:126-129), which ends with mPtr = nullptr (302) *)
Fixpoint destroy_members (rel : nheap -> option nat -> res nheap) (o k : nat) (H : nheap) : res nheap :=
  match k with
  | O => Ok H
  | S j =>
      p <- read_slot H o j ;
      H <- rel H p ;
      H <- write_slot H o j None ;
      destroy_members rel o j H
  end.

(** SmartNodeManager::Free on the node's memory; freeing twice is UB *)
Definition free_cell (H : nheap) (o : nat) : res nheap := _ <- deref H o ; Ok (upd H o None).

(** SmartNode.h:284-303  Release (the caller clears its own mPtr) *)
Fixpoint release (fuel : nat) (H : nheap) (p : option nat) : res nheap :=
  match p with
  | None => Ok H
  | Some o =>
      ' (prev, H) <- fetch_add H o (-1) ;
      if prev =? 1 then
        match fuel with
        | O => NoFuel
        | S f =>
            ob <- deref H o ;
            H <- destroy_members (release f) o (length (o_mem ob)) H ;
            free_cell H o
        end
      else Ok H
  end.

(** ** Handle variables of the user *)
Record hstate := { hs_heap : nheap; hs_vars : list (option nat) }.

(** pointer comparison mPtr != node.mPtr *)
Definition ptr_eqb (a b : option nat) : bool :=
  match a, b with None, None => true | Some x, Some y => Nat.eqb x y | _, _ => false end.

Inductive op :=
| ONew (k : nat)            (* auto v = New<T>()  (FastNoise.h:36-42, SmartNode.h:278-282) *)
| OCopy (s : nat)           (* SmartNode v( s )                 (95-106) *)
| OMove (s : nat)           (* SmartNode v( std::move( s ) )    (113-124) *)
| OAssign (d s : nat)       (* d = s                            (150-172) *)
| OMoveAssign (d s : nat)   (* d = std::move( s ), same type    (131-135) *)
| OMoveConv (d s : nat)     (* d = std::move( s ), other type   (137-148) *)
| OSwap (d s : nat)         (* d.swap( s )                      (239-242) *)
| OReset (d : nat)          (* d.reset()                        (233-236) *)
| OResetTo (d s : nat)      (* d.reset( s.get() )               (233-236) *)
| ODestroy (d : nat)        (* ~SmartNode                       (126-129) *)
| OSetSource (d j s : nat)  (* d->SetSource( s ), s a SmartNode<const T>   (Generator.h:431-441) *)
| OSetSourceConv (d j s : nat) (* d->SetSource( s ) through a converting temporary *)
| OSetValue (d j : nat).    (* d->SetHybrid( 1.0f ): HybridSourceT is move-assigned from a temporary
                               without source, the temporary then releases the old source *)

(** d = s for a handle that currently holds [cur] and a source holding [new]
    (SmartNode.h:150-172); the result is the heap, the handle then holds [new] *)
Definition assign_from (fuel : nat) (H : nheap) (cur new : option nat) : res nheap :=
  if ptr_eqb cur new then Ok H
  else H <- try_inc H new ; release fuel H cur.

Definition step (fuel : nat) (st : hstate) (c : op) : res hstate :=
  let H := hs_heap st in
  let V := hs_vars st in
  match c with
  | ONew k =>
      let o := length H in
      let H := H ++ [Some {| o_rc := 0; o_mem := repeat None k |}] in
      H <- try_inc H (Some o) ;
      Ok {| hs_heap := H; hs_vars := V ++ [Some o] |}
  | OCopy s =>
      p <- rd V s ; H <- try_inc H p ; Ok {| hs_heap := H; hs_vars := V ++ [p] |}
  | OMove s =>
      p <- rd V s ; V <- wr V s None ; Ok {| hs_heap := H; hs_vars := V ++ [p] |}
  | OAssign d s =>
      cur <- rd V d ; new <- rd V s ;
      H <- assign_from fuel H cur new ;
      V <- wr V d new ;
      Ok {| hs_heap := H; hs_vars := V |}
  | OMoveAssign d s | OSwap d s =>
      a <- rd V d ; b <- rd V s ; V <- wr V d b ; V <- wr V s a ;
      Ok {| hs_heap := H; hs_vars := V |}
  | OMoveConv d s =>
      cur <- rd V d ; new <- rd V s ;
      if ptr_eqb cur new then Ok st
      else
        H <- release fuel H cur ;
        V <- wr V d new ; V <- wr V s None ;
        Ok {| hs_heap := H; hs_vars := V |}
  | OReset d =>
      (* temporary SmartNode( nullptr ), swap, temporary released *)
      cur <- rd V d ; V <- wr V d None ; H <- release fuel H cur ;
      Ok {| hs_heap := H; hs_vars := V |}
  | OResetTo d s =>
      p <- rd V s ; H <- try_inc H p ;
      cur <- rd V d ; V <- wr V d p ; H <- release fuel H cur ;
      Ok {| hs_heap := H; hs_vars := V |}
  | ODestroy d =>
      cur <- rd V d ; H <- release fuel H cur ; V <- wr V d None ;
      Ok {| hs_heap := H; hs_vars := V |}
  | OSetSource d j s =>
      p <- rd V d ;
      match p with
      | None => UB
      | Some o =>
          cur <- read_slot H o j ; new <- rd V s ;
          H <- assign_from fuel H cur new ;
          H <- write_slot H o j new ;
          Ok {| hs_heap := H; hs_vars := V |}
      end
  | OSetSourceConv d j s =>
      p <- rd V d ;
      match p with
      | None => UB
      | Some o =>
          new <- rd V s ; H <- try_inc H new ;
          cur <- read_slot H o j ;
          H <- assign_from fuel H cur new ;
          H <- write_slot H o j new ;
          H <- release fuel H new ;
          Ok {| hs_heap := H; hs_vars := V |}
      end
  | OSetValue d j =>
      p <- rd V d ;
      match p with
      | None => UB
      | Some o =>
          cur <- read_slot H o j ; H <- write_slot H o j None ; H <- release fuel H cur ;
          Ok {| hs_heap := H; hs_vars := V |}
      end
  end.

(** every release is given more fuel than there are nodes *)
Definition exec1 (st : hstate) (c : op) : res hstate := step (S (length (hs_heap st))) st c.
Fixpoint exec (st : hstate) (cs : list op) : res hstate :=
  match cs with [] => Ok st | c :: cs' => st <- exec1 st c ; exec st cs' end.
Definition hstate0 : hstate := {| hs_heap := []; hs_vars := [] |}.
