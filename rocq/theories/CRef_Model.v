(** Node references of the C API. Models src/FastNoise/FastNoise_C.cpp:9-20
    (BumpNodeRefences, ToSmartNode), 41-55 (fnNewFromEncodedNodeTree, fnDeleteNodeRef),
    131-141 (fnNewFromMetadata), 276-285 (fnSetNodeLookup), 322-331
    (fnSetHybridNodeLookup), 333-341 (fnSetHybridFloat), on the node memory of
    SmartNode_Model. A reference the C program still holds is an entry [Some node] of
    the table; a deleted one is [None]. *)
From Coq Require Import ZArith List Bool.
From Verif Require Import Prelude SmartNode_Model.
Import ListNotations.
Open Scope Z_scope.

Record cstate := { cs_heap : nheap; cs_refs : list (option nat) }.
Definition cstate0 : cstate := {| cs_heap := []; cs_refs := [] |}.

Inductive cop :=
| CNew (k : nat)                       (* fnNewFromMetadata of a type with k source members *)
| CDelete (r : nat)                    (* fnDeleteNodeRef *)
| CSetSource (d j : nat) (s : option nat) (accept : bool)
    (* fnSetNodeLookup / fnSetHybridNodeLookup with member index j in range; [s] is the
       reference passed, or None for a null pointer; [accept]: the dynamic_cast of
       setFunc succeeds (Generator.h:641-655, 700-712) *)
| CSetValue (d j : nat).               (* fnSetHybridFloat with member index j in range *)

Definition deref_ref (R : list (option nat)) (r : nat) : res nat :=
  p <- rd R r ; match p with Some o => Ok o | None => UB end.

Definition cstep (fuel : nat) (st : cstate) (c : cop) : res cstate :=
  let H := cs_heap st in
  let R := cs_refs st in
  match c with
  | CNew k =>
      (* the local SmartNode, the bump, the local's destructor *)
      let o := length H in
      let H := H ++ [Some {| o_rc := 0; o_mem := repeat None k |}] in
      H <- try_inc H (Some o) ;
      ' (_, H) <- fetch_add H o 1 ;
      H <- release fuel H (Some o) ;
      Ok {| cs_heap := H; cs_refs := R ++ [Some o] |}
  | CDelete r =>
      o <- deref_ref R r ;
      ' (_, H) <- fetch_add H o (-1) ;
      R <- wr R r None ;
      Ok {| cs_heap := H; cs_refs := R |}
  | CSetSource d j s accept =>
      o <- deref_ref R d ;
      new <- match s with None => Ok None | Some r => x <- deref_ref R r ; Ok (Some x) end ;
      H <- try_inc H new ;                        (* smartLookup *)
      if match new with None => false | Some _ => accept end then
        H <- try_inc H new ;                      (* SmartNode<const T> source( s, sUpCast ) *)
        cur <- read_slot H o j ;
        H <- assign_from fuel H cur new ;
        H <- write_slot H o j new ;
        H <- release fuel H new ;
        H <- release fuel H new ;
        Ok {| cs_heap := H; cs_refs := R |}
      else
        H <- release fuel H new ;
        Ok {| cs_heap := H; cs_refs := R |}
  | CSetValue d j =>
      o <- deref_ref R d ;
      cur <- read_slot H o j ; H <- write_slot H o j None ; H <- release fuel H cur ;
      Ok {| cs_heap := H; cs_refs := R |}
  end.
Definition cexec1 (st : cstate) (c : cop) : res cstate := cstep (S (length (cs_heap st))) st c.
