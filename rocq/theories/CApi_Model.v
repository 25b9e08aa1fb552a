(** The metadata queries and the setters of the C API. Models
    src/FastNoise/FastNoise_C.cpp:117-129, 143-219, 241-274, 287-320, 343-476 (queries),
    131-141 (fnNewFromMetadata), 221-239, 276-285, 322-341 (setters).
    Texts and numbers that registration stores verbatim and no code interprets
    (descriptions, UI minimum and maximum) are arbitrary functions [attrs] of the
    declaration. *)
From Coq Require Import String.
From Coq Require Import ZArith List Bool.
From Verif Require Import Prelude Registry_Model MetaVector_Model NodeTree_Model.
Import ListNotations.
Open Scope Z_scope.

(** result of a query: a C string or a 32-bit number (int, or float as its pattern) *)
Inductive answer := AStr (s : string) | AInt (v : Z).

Record attrs := {
  a_desc : string -> string;           (* Metadata::description of the type called so *)
  a_vdesc : var_decl -> string; a_vmin : var_decl -> Z; a_vmax : var_decl -> Z;
  a_ldesc : lookup_decl -> string; a_hdesc : hybrid_decl -> string
}.

(** Metadata.h:94-99  eType *)
Definition kind_code (k : var_kind) : Z := match k with KFloat => 0 | KInt => 1 | KEnum _ => 2 end.

(** arguments are C ints *)
Inductive query :=
| QCount                                   (* fnGetMetadataCount *)
| QName (id : Z) | QDescription (id : Z)
| QGroupCount (id : Z) | QGroupName (id i : Z)
| QVarCount (id : Z) | QVarName (id i : Z) | QVarDescription (id i : Z) | QVarType (id i : Z) | QVarDim (id i : Z)
| QVarDefault (id i : Z)                   (* ...DefaultFloat and ...DefaultIntEnum: same 32 bits *)
| QVarMin (id i : Z) | QVarMax (id i : Z)
| QEnumCount (id i : Z) | QEnumName (id i e : Z)
| QLookupCount (id : Z) | QLookupName (id i : Z) | QLookupDescription (id i : Z)
| QLookupDim (id i : Z)
| QHybridCount (id : Z) | QHybridName (id i : Z) | QHybridDescription (id i : Z) | QHybridDim (id i : Z) | QHybridDefault (id i : Z).

Definition bad_id : string := "INVALID NODE ID".

Section Query.
  Variable T : tables.
  Variable at_ : attrs.

  (** GetFromId( (node_id)id ): the int is converted to uint8_t *)
  Definition with_meta (id : Z) (err : answer) (f : metadata -> res answer) : res answer :=
    m <- get_from_id T (u8 id) ;
    match m with Some m => f m | None => Ok err end.
  (** if( (size_t)i < v.size() ) ... v[i] *)
  Definition with_member {A} (tbl : list A) (v : vec) (i : Z) (err : answer) (f : A -> res answer) : res answer :=
    if u64 i <? vsize v then x <- vget tbl v (u64 i) ; f x else Ok err.
  Definition count (v : vec) : res answer := Ok (AInt (s32 (vsize v))).
  Definition var_q (id i : Z) (eid ei : answer) (f : var_decl * vec -> res answer) : res answer :=
    with_meta id eid (fun m => with_member (tb_var T) (m_vars m) i ei f).
  Definition lk_q (id i : Z) (eid ei : answer) (f : lookup_decl -> res answer) : res answer :=
    with_meta id eid (fun m => with_member (tb_lk T) (m_lookups m) i ei f).
  Definition hy_q (id i : Z) (eid ei : answer) (f : hybrid_decl -> res answer) : res answer :=
    with_meta id eid (fun m => with_member (tb_hy T) (m_hybrids m) i ei f).

  Definition run_query (q : query) : res answer :=
    match q with
    | QCount => count (tb_all T)
    | QName id => with_meta id (AStr bad_id) (fun m => Ok (AStr (m_name m)))
    | QDescription id => with_meta id (AStr bad_id) (fun m => Ok (AStr (a_desc at_ (m_name m))))
    | QGroupCount id => with_meta id (AInt (-1)) (fun m => count (m_groups m))
    | QGroupName id i => with_meta id (AStr bad_id) (fun m => with_member (tb_str T) (m_groups m) i (AStr "INVALID GROUP INDEX") (fun s => Ok (AStr s)))
    | QVarCount id => with_meta id (AInt (-1)) (fun m => count (m_vars m))
    | QVarName id i => var_q id i (AStr bad_id) (AStr "INVALID VARIABLE INDEX") (fun p => Ok (AStr (v_name (fst p))))
    | QVarDescription id i => var_q id i (AStr bad_id) (AStr "INVALID VARIABLE INDEX") (fun p => Ok (AStr (a_vdesc at_ (fst p))))
    | QVarType id i => var_q id i (AInt (-1)) (AInt (-1)) (fun p => Ok (AInt (kind_code (v_kind (fst p)))))
    | QVarDim id i => var_q id i (AInt (-1)) (AInt (-1)) (fun p => Ok (AInt (v_dim (fst p))))
    | QVarDefault id i => var_q id i (AInt 0) (AInt 0) (fun p => Ok (AInt (v_default (fst p))))
    | QVarMin id i => var_q id i (AInt 0) (AInt 0) (fun p => Ok (AInt (a_vmin at_ (fst p))))
    | QVarMax id i => var_q id i (AInt 0) (AInt 0) (fun p => Ok (AInt (a_vmax at_ (fst p))))
    | QEnumCount id i => var_q id i (AInt (-1)) (AInt (-1)) (fun p => count (snd p))
    | QEnumName id i e => var_q id i (AStr bad_id) (AStr "INVALID VARIABLE INDEX")
                            (fun p => with_member (tb_str T) (snd p) e (AStr "INVALID ENUM INDEX") (fun s => Ok (AStr s)))
    | QLookupCount id => with_meta id (AInt (-1)) (fun m => count (m_lookups m))
    | QLookupName id i => lk_q id i (AStr bad_id) (AStr "INVALID NODE LOOKUP INDEX") (fun l => Ok (AStr (l_name l)))
    | QLookupDescription id i => lk_q id i (AStr bad_id) (AStr "INVALID NODE LOOKUP INDEX") (fun l => Ok (AStr (a_ldesc at_ l)))
    | QLookupDim id i => lk_q id i (AInt (-1)) (AInt (-1)) (fun _ => Ok (AInt (-1)))
        (* no shipped type uses AddPerDimensionGeneratorSource (Generator.h:654): always -1 *)
    | QHybridCount id => with_meta id (AInt (-1)) (fun m => count (m_hybrids m))
    | QHybridName id i => hy_q id i (AStr bad_id) (AStr "INVALID HYBRID INDEX") (fun h => Ok (AStr (h_name h)))
    | QHybridDescription id i => hy_q id i (AStr bad_id) (AStr "INVALID HYBRID INDEX") (fun h => Ok (AStr (a_hdesc at_ h)))
    | QHybridDim id i => hy_q id i (AInt (-1)) (AInt (-1)) (fun h => Ok (AInt (h_dim h)))
    | QHybridDefault id i => hy_q id i (AInt 0) (AInt 0) (fun h => Ok (AInt (h_default h)))
    end.
End Query.

(** ** Setters *)
(** What the class setter behind a variable stores for a given 32-bit value. All shipped
    setters store the value, except the index setters of the cellular nodes
    (Cellular.h:65, 104-105: clamped to 0 .. kMaxDistanceCount - 1 = 3). Setters that also
    keep derived fields are modelled by the value they were given: Terrace
    (Modifiers.h:289-291) and DomainRotate (84-120) recompute the derived fields from it,
    VariableRange (BasicGenerators.h:96-108) is modelled separately. *)
Definition clamped (t : node_type) (d : var_decl) : bool :=
  (String.eqb (t_name t) "CellularValue" && String.eqb (v_name d) "Value Index") ||
  (String.eqb (t_name t) "CellularDistance" && (String.eqb (v_name d) "Distance Index 0" || String.eqb (v_name d) "Distance Index 1")).
Definition stored (t : node_type) (d : var_decl) (v : Z) : Z :=
  if clamped t d then u32 (Z.min (Z.max (s32 v) 0) 3) else u32 v.

(** a node passed to the C API is a pointer to a node in memory *)
Inductive ccall :=
| SetVariable (n : nat) (i v : Z)              (* fnSetVariableFloat, fnSetVariableIntEnum: the 32 bits *)
| SetNodeLookup (n : nat) (i : Z) (s : option nat)
| SetHybridNode (n : nat) (i : Z) (s : option nat)
| SetHybridFloat (n : nat) (i v : Z).

Section Call.
  Variable reg : list node_type.

  (** index test and use of metadata.memberX[ i ] *)
  Definition member_at {A} (l : list A) (i : Z) : option (nat * A) :=
    if u64 i <? Z.of_nat (length l) then match nth_error l (Z.to_nat (u64 i)) with Some x => Some (Z.to_nat (u64 i), x) | None => None end else None.

  Definition set_source (h : heap) (l : lookup_decl) (s : option nat) (k : nat -> node_data) (n : nat) : res (bool * heap) :=
    match s with
    | None => Ok (false, h)                   (* dynamic_cast of a null pointer *)
    | Some m =>
        ct <- node_type_of reg h m ;
        if accepts l ct then Ok (true, upd h n (k m)) else Ok (false, h)
    end.

  Definition run_call (h : heap) (c : ccall) : res (bool * heap) :=
    match c with
    | SetVariable n i v =>
        nd <- rd h n ; t <- node_type_of reg h n ;
        match member_at (t_vars t) i with
        | Some (j, d) => _ <- rd (nd_vars nd) j ; Ok (true, upd h n (set_var nd j (stored t d v)))
        | None => Ok (false, h)
        end
    | SetNodeLookup n i s =>
        nd <- rd h n ; t <- node_type_of reg h n ;
        match member_at (t_lookups t) i with
        | Some (j, l) => _ <- rd (nd_lookups nd) j ; set_source h l s (fun m => set_lookup nd j (Some m)) n
        | None => Ok (false, h)
        end
    | SetHybridNode n i s =>
        nd <- rd h n ; t <- node_type_of reg h n ;
        match member_at (t_hybrids t) i with
        | Some (j, _) =>
            old <- rd (nd_hybrids nd) j ;
            set_source h {| l_name := ""; l_warp := false |} s (fun m => set_hybrid nd j (Some m, snd old)) n
        | None => Ok (false, h)
        end
    | SetHybridFloat n i v =>
        nd <- rd h n ; t <- node_type_of reg h n ;
        match member_at (t_hybrids t) i with
        | Some (j, _) => _ <- rd (nd_hybrids nd) j ; Ok (true, upd h n (set_hybrid nd j (None, u32 v)))
        | None => Ok (false, h)
        end
    end.

  (** fnNewFromMetadata( id ) (FastNoise_C.cpp:131-141) on the node values; id is reduced
      to uint8_t *)
  Definition run_new (h : heap) (id : Z) : option nat * heap :=
    match nth_error reg (Z.to_nat (u8 id)) with
    | Some t => (Some (length h), h ++ [new_generator (Z.to_nat (u8 id)) t])
    | None => (None, h)
    end.
End Call.
