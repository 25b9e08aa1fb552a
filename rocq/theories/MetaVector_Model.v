(** Registration of node types at start-up: shared member tables and 8-bit index
    ranges. Models include/FastNoise/Metadata.h:38-63, 176-205, 270-300 and
    src/FastNoise/Metadata.cpp:37-80. *)
From Coq Require Import String.
From Coq Require Import ZArith List Bool.
From Verif Require Import Prelude Registry_Model.
Import ListNotations.
Open Scope Z_scope.

(** Metadata.h:61-62  mStart, mEnd (index_type = uint8_t, both initialised to 255) *)
Record vec := { v_start : Z; v_end : Z }.
Definition vec0 : vec := {| v_start := 255; v_end := 255 |}.

(** Metadata.cpp:70-80  Vector<T>::push_back on the table shared by all vectors of T
    (the assert is compiled out in release builds) *)
Definition push {A} (tbl : list A) (v : vec) (x : A) : list A * vec :=
  let tbl := tbl ++ [x] in
  let e := u8 (u8 (Z.of_nat (length tbl)) - 1) in
  (tbl, {| v_start := Z.min (v_start v) e; v_end := u8 (e + 1) |}).

(** Metadata.h:47  size(): size_t from an int difference *)
Definition vsize (v : vec) : Z := u64 (v_end v - v_start v).
(** Metadata.h:48  operator[] *)
Definition vget {A} (tbl : list A) (v : vec) (i : Z) : res A := rd tbl (Z.to_nat (v_start v + i)).
(** iteration from begin() to end() (Metadata.h:45-46); running past the table is UB *)
Fixpoint vread {A} (tbl : list A) (i n : nat) : res (list A) :=
  match n with
  | O => Ok []
  | S n' => x <- rd tbl i ; l <- vread tbl (S i) n' ; Ok (x :: l)
  end.
Definition contents {A} (tbl : list A) (v : vec) : res (list A) :=
  if v_end v <? v_start v then UB else vread tbl (Z.to_nat (v_start v)) (Z.to_nat (v_end v - v_start v)).

(** What a MetadataT constructor body does, in order: groups.push_back,
    AddVariable/AddVariableEnum/AddPerDimensionVariable (Generator.h:498-628; the
    enum names go to the table shared with the groups), AddGeneratorSource
    (630-687), AddHybridSource (690-765). *)
Inductive item :=
| IGroup (s : string)
| IVar (d : var_decl)
| ILookup (l : lookup_decl)
| IHybrid (h : hybrid_decl).
Record tdecl := { d_name : string; d_warp : bool; d_items : list item }.

Definition enum_names (d : var_decl) : list string := match v_kind d with KEnum ns => ns | _ => [] end.

(** Metadata.h:271-276: the object registered for a type. A stored MemberVariable
    carries its own enumNames range (Metadata.h:141). *)
Record metadata := { m_id : Z; m_name : string; m_warp : bool; m_groups : vec; m_vars : vec; m_lookups : vec; m_hybrids : vec }.
Record tables := {
  tb_ptrs : list nat;                  (* GetVectorStorage<const Metadata*>(), as indices of tb_objs *)
  tb_all : vec;                        (* sAllMetadata *)
  tb_objs : list metadata;             (* the static Metadata objects *)
  tb_str : list string;
  tb_var : list (var_decl * vec);
  tb_lk : list lookup_decl;
  tb_hy : list hybrid_decl
}.
Definition tables0 : tables := {| tb_ptrs := []; tb_all := vec0; tb_objs := []; tb_str := []; tb_var := []; tb_lk := []; tb_hy := [] |}.

(** AddVariableEnum (Generator.h:557-606): the enum names, then the member *)
Definition push_names (tbl : list string) (v : vec) (ns : list string) : list string * vec :=
  fold_left (fun p n => push (fst p) (snd p) n) ns (tbl, v).

Definition run_item (st : tables * metadata) (it : item) : tables * metadata :=
  let (T, m) := st in
  match it with
  | IGroup s =>
      let '(tbl, v) := push (tb_str T) (m_groups m) s in
      ({| tb_ptrs := tb_ptrs T; tb_all := tb_all T; tb_objs := tb_objs T; tb_str := tbl; tb_var := tb_var T; tb_lk := tb_lk T; tb_hy := tb_hy T |},
       {| m_id := m_id m; m_name := m_name m; m_warp := m_warp m; m_groups := v; m_vars := m_vars m; m_lookups := m_lookups m; m_hybrids := m_hybrids m |})
  | IVar d =>
      let '(strs, ev) := push_names (tb_str T) vec0 (enum_names d) in
      let '(tbl, v) := push (tb_var T) (m_vars m) (d, ev) in
      ({| tb_ptrs := tb_ptrs T; tb_all := tb_all T; tb_objs := tb_objs T; tb_str := strs; tb_var := tbl; tb_lk := tb_lk T; tb_hy := tb_hy T |},
       {| m_id := m_id m; m_name := m_name m; m_warp := m_warp m; m_groups := m_groups m; m_vars := v; m_lookups := m_lookups m; m_hybrids := m_hybrids m |})
  | ILookup l =>
      let '(tbl, v) := push (tb_lk T) (m_lookups m) l in
      ({| tb_ptrs := tb_ptrs T; tb_all := tb_all T; tb_objs := tb_objs T; tb_str := tb_str T; tb_var := tb_var T; tb_lk := tbl; tb_hy := tb_hy T |},
       {| m_id := m_id m; m_name := m_name m; m_warp := m_warp m; m_groups := m_groups m; m_vars := m_vars m; m_lookups := v; m_hybrids := m_hybrids m |})
  | IHybrid h =>
      let '(tbl, v) := push (tb_hy T) (m_hybrids m) h in
      ({| tb_ptrs := tb_ptrs T; tb_all := tb_all T; tb_objs := tb_objs T; tb_str := tb_str T; tb_var := tb_var T; tb_lk := tb_lk T; tb_hy := tbl |},
       {| m_id := m_id m; m_name := m_name m; m_warp := m_warp m; m_groups := m_groups m; m_vars := m_vars m; m_lookups := m_lookups m; m_hybrids := v |})
  end.

(** Metadata.h:283-298: the base constructor registers the object and takes the id,
    then the derived constructors run *)
Definition register (T : tables) (d : tdecl) : tables :=
  let '(ptrs, all) := push (tb_ptrs T) (tb_all T) (length (tb_objs T)) in
  let id := u8 (u8 (vsize all) - 1) in
  let T := {| tb_ptrs := ptrs; tb_all := all; tb_objs := tb_objs T; tb_str := tb_str T; tb_var := tb_var T; tb_lk := tb_lk T; tb_hy := tb_hy T |} in
  let m := {| m_id := id; m_name := d_name d; m_warp := d_warp d; m_groups := vec0; m_vars := vec0; m_lookups := vec0; m_hybrids := vec0 |} in
  let '(T, m) := fold_left run_item (d_items d) (T, m) in
  {| tb_ptrs := tb_ptrs T; tb_all := tb_all T; tb_objs := tb_objs T ++ [m]; tb_str := tb_str T; tb_var := tb_var T; tb_lk := tb_lk T; tb_hy := tb_hy T |}.

Definition register_all (ds : list tdecl) : tables := fold_left register ds tables0.

(** Metadata.h:194-204  GetFromId ([id] is a uint8_t) *)
Definition get_from_id (T : tables) (id : Z) : res (option metadata) :=
  if id <? vsize (tb_all T)
  then p <- vget (tb_ptrs T) (tb_all T) id ; m <- rd (tb_objs T) p ; Ok (Some m)
  else Ok None.

(** What a reader of the metadata sees by iterating the vectors. *)
Record view := { vw_id : Z; vw_name : string; vw_groups : list string; vw_vars : list (var_decl * list string); vw_lookups : list lookup_decl; vw_hybrids : list hybrid_decl }.
Fixpoint view_vars (T : tables) (l : list (var_decl * vec)) : res (list (var_decl * list string)) :=
  match l with
  | [] => Ok []
  | (d, v) :: l' => ns <- contents (tb_str T) v ; r <- view_vars T l' ; Ok ((d, ns) :: r)
  end.
Definition view_of (T : tables) (m : metadata) : res view :=
  g <- contents (tb_str T) (m_groups m) ;
  vs <- contents (tb_var T) (m_vars m) ;
  vs <- view_vars T vs ;
  ls <- contents (tb_lk T) (m_lookups m) ;
  hs <- contents (tb_hy T) (m_hybrids m) ;
  Ok {| vw_id := m_id m; vw_name := m_name m; vw_groups := g; vw_vars := vs; vw_lookups := ls; vw_hybrids := hs |}.
