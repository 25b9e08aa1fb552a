(** Serialisation of node graphs.
    Models src/FastNoise/Metadata.cpp:88-632 and include/FastNoise/Metadata.h:308-360.
    Simplifications (all definitions): the class hierarchy is reduced to "is a
    DomainWarp / is not" (the only dynamic_cast distinction the registry makes);
    CreateNode is assumed to succeed (it fails only for an unsupported SIMD level);
    the C++ call stack is unbounded; [int streamPos] and [int nodeEndStack] are
    unbounded naturals (streams below 2 GiB); unordered_map/unordered_set are
    association lists. *)
From Coq Require Import ZArith List Bool Lia.
From Verif Require Import Prelude Registry_Model Base64_Model.
Import ListNotations.
Open Scope Z_scope.

(** Metadata.h:312-345  NodeData. A pointer to another NodeData is an index into
    the heap ([None] = nullptr); an index outside the heap is a dangling pointer.
    [nd_meta] is [metadata->id] ([None] = null metadata). Variable and float
    values are 32-bit patterns. *)
Record node_data := {
  nd_meta : option nat;
  nd_vars : list Z;
  nd_lookups : list (option nat);
  nd_hybrids : list (option nat * Z)
}.

Definition heap := list node_data.

(** Metadata.h:317-333  NodeData::NodeData( const Metadata* ) *)
Definition new_node_data (id : nat) (t : node_type) : node_data :=
  {| nd_meta := Some id;
     nd_vars := map v_default (t_vars t);
     nd_lookups := map (fun _ => None) (t_lookups t);
     nd_hybrids := map (fun h => (None, h_default h)) (t_hybrids t) |}.

(** IEEE binary32 [a != b] on bit patterns: NaN differs from everything, the two
    zeros are equal. *)
Definition f32_nan (v : Z) : bool := 0x7F800000 <? v mod 2^31.
Definition f32_zero (v : Z) : bool := v mod 2^31 =? 0.
Definition f32_neq (a b : Z) : bool :=
  f32_nan a || f32_nan b || (negb (a =? b) && negb (f32_zero a && f32_zero b)).

(** ** The writer *)

(** Metadata.cpp:88-106  MemberLookup: type in the low 3 bits, index in the high 5 *)
Definition TypeVariable : Z := 0.
Definition TypeLookup : Z := 1.
Definition TypeHybridLookup : Z := 2.
Definition TypeHybridVariable : Z := 3.
Definition NodeEnd : Z := 4.
Definition member_byte (ty idx : Z) : Z := ty mod 8 + 8 * (idx mod 32).
Definition member_type (b : Z) : Z := b mod 8.
Definition member_index (b : Z) : Z := b / 8.

(** Metadata.cpp:108-113  DataStream as used by the writer *)
Record wstream := { w_bytes : list Z; w_end : Z }.

(** Metadata.cpp:118-129 *)
Definition check_node_end (w : wstream) : wstream :=
  if 0 <? w_end w
  then {| w_bytes := w_bytes w ++ [member_byte NodeEnd (u8 (w_end w) - 1)]; w_end := 0 |}
  else w.

(** Metadata.cpp:131-140: [n] = sizeof(T), little endian *)
Fixpoint le_bytes (n : nat) (v : Z) : list Z :=
  match n with O => [] | S n' => v mod 256 :: le_bytes n' (v / 256) end.
Definition add_bytes (w : wstream) (bs : list Z) : wstream :=
  let w := check_node_end w in {| w_bytes := w_bytes w ++ bs; w_end := w_end w |}.
Definition add_value (w : wstream) (size : nat) (v : Z) : wstream := add_bytes w (le_bytes size v).

(** Metadata.cpp:142-149 *)
Definition add_member (w : wstream) (ty : Z) (idx : nat) : wstream :=
  add_value w 1 (member_byte ty (u8 (Z.of_nat idx))).

(** Metadata.cpp:151-158 *)
Definition add_node_end (w : wstream) : wstream :=
  let w := {| w_bytes := w_bytes w; w_end := w_end w + 1 |} in
  if w_end w <? 32 then w else check_node_end w.

(** State of SerialiseNodeDataInternal: the graph (mutated when fixUp), the output
    and [referenceIds] (insertion order). *)
Record ser_state := { s_heap : heap; s_out : wstream; s_refs : list (nat * Z) }.
Definition with_out (s : ser_state) (w : wstream) : ser_state :=
  {| s_heap := s_heap s; s_out := w; s_refs := s_refs s |}.
Definition with_heap (s : ser_state) (h : heap) : ser_state :=
  {| s_heap := h; s_out := s_out s; s_refs := s_refs s |}.

Fixpoint assoc (n : nat) (l : list (nat * Z)) : option Z :=
  match l with [] => None | (k, v) :: t => if Nat.eqb k n then Some v else assoc n t end.
Definition mem (n : nat) (l : list nat) : bool := existsb (Nat.eqb n) l.

(** Metadata.cpp:181-194: null any dependency loops *)
Definition null_dep (deps : list nat) (p : option nat) : option nat :=
  match p with Some m => if mem m deps then None else Some m | None => None end.
Definition null_loops (deps : list nat) (nd : node_data) : node_data :=
  {| nd_meta := nd_meta nd; nd_vars := nd_vars nd;
     nd_lookups := map (null_dep deps) (nd_lookups nd);
     nd_hybrids := map (fun p => (null_dep deps (fst p), snd p)) (nd_hybrids nd) |}.

(** Metadata.cpp:216-224: member variables loop *)
Fixpoint ser_vars (w : wstream) (i : nat) (vs : list Z) (ds : list var_decl) : wstream :=
  match vs, ds with
  | v :: vs', d :: ds' =>
      ser_vars (if v =? v_default d then w else add_value (add_member w TypeVariable i) 4 v) (S i) vs' ds'
  | _, _ => w
  end.

(** Metadata.cpp:239, 272: the type of the node a source pointer refers to
    ([...]->metadata->CreateNode()); null metadata is a null dereference. *)
Definition node_type_of (reg : list node_type) (h : heap) (m : nat) : res node_type :=
  md <- rd h m ;
  match nd_meta md with None => UB | Some id => rd reg id end.

(** Generator.h:636-648: AddGeneratorSource's setFunc succeeds iff the
    dynamic_cast of the source succeeds *)
Definition accepts (l : lookup_decl) (t : node_type) : bool := negb (l_warp l) || t_warp t.

Definition set_lookup (nd : node_data) (i : nat) (p : option nat) : node_data :=
  {| nd_meta := nd_meta nd; nd_vars := nd_vars nd; nd_lookups := upd (nd_lookups nd) i p; nd_hybrids := nd_hybrids nd |}.

Section Rec.
  (** the recursive call of SerialiseNodeDataInternal with the current
      [dependencies] *)
  Variable rec : ser_state -> nat -> res (bool * ser_state).
  Variable reg : list node_type.
  Variable fixUp : bool.
  Variable n : nat.

  (** Metadata.cpp:232-249: member nodes loop, from index [i] *)
  Fixpoint ser_lookups (i : nat) (ls : list lookup_decl) (s : ser_state) : res (bool * ser_state) :=
    match ls with
    | [] => Ok (true, s)
    | l :: ls' =>
        nd <- rd (s_heap s) n ;
        p <- rd (nd_lookups nd) i ;
        match p with
        | None => Ok (false, s)
        | Some m =>
            ok <- (if fixUp then t <- node_type_of reg (s_heap s) m ; Ok (accepts l t) else Ok true) ;
            if ok then
              ' (b, s) <- rec s m ;
              if b then ser_lookups (S i) ls' s else Ok (false, s)
            else Ok (false, with_heap s (upd (s_heap s) n (set_lookup nd i None)))
        end
    end.

  (** Metadata.cpp:252-287: member hybrids loop. The setNodeFunc test at 274 always
      succeeds: every hybrid member accepts any Generator (Generator.h:695-707). *)
  Fixpoint ser_hybrids (i : nat) (hs : list hybrid_decl) (s : ser_state) : res (bool * ser_state) :=
    match hs with
    | [] => Ok (true, s)
    | d :: hs' =>
        nd <- rd (s_heap s) n ;
        p <- rd (nd_hybrids nd) i ;
        match fst p with
        | None =>
            let s := if f32_neq (snd p) (h_default d)
                     then with_out s (add_value (add_member (s_out s) TypeHybridVariable i) 4 (snd p)) else s in
            ser_hybrids (S i) hs' s
        | Some m =>
            _ <- (if fixUp then t <- node_type_of reg (s_heap s) m ; Ok tt else Ok tt) ;
            ' (b, s) <- rec (with_out s (add_member (s_out s) TypeHybridLookup i)) m ;
            if b then ser_hybrids (S i) hs' s else Ok (false, s)
        end
    end.
End Rec.

(** Metadata.cpp:161-295  SerialiseNodeDataInternal *)
Fixpoint ser (fuel : nat) (reg : list node_type) (fixUp : bool) (deps : list nat) (s : ser_state) (n : nat)
  : res (bool * ser_state) :=
  match fuel with
  | O => NoFuel
  | S f =>
    nd <- rd (s_heap s) n ;
    match nd_meta nd with
    | None => Ok (false, s)
    | Some id =>
      t <- rd reg id ;
      if negb (Nat.eqb (length (nd_vars nd)) (length (t_vars t)) &&
               Nat.eqb (length (nd_lookups nd)) (length (t_lookups t)) &&
               Nat.eqb (length (nd_hybrids nd)) (length (t_hybrids t)))
      then Ok (false, s)
      else
        let deps := if fixUp then n :: deps else deps in
        let nd := if fixUp then null_loops deps nd else nd in
        let s := if fixUp then with_heap s (upd (s_heap s) n nd) else s in
        match assoc n (s_refs s) with
        | Some r => Ok (true, with_out s (add_value (add_value (s_out s) 1 255) 2 r))
        | None =>
            let w := add_value (s_out s) 1 (Z.of_nat id) in
            let w := ser_vars w 0 (nd_vars nd) (t_vars t) in
            let w := if Nat.eqb (length (t_lookups t)) 0 then w else add_member w TypeLookup (length (t_lookups t)) in
            ' (b, s) <- ser_lookups (ser f reg fixUp deps) reg fixUp n 0 (t_lookups t) (with_out s w) ;
            if negb b then Ok (false, s) else
            ' (b, s) <- ser_hybrids (ser f reg fixUp deps) reg fixUp n 0 (t_hybrids t) s ;
            if negb b then Ok (false, s) else
            (* emplace does nothing if the key is present *)
            let refs := match assoc n (s_refs s) with
                        | Some _ => s_refs s
                        | None => s_refs s ++ [(n, u16 (Z.of_nat (length (s_refs s))))] end in
            Ok (true, {| s_heap := s_heap s; s_out := add_node_end (s_out s); s_refs := refs |})
        end
    end
  end.

(** Metadata.cpp:297-308  Metadata::SerialiseNodeData: the string ([] = "") and the
    graph after the call. *)
Definition serialise (fuel : nat) (reg : list node_type) (h : heap) (root : nat) (fixUp : bool) : res (list Z * heap) :=
  ' (b, s) <- ser fuel reg fixUp [] {| s_heap := h; s_out := {| w_bytes := []; w_end := 0 |}; s_refs := [] |} root ;
  if b then str <- encode (w_bytes (check_node_end (s_out s))) ; Ok (str, s_heap s)
  else Ok ([], s_heap s).

(** ** The reader *)

(** Metadata.cpp:108-113  DataStream as used by the reader; the bytes [d] are
    constant. *)
Record rstream := { r_pos : nat; r_end : Z }.

(** the reinterpret_cast read of Metadata.cpp:323: [n] bytes at [pos] *)
Fixpoint read_le (d : list Z) (pos n : nat) : res Z :=
  match n with
  | O => Ok 0
  | S n' => b <- rd d pos ; v <- read_le d (S pos) n' ; Ok (b + 256 * v)
  end.

(** Metadata.cpp:310-327  GetFromDataStream<T>, n = sizeof(T) *)
Definition get_value (d : list Z) (n : nat) (r : rstream) : res (option Z * rstream) :=
  if 0 <? r_end r then Ok (None, r)
  else if (length d <? r_pos r + n)%nat then Ok (None, r)
  else v <- read_le d (r_pos r) n ; Ok (Some v, {| r_pos := r_pos r + n; r_end := r_end r |}).

(** Metadata.cpp:329-353  GetFromDataStream<MemberLookup>: returns (type, index).
    On a pending node end the C++ leaves [index] unchanged; it is not used then. *)
Definition get_member (d : list Z) (r : rstream) : res (option (Z * nat) * rstream) :=
  if 0 <? r_end r then Ok (Some (NodeEnd, 0%nat), {| r_pos := r_pos r; r_end := r_end r - 1 |})
  else if (length d <? r_pos r + 1)%nat then Ok (None, r)
  else b <- rd d (r_pos r) ;
       let ty := member_type b in let ix := member_index b in
       Ok (Some (ty, Z.to_nat ix), {| r_pos := r_pos r + 1; r_end := if ty =? NodeEnd then ix else r_end r |}).

Definition set_var (nd : node_data) (i : nat) (v : Z) : node_data :=
  {| nd_meta := nd_meta nd; nd_vars := upd (nd_vars nd) i v; nd_lookups := nd_lookups nd; nd_hybrids := nd_hybrids nd |}.
Definition set_hybrid (nd : node_data) (i : nat) (p : option nat * Z) : node_data :=
  {| nd_meta := nd_meta nd; nd_vars := nd_vars nd; nd_lookups := nd_lookups nd; nd_hybrids := upd (nd_hybrids nd) i p |}.

(** Metadata.cpp:551-569 (and 395-412, where setFunc stores the value in the member):
    the member variables loop. Returns the first member lookup which is not a
    variable, or None when the stream ended. *)
Fixpoint des_vars (fuel : nat) (d : list Z) (t : node_type) (m : Z * nat) (nd : node_data) (r : rstream)
  : res (option ((Z * nat) * node_data) * rstream) :=
  match fuel with
  | O => NoFuel
  | S f =>
    if fst m =? TypeVariable then
      ' (v, r) <- get_value d 4 r ;
      match v with
      | None => Ok (None, r)
      | Some v =>
          nd <- (if (snd m <? length (t_vars t))%nat
                 then _ <- rd (nd_vars nd) (snd m) ; Ok (set_var nd (snd m) v) else Ok nd) ;
          ' (m', r) <- get_member d r ;
          match m' with None => Ok (None, r) | Some m' => des_vars f d t m' nd r end
      end
    else Ok (Some (m, nd), r)
  end.

Section DesRec.
  (** recursive call of DeserialiseNodeDataInternal *)
  Variable rec : rstream -> heap -> res (option nat * rstream * heap).
  Variable d : list Z.
  Variable t : node_type.

  (** Metadata.cpp:574-583: the lookups loops, [k] iterations left, from index [i] *)
  Fixpoint des_lookups (k i : nat) (nd : node_data) (r : rstream) (out : heap) : res (node_data * rstream * heap) :=
    match k with
    | O => Ok (nd, r, out)
    | S k' =>
        ' (p, r, out) <- rec r out ;
        nd <- (if (i <? length (t_lookups t))%nat
               then _ <- rd (nd_lookups nd) i ; Ok (set_lookup nd i p) else Ok nd) ;
        des_lookups k' (S i) nd r out
    end.

  (** Metadata.cpp:591-622: the hybrids loop; None = return nullptr *)
  Fixpoint des_hybrids (fuel : nat) (m : Z * nat) (nd : node_data) (r : rstream) (out : heap)
    : res (option node_data * rstream * heap) :=
    match fuel with
    | O => NoFuel
    | S f =>
      if fst m =? NodeEnd then Ok (Some nd, r, out)
      else
        ' (nd', r, out) <-
          (if fst m =? TypeHybridLookup then
             ' (p, r, out) <- rec r out ;
             nd <- (if (snd m <? length (t_hybrids t))%nat
                    then old <- rd (nd_hybrids nd) (snd m) ; Ok (set_hybrid nd (snd m) (p, snd old)) else Ok nd) ;
             Ok (Some nd, r, out)
           else if fst m =? TypeHybridVariable then
             ' (v, r) <- get_value d 4 r ;
             match v with
             | None => Ok (None, r, out)
             | Some v =>
                 nd <- (if (snd m <? length (t_hybrids t))%nat
                        then old <- rd (nd_hybrids nd) (snd m) ; Ok (set_hybrid nd (snd m) (fst old, v)) else Ok nd) ;
                 Ok (Some nd, r, out)
             end
           else Ok (Some nd, r, out)) ;
        match nd' with
        | None => Ok (None, r, out)
        | Some nd =>
            ' (m', r) <- get_member d r ;
            match m' with None => Ok (None, r, out) | Some m' => des_hybrids f m' nd r out end
        end
    end.
End DesRec.

(** Metadata.cpp:508-625  DeserialiseNodeDataInternal. Result: the node (index
    into nodeDataOut; None = nullptr), stream state, nodeDataOut. *)
Fixpoint des (fuel : nat) (reg : list node_type) (d : list Z) (r : rstream) (out : heap)
  : res (option nat * rstream * heap) :=
  match fuel with
  | O => NoFuel
  | S f =>
    ' (id, r) <- get_value d 1 r ;
    match id with
    | None => Ok (None, r, out)
    | Some id =>
      if id =? 255 then
        ' (ref, r) <- get_value d 2 r ;
        match ref with
        | None => Ok (None, r, out)
        | Some ref =>
            if (length out <=? Z.to_nat ref)%nat then Ok (None, r, out)
            else _ <- rd out (Z.to_nat ref) ; Ok (Some (Z.to_nat ref), r, out)
        end
      else if (length reg <=? Z.to_nat id)%nat then Ok (None, r, out)   (* Metadata::GetFromId, Metadata.h:194-204 *)
      else
        t <- rd reg (Z.to_nat id) ;
        ' (m, r) <- get_member d r ;
        match m with
        | None => Ok (None, r, out)
        | Some m =>
          ' (mv, r) <- des_vars f d t m (new_node_data (Z.to_nat id) t) r ;
          match mv with
          | None => Ok (None, r, out)
          | Some (m, nd) =>
            ' (ml, r, out) <-
              (if fst m =? TypeLookup then
                 ' (nd, r, out) <- des_lookups (des f reg d) t (snd m) 0 nd r out ;
                 ' (m', r) <- get_member d r ;
                 Ok (match m' with None => None | Some m' => Some (m', nd) end, r, out)
               else Ok (Some (m, nd), r, out)) ;
            match ml with
            | None => Ok (None, r, out)
            | Some (m, nd) =>
              ' (nd, r, out) <- des_hybrids (des f reg d) d t f m nd r out ;
              match nd with
              | None => Ok (None, r, out)
              | Some nd => Ok (Some (length out), r, out ++ [nd])
              end
            end
          end
        end
    end
  end.

(** Metadata.cpp:627-632  Metadata::DeserialiseNodeData, [out0] is the caller's
    nodeDataOut before the call *)
Definition deserialise_into (reg : list node_type) (s : list Z) (out0 : heap) : res (option nat * heap) :=
  d <- decode s ;
  ' (p, _, out) <- des (S (length d)) reg d {| r_pos := 0; r_end := 0 |} out0 ;
  Ok (p, out).
Definition deserialise (reg : list node_type) (s : list Z) : res (option nat * heap) := deserialise_into reg s [].

(** ** Building generators directly *)

(** A generator object: same shape as [node_data]; a variable holds the last value
    given to its setter or the class initialiser; a hybrid holds (source, constant)
    (Generator.h:143-148). *)
Definition new_generator (id : nat) (t : node_type) : node_data :=
  {| nd_meta := Some id;
     nd_vars := map v_class (t_vars t);
     nd_lookups := map (fun _ => None) (t_lookups t);
     nd_hybrids := map (fun h => (None, h_class h)) (t_hybrids t) |}.

(** Heap of generators (in creation-completion order) and referenceNodes. *)
Record gen_state := { g_heap : heap; g_refs : list nat }.

(** New<Constant>(): Constant is the type with id 0 of the registry
    (FastSIMD_Build.inl:86), value 1 (BasicGenerators.h:137). *)
Definition constant_generator : node_data :=
  {| nd_meta := Some 0%nat; nd_vars := [f_1]; nd_lookups := []; nd_hybrids := [] |}.

Section GenRec.
  Variable rec : rstream -> gen_state -> res (option nat * rstream * gen_state).
  Variable reg : list node_type.
  Variable d : list Z.
  Variable t : node_type.

  (** Metadata.cpp:426-442: the two first lookups loops; None = return nullptr *)
  Fixpoint gen_lookups (k i : nat) (nd : node_data) (r : rstream) (g : gen_state)
    : res (option node_data * rstream * gen_state) :=
    match k with
    | O => Ok (Some nd, r, g)
    | S k' =>
        ' (p, r, g) <- rec r g ;
        match p with
        | None => Ok (None, r, g)
        | Some m =>
            ok <- (match nth_error (t_lookups t) i with
                   | Some l => ct <- node_type_of reg (g_heap g) m ;
                               if accepts l ct then _ <- rd (nd_lookups nd) i ; Ok (Some (set_lookup nd i (Some m)))
                               else Ok None
                   | None => Ok (Some nd)
                   end) ;
            match ok with
            | None => Ok (None, r, g)
            | Some nd => gen_lookups k' (S i) nd r g
            end
        end
    end.

  (** Metadata.cpp:443-450: fill remaining lookups with dummy Constant nodes;
      [ls] are the remaining lookup members, from index [i] *)
  Fixpoint gen_fill (i : nat) (ls : list lookup_decl) (nd : node_data) (g : gen_state) : res (option node_data * gen_state) :=
    match ls with
    | [] => Ok (Some nd, g)
    | l :: ls' =>
        let m := length (g_heap g) in
        let g := {| g_heap := g_heap g ++ [constant_generator]; g_refs := g_refs g |} in
        ct <- node_type_of reg (g_heap g) m ;
        if accepts l ct then
          _ <- rd (nd_lookups nd) i ;
          gen_fill (S i) ls' (set_lookup nd i (Some m)) g
        else Ok (None, g)
    end.

  (** Metadata.cpp:459-492: hybrids loop. setNodeFunc keeps the constant
      (Generator.h:431-441), setValueFunc replaces the whole hybrid
      (Generator.h:143-148). *)
  Fixpoint gen_hybrids (fuel : nat) (m : Z * nat) (nd : node_data) (r : rstream) (g : gen_state)
    : res (option node_data * rstream * gen_state) :=
    match fuel with
    | O => NoFuel
    | S f =>
      if fst m =? NodeEnd then Ok (Some nd, r, g)
      else
        ' (nd', r, g) <-
          (if fst m =? TypeHybridLookup then
             ' (p, r, g) <- rec r g ;
             if (snd m <? length (t_hybrids t))%nat then
               match p with
               | None => Ok (None, r, g)
               | Some c => old <- rd (nd_hybrids nd) (snd m) ;
                           Ok (Some (set_hybrid nd (snd m) (Some c, snd old)), r, g)
               end
             else Ok (Some nd, r, g)
           else if fst m =? TypeHybridVariable then
             ' (v, r) <- get_value d 4 r ;
             match v with
             | None => Ok (None, r, g)
             | Some v =>
                 nd <- (if (snd m <? length (t_hybrids t))%nat
                        then old <- rd (nd_hybrids nd) (snd m) ; Ok (set_hybrid nd (snd m) (None, v)) else Ok nd) ;
                 Ok (Some nd, r, g)
             end
           else Ok (Some nd, r, g)) ;
        match nd' with
        | None => Ok (None, r, g)
        | Some nd =>
            ' (m', r) <- get_member d r ;
            match m' with None => Ok (None, r, g) | Some m' => gen_hybrids f m' nd r g end
        end
    end.
End GenRec.

(** Metadata.cpp:355-497  DeserialiseSmartNodeInternal *)
Fixpoint gen (fuel : nat) (reg : list node_type) (d : list Z) (r : rstream) (g : gen_state)
  : res (option nat * rstream * gen_state) :=
  match fuel with
  | O => NoFuel
  | S f =>
    ' (id, r) <- get_value d 1 r ;
    match id with
    | None => Ok (None, r, g)
    | Some id =>
      if id =? 255 then
        ' (ref, r) <- get_value d 2 r ;
        match ref with
        | None => Ok (None, r, g)
        | Some ref =>
            if (length (g_refs g) <=? Z.to_nat ref)%nat then Ok (None, r, g)
            else p <- rd (g_refs g) (Z.to_nat ref) ; Ok (Some p, r, g)
        end
      else if (length reg <=? Z.to_nat id)%nat then Ok (None, r, g)
      else
        t <- rd reg (Z.to_nat id) ;
        ' (m, r) <- get_member d r ;
        match m with
        | None => Ok (None, r, g)
        | Some m =>
          ' (mv, r) <- des_vars f d t m (new_generator (Z.to_nat id) t) r ;
          match mv with
          | None => Ok (None, r, g)
          | Some (m, nd) =>
            ' (ml, r, g) <-
              (if fst m =? TypeLookup then
                 ' (nd, r, g) <- gen_lookups (gen f reg d) reg t (snd m) 0 nd r g ;
                 match nd with
                 | None => Ok (None, r, g)
                 | Some nd =>
                   ' (nd, g) <- gen_fill reg (snd m) (skipn (snd m) (t_lookups t)) nd g ;
                   match nd with
                   | None => Ok (None, r, g)
                   | Some nd =>
                     ' (m', r) <- get_member d r ;
                     Ok (match m' with None => None | Some m' => Some (m', nd) end, r, g)
                   end
                 end
               else Ok (Some (m, nd), r, g)) ;
            match ml with
            | None => Ok (None, r, g)
            | Some (m, nd) =>
              ' (nd, r, g) <- gen_hybrids (gen f reg d) d t f m nd r g ;
              match nd with
              | None => Ok (None, r, g)
              | Some nd =>
                  let p := length (g_heap g) in
                  Ok (Some p, r, {| g_heap := g_heap g ++ [nd]; g_refs := g_refs g ++ [p] |})
              end
            end
          end
        end
    end
  end.

(** Metadata.cpp:499-506  NewFromEncodedNodeTree *)
Definition new_from_encoded (reg : list node_type) (s : list Z) : res (option nat * heap) :=
  d <- decode s ;
  ' (p, _, g) <- gen (S (length d)) reg d {| r_pos := 0; r_end := 0 |} {| g_heap := []; g_refs := [] |} ;
  Ok (p, g_heap g).
