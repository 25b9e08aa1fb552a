(** GeneratorCache (Modifiers.inl:279-321) and the evaluation of a node graph that contains such
    nodes. Unlike every other node a cache has state: four [thread_local static] variables per
    instantiation of GenT, i.e. one set per thread and number of coordinates, shared by all
    GeneratorCache nodes. *)
From Coq Require Import ZArith List Bool Arith.
From Verif Require Import Prelude Simd_Model.
Import ListNotations.

(** simdGeneratorPtr: the address of a node (Generator.h:44-58) *)
Definition ptr := nat.

Section Cache.
Context {s : sops} {W : simd}.
Notation F := (F s W). Notation I := (I W).

(** The body of a node that is not a cache: it asks its sources for values (GetSourceValue,
    Generator.inl:48-67) in some order and computes a result. All GenT bodies but GeneratorCache's
    are of this form; they have no state of their own. *)
Inductive prog :=
| Ret (v : F)
| Ask (p : ptr) (seed : I) (pos : list F) (k : F -> prog).
Inductive gnode :=
| Plain (body : I -> list F -> prog)
| Cached (mSource : ptr).
(** The nodes by address. *)
Definition graph := ptr -> gnode.

(** Modifiers.inl:286-289, for one number of coordinates. [CachedGenerator == nullptr] is None. *)
Record tls := { CachedGenerator : option ptr; CachedSeed : I; CachedPos : list F; CachedValue : F }.
(** All thread local variables of one thread: by sizeof...(P) *)
Definition thread := nat -> tls.
Definition set_tls (t : thread) (d : nat) (c : tls) : thread := fun d' => if Nat.eqb d' d then c else t d'.
Definition set_gen (c : tls) (g : option ptr) : tls :=
  {| CachedGenerator := g; CachedSeed := CachedSeed c; CachedPos := CachedPos c; CachedValue := CachedValue c |}.

Definition is_ptr (o : option ptr) (p : ptr) : bool := match o with Some q => Nat.eqb q p | None => false end.
(** Modifiers.inl:294-300 *)
Fixpoint same_pos (a b : list F) : bool :=
  match a, b with x :: a', y :: b' => negb (any (fne x y)) && same_pos a' b' | _, _ => true end.
Definition isSame (c : tls) (src : ptr) (seed : I) (pos : list F) : bool :=
  is_ptr (CachedGenerator c) src && negb (any (ine seed (CachedSeed c))) && same_pos pos (CachedPos c).

(** simdGen->Gen( seed, pos... ): None when the fuel is used up. The thread state is read and
    written in the order of the code: CachedGenerator before the source is evaluated (line 305),
    the rest afterwards (lines 309-315). *)
Fixpoint Gen (fuel : nat) (g : graph) (p : ptr) (seed : I) (pos : list F) (t : thread) : option (F * thread) :=
  match fuel with
  | O => None
  | S fuel' =>
      let fix run (b : prog) (t : thread) : option (F * thread) :=
        match b with
        | Ret v => Some (v, t)
        | Ask q sd ps k => match Gen fuel' g q sd ps t with Some (v, t') => run (k v) t' | None => None end
        end in
      match g p with
      | Plain body => run (body seed pos) t
      | Cached src =>
          let d := length pos in
          if isSame (t d) src seed pos then Some (CachedValue (t d), t)
          else
            let t1 := set_tls t d (set_gen (t d) (Some src)) in
            match Gen fuel' g src seed pos t1 with
            | None => None
            | Some (value, t2) =>
                Some (value, set_tls t2 d {| CachedGenerator := CachedGenerator (t2 d); CachedSeed := seed; CachedPos := pos; CachedValue := value |})
            end
      end
  end.

(** The reference: the same evaluation with every cache replaced by its source. *)
Fixpoint Pure (fuel : nat) (g : graph) (p : ptr) (seed : I) (pos : list F) : option F :=
  match fuel with
  | O => None
  | S fuel' =>
      let fix run (b : prog) : option F :=
        match b with
        | Ret v => Some v
        | Ask q sd ps k => match Pure fuel' g q sd ps with Some v => run (k v) | None => None end
        end in
      match g p with
      | Plain body => run (body seed pos)
      | Cached src => Pure fuel' g src seed pos
      end
  end.
(** A thread at its start: zero-initialised. *)
Definition thread_start (t : thread) : Prop := forall d, CachedGenerator (t d) = None.
(** A sequence of top level queries on one thread *)
Fixpoint queries (fuel : nat) (g : graph) (qs : list (ptr * I * list F)) (t : thread) : option (list F * thread) :=
  match qs with
  | [] => Some ([], t)
  | (p, sd, ps) :: qs' =>
      match Gen fuel g p sd ps t with
      | None => None
      | Some (v, t') => match queries fuel g qs' t' with None => None | Some (vs, t'') => Some (v :: vs, t'') end
      end
  end.
End Cache.
Arguments prog s W : clear implicits.
Arguments gnode s W : clear implicits.
Arguments graph s W : clear implicits.
Arguments tls s W : clear implicits.
Arguments thread s W : clear implicits.
