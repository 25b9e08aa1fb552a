(** The arithmetic the node code is written in.

    The node sources (include/FastNoise/Generators/*.inl) are written over the types
    [float32v], [int32v], [mask32v] of the FastSIMD library (Generator.inl:10-13), whose
    sources are not part of /repo.  Modelling assumption: every FastSIMD operation used is
    lane-wise, i.e. lane l of the result is one fixed scalar operation on lane l of the
    operands.  The scalar operations on floats are the fields of a record [sops], so every
    theorem says what it needs of them; the integer operations are two's complement on 32
    bits.  A SIMD width is a record [simd]: registers [T A] of lanes of type A. *)
From Coq Require Import ZArith List Bool.
From Verif Require Import Prelude.
Import ListNotations.
Open Scope Z_scope.

(** Scalar [float] and the scalar version of each FastSIMD float operation. *)
Record sops := {
  V : Type;                       (* float *)
  lit : Z -> Z -> V;              (* the float literal m * 2^e *)
  s_inf : V;                      (* kInfinity, Generator.h:73 *)
  s_add : V -> V -> V;
  s_sub : V -> V -> V;
  s_mul : V -> V -> V;
  s_div : V -> V -> V;
  s_neg : V -> V;
  s_fma : V -> V -> V -> V;       (* FS::FMulAdd( a, b, c ) =  a * b + c *)
  s_fms : V -> V -> V -> V;       (* FS::FMulSub( a, b, c ) =  a * b - c *)
  s_fnma : V -> V -> V -> V;      (* FS::FNMulAdd( a, b, c ) = -a * b + c *)
  s_min : V -> V -> V;
  s_max : V -> V -> V;
  s_abs : V -> V;
  s_floor : V -> V;
  s_round : V -> V;               (* FS::Round, to nearest *)
  s_sqrt : V -> V;
  s_invsqrt : V -> V;
  s_recip : V -> V;
  s_sin : V -> V;
  s_cos : V -> V;
  s_pow : V -> V -> V;
  s_fmod : V -> V -> V;           (* FS::Modulus *)
  s_ssqrt : V -> V -> V;          (* a | SignBit( b ), for a without sign *)
  s_lt : V -> V -> bool;
  s_le : V -> V -> bool;
  s_eq : V -> V -> bool;
  s_ofint : Z -> V;               (* FS::Convert<float>( int ) *)
  s_toint : V -> Z;               (* FS::Convert<int32_t>( float ), to nearest *)
  s_bits : V -> Z;                (* FS::Cast<int32_t>( float ), as a signed number *)
  s_ofbits : Z -> V               (* FS::Cast<float>( int32_t ) *)
}.

(** Two's complement 32 bit integers, represented by their signed value. *)
Definition z_add (a b : Z) := s32 (a + b).
Definition z_sub (a b : Z) := s32 (a - b).
Definition z_mul (a b : Z) := s32 (a * b).
Definition z_shl (k : Z) (a : Z) := s32 (a * 2^k).              (* << k *)
Definition z_shr (k : Z) (a : Z) := a / 2^k.                    (* >> k, arithmetic *)
Definition z_ushr (k : Z) (a : Z) := s32 (u32 a / 2^k).         (* BitShiftRightZeroExtend *)

(** A SIMD register shape. [any] is FS::AnyMask. *)
Record simd := {
  T : Type -> Type;
  pure : forall A, A -> T A;
  map1 : forall A B, (A -> B) -> T A -> T B;
  map2 : forall A B C, (A -> B -> C) -> T A -> T B -> T C;
  map3 : forall A B C D, (A -> B -> C -> D) -> T A -> T B -> T C -> T D;
  any : T bool -> bool
}.

(** One lane: kRegisterSize is never 1 in the code; this is the reference semantics. *)
Definition scalar : simd := {|
  T := fun A => A; pure := fun A a => a;
  map1 := fun A B f => f; map2 := fun A B C f => f; map3 := fun A B C D f => f;
  any := fun b => b |}.

(** [n] lanes: kRegisterSize (Generator.inl:10), 4, 8, 16 or 32 depending on the target. *)
Definition lanes (n : nat) : simd := {|
  T := fun A => nat -> A; pure := fun A a _ => a;
  map1 := fun A B f a l => f (a l);
  map2 := fun A B C f a b l => f (a l) (b l);
  map3 := fun A B C D f a b c l => f (a l) (b l) (c l);
  any := fun m => existsb m (seq 0 n) |}.

Arguments lit {s}. Arguments s_inf {s}. Arguments s_add {s}. Arguments s_sub {s}. Arguments s_mul {s}.
Arguments s_div {s}. Arguments s_neg {s}. Arguments s_fma {s}. Arguments s_fms {s}. Arguments s_fnma {s}. Arguments s_min {s}.
Arguments s_max {s}. Arguments s_abs {s}. Arguments s_floor {s}. Arguments s_round {s}. Arguments s_sqrt {s}.
Arguments s_invsqrt {s}. Arguments s_recip {s}. Arguments s_sin {s}. Arguments s_cos {s}. Arguments s_pow {s}.
Arguments s_fmod {s}. Arguments s_ssqrt {s}. Arguments s_lt {s}. Arguments s_le {s}. Arguments s_eq {s}. Arguments s_ofint {s}.
Arguments s_toint {s}. Arguments s_bits {s}. Arguments s_ofbits {s}.
Arguments pure {s A}. Arguments map1 {s A B}. Arguments map2 {s A B C}. Arguments map3 {s A B C D}. Arguments any {s}.

(** ** FastSIMD operations, lifted to registers *)
Section Ops.
Context {s : sops} {W : simd}.
Definition F : Type := T W (V s).     (* float32v *)
Definition I : Type := T W Z.         (* int32v *)
Definition M : Type := T W bool.      (* mask32v *)

Definition fv (c : V s) : F := pure c.               (* float32v( c ) *)
Definition iv (c : Z) : I := pure (s32 c).           (* int32v( c ) *)
Definition fadd (a b : F) : F := map2 s_add a b.
Definition fsub (a b : F) : F := map2 s_sub a b.
Definition fmul (a b : F) : F := map2 s_mul a b.
Definition fdiv (a b : F) : F := map2 s_div a b.
Definition fneg (a : F) : F := map1 s_neg a.
Definition fmadd (a b c : F) : F := map3 s_fma a b c.
Definition fmsub (a b c : F) : F := map3 s_fms a b c.
Definition fnmadd (a b c : F) : F := map3 s_fnma a b c.
Definition fmin (a b : F) : F := map2 s_min a b.
Definition fmax (a b : F) : F := map2 s_max a b.
Definition fabs (a : F) : F := map1 s_abs a.
Definition ffloor (a : F) : F := map1 s_floor a.
Definition fround (a : F) : F := map1 s_round a.
Definition fsqrt (a : F) : F := map1 s_sqrt a.
Definition finvsqrt (a : F) : F := map1 s_invsqrt a.
Definition frecip (a : F) : F := map1 s_recip a.
Definition fsin (a : F) : F := map1 s_sin a.
Definition fcos (a : F) : F := map1 s_cos a.
Definition fpow (a b : F) : F := map2 s_pow a b.
Definition ffmod (a b : F) : F := map2 s_fmod a b.
Definition for_sign (a b : F) : F := map2 s_ssqrt a b.           (* a | FS::SignBit( b ) *)
Definition flt (a b : F) : M := map2 s_lt a b.
Definition fle (a b : F) : M := map2 s_le a b.
Definition fgt (a b : F) : M := map2 (fun x y => s_lt y x) a b.
Definition fge (a b : F) : M := map2 (fun x y => s_le y x) a b.
Definition feq (a b : F) : M := map2 s_eq a b.
Definition fne (a b : F) : M := map2 (fun x y => negb (s_eq x y)) a b.
Definition of_int (a : I) : F := map1 s_ofint a.                 (* FS::Convert<float> *)
Definition to_int (a : F) : I := map1 s_toint a.                 (* FS::Convert<int32_t> *)
Definition cast_i (a : F) : I := map1 s_bits a.                  (* FS::Cast<int32_t>( float ) *)
Definition cast_f (a : I) : F := map1 s_ofbits a.                (* FS::Cast<float>( int ) *)
(** [f ^ FS::Cast<float>( i )] for [i] with no bit but the sign bit *)
Definition fxor_sign (f : F) (i : I) : F := map2 (fun x (z : Z) => if z <? 0 then s_neg x else x) f i.

Definition iadd (a b : I) : I := map2 z_add a b.
Definition isub (a b : I) : I := map2 z_sub a b.
Definition imul (a b : I) : I := map2 z_mul a b.
Definition iand (a b : I) : I := map2 Z.land a b.
Definition ior (a b : I) : I := map2 Z.lor a b.
Definition ixor (a b : I) : I := map2 Z.lxor a b.
Definition ishl (a : I) (k : Z) : I := map1 (z_shl k) a.
Definition ishr (a : I) (k : Z) : I := map1 (z_shr k) a.
Definition iushr (a : I) (k : Z) : I := map1 (z_ushr k) a.
Definition ieq (a b : I) : M := map2 Z.eqb a b.
Definition ilt (a b : I) : M := map2 Z.ltb a b.
Definition igt (a b : I) : M := map2 Z.gtb a b.
Definition ige (a b : I) : M := map2 Z.geb a b.
Definition ine (a b : I) : M := map2 (fun x y => negb (x =? y)) a b.

Definition mor (a b : M) : M := map2 orb a b.
Definition mand (a b : M) : M := map2 andb a b.
Definition mxor (a b : M) : M := map2 xorb a b.
Definition mnot (a : M) : M := map1 negb a.
Definition mandnot (a b : M) : M := map2 (fun x y => x && negb y) a b.        (* FS::BitwiseAndNot( a, b ) = a & ~b *)
(** FS::Cast<int32_t>( mask ): all bits set or none *)
Definition cast_m (m : M) : I := map1 (fun b : bool => if b then -1 else 0) m.
(** FS::Cast<Mask>( i ): only the sign bit is looked at by the blends that consume it *)
Definition mask_hb (i : I) : M := map1 (fun z : Z => z <? 0) i.

Definition fsel (m : M) (a b : F) : F := map3 (fun (c : bool) x y => if c then x else y) m a b.   (* FS::Select *)
Definition isel (m : M) (a b : I) : I := map3 (fun (c : bool) x y => if c then x else y) m a b.
Definition fsel_hb (i : I) (a b : F) : F := map3 (fun (z : Z) x y => if z <? 0 then x else y) i a b. (* FS::SelectHighBit *)
Definition fmasked (m : M) (a : F) : F := map2 (fun (c : bool) x => if c then x else lit 0 0) m a.        (* FS::Masked *)
Definition finvmasked (m : M) (a : F) : F := map2 (fun (c : bool) x => if c then lit 0 0 else x) m a.     (* FS::InvMasked *)
Definition imasked (m : M) (a : I) : I := map2 (fun (c : bool) x => if c then x else 0) m a.
Definition iinvmasked (m : M) (a : I) : I := map2 (fun (c : bool) x => if c then 0 else x) m a.
(** FS::MaskedOp( m, a, b ) = m ? a op b : a *)
Definition fmasked_add (m : M) (a b : F) : F := map3 (fun (c : bool) x y => if c then s_add x y else x) m a b.
Definition finvmasked_add (m : M) (a b : F) : F := map3 (fun (c : bool) x y => if c then x else s_add x y) m a b.
Definition fmasked_sub (m : M) (a b : F) : F := map3 (fun (c : bool) x y => if c then s_sub x y else x) m a b.
Definition finvmasked_sub (m : M) (a b : F) : F := map3 (fun (c : bool) x y => if c then x else s_sub x y) m a b.
Definition fmasked_mul (m : M) (a b : F) : F := map3 (fun (c : bool) x y => if c then s_mul x y else x) m a b.
Definition fmasked_inc (m : M) (a : F) : F := map2 (fun (c : bool) x => if c then s_add x (lit 1 0) else x) m a.
Definition fmasked_dec (m : M) (a : F) : F := map2 (fun (c : bool) x => if c then s_sub x (lit 1 0) else x) m a.
Definition imasked_add (m : M) (a b : I) : I := map3 (fun (c : bool) x y => if c then z_add x y else x) m a b.
Definition iinvmasked_add (m : M) (a b : I) : I := map3 (fun (c : bool) x y => if c then x else z_add x y) m a b.
Definition imasked_inc (m : M) (a : I) : I := map2 (fun (c : bool) x => if c then z_add x 1 else x) m a.
Definition imasked_dec (m : M) (a : I) : I := map2 (fun (c : bool) x => if c then z_sub x 1 else x) m a.
Definition imasked_sub (m : M) (a b : I) : I := map3 (fun (c : bool) x y => if c then z_sub x y else x) m a b.
(** A register permute with a constant table; the index is taken modulo the table length (a power
    of two), as _mm512_permutexvar_ps, _mm256_permutevar8x32_ps and _mm512_permutex2var_ps do. *)
Definition ftable (tab : list (V s)) (i : I) : F :=
  map1 (fun z => nth (Z.to_nat (z mod Z.of_nat (length tab))) tab (lit 0 0)) i.
End Ops.
Arguments F s W : clear implicits.
Arguments I W : clear implicits.
Arguments M W : clear implicits.

(** A statement [type x = e;] of the C++ code. *)
Definition slet {A B : Type} (a : A) (k : A -> B) : B := k a.
Notation "'let*' x := e 'in' k" := (slet e (fun x => k)) (at level 200, x name, e at level 200, k at level 200, right associativity).
Declare Scope f_scope.
Delimit Scope f_scope with f.
Infix "+" := fadd : f_scope.
Infix "-" := fsub : f_scope.
Infix "*" := fmul : f_scope.
Infix "/" := fdiv : f_scope.
Declare Scope i_scope.
Delimit Scope i_scope with i.
Infix "+" := iadd : i_scope.
Infix "-" := isub : i_scope.
Infix "*" := imul : i_scope.
