(** The scalar operations in IEEE 754 binary32 (round to nearest even, one NaN), from Flocq. Used to check
    concrete behaviours that exact real arithmetic hides: rounding, infinities, NaN.
    sin, cos, pow and fmod are parameters; InvSqrt and Reciprocal are 1/sqrt x and 1/x with two roundings
    (the precise variants; the hardware estimates also return infinity at 0). *)
From Coq Require Import ZArith List Bool.
From Flocq Require Import IEEE754.BinarySingleNaN.
From Verif Require Import Prelude Simd_Model Utils_Model.
Import ListNotations.
Open Scope Z_scope.

Definition f32 := binary_float 24 128.
Lemma prec24 : FLX.Prec_gt_0 24. Proof. reflexivity. Qed.
Lemma emax24 : Prec_lt_emax 24 128. Proof. reflexivity. Qed.
Global Existing Instance prec24.
Global Existing Instance emax24.

Definition f_lit (m e : Z) : f32 := binary_normalize 24 128 prec24 emax24 mode_NE m e false.
Definition f_nan : f32 := B754_nan.
Definition f_bits (x : f32) : Z :=
  match x with
  | B754_zero s => if s then - 2^31 else 0
  | B754_infinity s => s32 ((if s then 2^31 else 0) + 255 * 2^23)
  | B754_nan => s32 (255 * 2^23 + 2^22)
  | B754_finite s m e _ =>
      s32 ((if s then 2^31 else 0) + (if Z.pos m <? 2^23 then Z.pos m else (e + 150) * 2^23 + (Z.pos m - 2^23)))
  end.
Definition f_ofbits (z : Z) : f32 :=
  let u := u32 z in
  let m := u mod 2^23 in
  let e := (u / 2^23) mod 2^8 in
  let s := negb (u <? 2^31) in
  let sm := if s then - 1 else 1 in
  if e =? 255 then (if m =? 0 then B754_infinity s else B754_nan)
  else if e =? 0 then (if m =? 0 then B754_zero s else f_lit (sm * m) (-149))
  else f_lit (sm * (2^23 + m)) (e - 150).
Definition f_add (a b : f32) : f32 := Bplus mode_NE a b.
Definition f_sub (a b : f32) : f32 := Bminus mode_NE a b.
Definition f_mul (a b : f32) : f32 := Bmult mode_NE a b.
Definition f_div (a b : f32) : f32 := Bdiv mode_NE a b.
Definition f_neg (a : f32) : f32 := Bopp a.
Definition f_sqrt (a : f32) : f32 := Bsqrt mode_NE a.

Definition F32ops (fsin_ fcos_ : f32 -> f32) (fpow_ ffmod_ : f32 -> f32 -> f32) : sops := {|
  V := f32; lit := f_lit; s_inf := B754_infinity false;
  s_add := f_add; s_sub := f_sub; s_mul := f_mul; s_div := f_div; s_neg := f_neg;
  s_fma := fun a b c => Bfma mode_NE a b c;
  s_fms := fun a b c => Bfma mode_NE a b (f_neg c);
  s_fnma := fun a b c => Bfma mode_NE (f_neg a) b c;
  s_min := fun a b => if Bltb a b then a else b;
  s_max := fun a b => if Bltb b a then a else b;
  s_abs := fun a => Babs a;
  s_floor := fun a => Bnearbyint mode_DN a;
  s_round := fun a => Bnearbyint mode_NE a;
  s_sqrt := f_sqrt;
  s_invsqrt := fun a => f_div (f_lit 1 0) (f_sqrt a);
  s_recip := fun a => f_div (f_lit 1 0) a;
  s_sin := fsin_; s_cos := fcos_; s_pow := fpow_; s_fmod := ffmod_;
  s_ssqrt := fun a b => if Bsign b then f_neg (Babs a) else a;
  s_lt := fun a b => Bltb a b; s_le := fun a b => Bleb a b; s_eq := fun a b => Beqb a b;
  s_ofint := fun z => f_lit z 0;
  s_toint := fun a => Btrunc (Bnearbyint mode_NE a);
  s_bits := f_bits; s_ofbits := f_ofbits |}.

Example f32_test : f_bits (f_add (f_lit 1 0) (f_lit 3 (-1))) = 0x40200000 /\ f_bits (f_ofbits 0x40200000) = 0x40200000 /\
  f_bits (f_lit 11863283 (-23)) = 0x3FB504F3.
Proof. repeat split; vm_compute; reflexivity. Qed.
