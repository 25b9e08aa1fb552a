(** The scalar operations in exact real arithmetic, used to state what the node code computes up to
    rounding. [inf] stands for kInfinity (no real is infinite; theorems that meet it say which values
    must lie below it) and [bits] for the bit pattern of a float (arbitrary). *)
From Coq Require Import Reals ZArith Lra Lia List Bool.
From Verif Require Import Prelude Simd_Model Utils_Model.
Import ListNotations.
Open Scope R_scope.

Definition Rltb (x y : R) : bool := if Rlt_dec x y then true else false.
Definition Rleb (x y : R) : bool := if Rle_dec x y then true else false.
Definition Reqb (x y : R) : bool := if Req_EM_T x y then true else false.

Definition Rfloor (x : R) : Z := Int_part x.
(** nearest integer, ties to even *)
Definition Rnear (x : R) : Z :=
  let f := Rfloor x in
  let d := x - IZR f in
  if Rlt_dec d (1/2) then f else if Rlt_dec (1/2) d then (f + 1)%Z else if Z.even f then f else (f + 1)%Z.
(** 2^e for any integer e *)
Definition pow2 (e : Z) : R := powerRZ 2 e.
(** truncated remainder, the sign follows x (fmod) *)
Definition Rtrunc (x : R) : Z := if Rle_dec 0 x then Rfloor x else (- Rfloor (- x))%Z.
Definition Rfmod (x y : R) : R := x - IZR (Rtrunc (x / y)) * y.
(** x^y for x >= 0 *)
Definition Rpow_pos (x y : R) : R := if Rlt_dec 0 x then Rpower x y else if Req_EM_T y 0 then 1 else 0.
(** the value of a float with the given bits (signed representation); infinities and NaNs give 0 *)
Definition Rofbits (z : Z) : R :=
  let u := u32 z in
  let m := (u mod 2^23)%Z in
  let e := ((u / 2^23) mod 2^8)%Z in
  let a := if (e =? 255)%Z then 0 else if (e =? 0)%Z then IZR m * pow2 (-149) else IZR (2^23 + m) * pow2 (e - 150) in
  if (u <? 2^31)%Z then a else - a.

Definition Rops (inf : R) (bits : R -> Z) : sops := {|
  V := R;
  lit := fun m e => IZR m * pow2 e;
  s_inf := inf;
  s_add := Rplus; s_sub := Rminus; s_mul := Rmult; s_div := Rdiv; s_neg := Ropp;
  s_fma := fun a b c => a * b + c;
  s_fms := fun a b c => a * b - c;
  s_fnma := fun a b c => - (a * b) + c;
  s_min := Rmin; s_max := Rmax; s_abs := Rabs;
  s_floor := fun x => IZR (Rfloor x);
  s_round := fun x => IZR (Rnear x);
  s_sqrt := sqrt; s_invsqrt := fun x => / sqrt x; s_recip := fun x => / x;
  s_sin := sin; s_cos := cos; s_pow := Rpow_pos; s_fmod := Rfmod;
  s_ssqrt := fun a b => if Rlt_dec b 0 then - a else a;
  s_lt := Rltb; s_le := Rleb; s_eq := Reqb;
  s_ofint := IZR; s_toint := Rnear; s_bits := bits; s_ofbits := Rofbits |}.

Lemma pow2_0 : pow2 0 = 1. Proof. reflexivity. Qed.
Lemma pow2_pos : forall e, 0 < pow2 e. Proof. intros. apply powerRZ_lt. lra. Qed.
Lemma pow2_nz : forall e, pow2 e <> 0. Proof. intros. pose proof (pow2_pos e). lra. Qed.
Lemma lit_int : forall inf bits z, @lit (Rops inf bits) z 0 = IZR z.
Proof. intros. cbn [lit Rops]. rewrite pow2_0. apply Rmult_1_r. Qed.
Lemma pow2_neg : forall n, (0 <= n)%Z -> pow2 (- n) = / IZR (2 ^ n).
Proof.
  intros n H. unfold pow2. rewrite powerRZ_neg'. f_equal.
  rewrite <- (Z2Nat.id n) by lia. rewrite <- pow_powerRZ, <- pow_IZR. reflexivity.
Qed.
Lemma pow2_nonneg : forall n, (0 <= n)%Z -> pow2 n = IZR (2 ^ n).
Proof.
  intros n H. unfold pow2.
  rewrite <- (Z2Nat.id n) by lia. rewrite <- pow_powerRZ, <- pow_IZR. reflexivity.
Qed.

Lemma pow2_m1 : pow2 (-1) = / 2.
Proof. change (-1)%Z with (- (1))%Z. rewrite pow2_neg by lia. reflexivity. Qed.

Lemma Rfloor_spec : forall x, IZR (Rfloor x) <= x < IZR (Rfloor x) + 1.
Proof. intros x. unfold Rfloor. pose proof (base_Int_part x). lra. Qed.
Lemma Rfloor_unique : forall x n, IZR n <= x < IZR n + 1 -> Rfloor x = n.
Proof.
  intros x n H. pose proof (Rfloor_spec x).
  assert (A : IZR (Rfloor x) < IZR (n + 1)) by (rewrite plus_IZR; lra).
  assert (B : IZR n < IZR (Rfloor x + 1)) by (rewrite plus_IZR; lra).
  apply lt_IZR in A. apply lt_IZR in B. lia.
Qed.
Lemma Rfloor_IZR : forall n, Rfloor (IZR n) = n.
Proof. intros. apply Rfloor_unique. lra. Qed.
Lemma Rnear_IZR : forall n, Rnear (IZR n) = n.
Proof. intros. unfold Rnear. rewrite Rfloor_IZR. destruct (Rlt_dec _ _); auto. lra. Qed.
Lemma Rnear_spec : forall x, IZR (Rnear x) - 1/2 <= x <= IZR (Rnear x) + 1/2.
Proof.
  intros x. unfold Rnear. pose proof (Rfloor_spec x). destruct (Rlt_dec _ _); [lra|].
  destruct (Rlt_dec _ _); [rewrite plus_IZR; lra|]. destruct (Z.even _); try rewrite plus_IZR; lra.
Qed.
Lemma Rltb_lt : forall x y, Rltb x y = true <-> x < y.
Proof. intros. unfold Rltb. destruct (Rlt_dec x y); split; intros; auto; try discriminate; contradiction. Qed.
Lemma Rltb_ge : forall x y, Rltb x y = false <-> y <= x.
Proof. intros. unfold Rltb. destruct (Rlt_dec x y); split; intros; auto; try discriminate; lra. Qed.
Lemma Reqb_eq : forall x y, Reqb x y = true <-> x = y.
Proof. intros. unfold Reqb. destruct (Req_EM_T x y); split; intros; auto; try discriminate; contradiction. Qed.
Lemma Reqb_ne : forall x y, Reqb x y = false <-> x <> y.
Proof. intros. unfold Reqb. destruct (Req_EM_T x y); split; intros; auto; try discriminate; contradiction. Qed.

(** unfold the lifted operations at one lane over the reals *)
Ltac sunf :=
  cbv [F I M slet num half fv iv fadd fsub fmul fdiv fneg fmadd fmsub fnmadd fmin fmax fabs ffloor fround fsqrt finvsqrt frecip
       fsin fcos fpow ffmod for_sign flt fle fgt fge feq fne of_int to_int cast_i cast_f fxor_sign
       iadd isub imul iand ior ixor ishl ishr iushr ieq ilt igt ige ine mor mand mxor mnot mandnot cast_m mask_hb
       fsel isel fsel_hb fmasked finvmasked imasked iinvmasked fmasked_add finvmasked_add fmasked_sub finvmasked_sub
       fmasked_mul fmasked_inc fmasked_dec imasked_add iinvmasked_add imasked_inc imasked_dec imasked_sub
       scalar T pure map1 map2 map3 any c0 c1 cm1 c2 cm2
       lit s_inf s_add s_sub s_mul s_div s_neg s_fma s_fms s_fnma s_min s_max s_abs s_floor s_round s_sqrt s_invsqrt s_recip
       s_sin s_cos s_pow s_fmod s_ssqrt s_lt s_le s_eq s_ofint s_toint s_bits s_ofbits V Rops].
Ltac rlit := rewrite ?pow2_0, ?pow2_m1, ?Rmult_1_r, ?(Rmult_1_l (/ 2)).
Ltac toR := match goal with |- @eq _ ?a ?b => change (@eq R a b) end.
