(** C32: every code path of the gradient functions computes the same dot product, with the gradient
    vector of an explicit table. *)
From Coq Require Import Reals ZArith List Bool Lia Lra.
From Verif Require Import Prelude Simd_Model Utils_Model Simd_R Bits P_Hash.
Import ListNotations.

(** ** Specification: the gradient vectors *)
Section Spec.
Open Scope R_scope.
(** the float constants nearest to sqrt 2, sqrt 3 and (sqrt 5 - 1)/4 used by the code *)
Definition root2 : R := IZR 11863283 / IZR (2^23).
Definition root3 : R := IZR 14529495 / IZR (2^23).
Definition skew4 : R := IZR 5184445 / IZR (2^24).

(** 8 directions at odd multiples of pi/8 (scaled) *)
Definition perlin2_grad (h : Z) : R * R :=
  nth (Z.to_nat (h mod 8))
    [(1 + root2, 1); (-1 - root2, 1); (1 + root2, -1); (-1 - root2, -1);
     (1, 1 + root2); (-1, 1 + root2); (1, -1 - root2); (-1, -1 - root2)] (0, 0).
(** the 12 edge midpoints of the cube, four of them twice *)
Definition common_grad (h : Z) : R * R * R :=
  nth (Z.to_nat (h mod 16))
    [(1,1,0); (-1,1,0); (1,-1,0); (-1,-1,0); (1,0,1); (-1,0,1); (1,0,-1); (-1,0,-1);
     (0,1,1); (0,-1,1); (0,1,-1); (0,-1,-1); (1,1,0); (0,-1,1); (-1,1,0); (0,-1,-1)] (0,0,0).
(** the 32 vectors with one zero and three signs *)
Definition sgn (b : bool) : R := if b then -1 else 1.
Definition perlin4_grad (h : Z) : R * R * R * R :=
  let a := sgn (Z.testbit h 0) in let b := sgn (Z.testbit h 1) in let c := sgn (Z.testbit h 2) in
  match ((h / 8) mod 4)%Z with
  | 0%Z => (0, a, b, c) | 1%Z => (a, 0, b, c) | 2%Z => (a, b, 0, c) | _ => (a, b, c, 0)
  end.
(** 12 directions, a hexagon pair; chosen by the top of 3 * (hash31 / 2) *)
Definition simplex2_index (h : Z) : Z := (3 * (h / 2)) / 2^28.
Definition simplex2_grad (h : Z) : R * R :=
  nth (Z.to_nat (simplex2_index h))
    [(root3, 1); (- root3, -1); (1, root3); (-1, - root3); (root3, -1); (- root3, 1);
     (-1, root3); (1, - root3); (2, 0); (-2, 0); (0, 2); (0, -2)] (0, 0).
(** 20 directions of the 4D simplex lattice *)
Definition simplex4_index (h : Z) : Z := (5 * (h / 4)) / 2^27.
Definition simplex4_grad (h : Z) : R * R * R * R :=
  let k := skew4 in let l := skew4 + 1 in
  nth (Z.to_nat (simplex4_index h))
    [(l,k,k,k); (k,l,k,k); (k,k,l,k); (k,k,k,l);
     (-1,1,0,0); (1,-1,0,0); (0,0,-1,1); (0,0,1,-1);
     (-1,0,1,0); (0,-1,0,1); (1,0,-1,0); (0,1,0,-1);
     (-1,0,0,1); (0,-1,1,0); (0,1,-1,0); (1,0,0,-1);
     (-l,-k,-k,-k); (-k,-l,-k,-k); (-k,-k,-l,-k); (-k,-k,-k,-l)] (0,0,0,0).
Definition dot2 (g : R * R) (x y : R) := fst g * x + snd g * y.
Definition dot3 (g : R * R * R) (x y z : R) := let '(a, b, c) := g in a * x + b * y + c * z.
Definition dot4 (g : R * R * R * R) (x y z w : R) := let '(a, b, c, d) := g in a * x + b * y + c * z + d * w.
End Spec.

(** ** Proofs *)
Section Proofs.
Variable inf : R.
Variable bits : R -> Z.
Notation S := (Rops inf bits).

Lemma lit0 : forall z, @lit S z 0 = IZR z. Proof. apply lit_int. Qed.
Lemma r2 : @kRoot2f S = root2. Proof. unfold kRoot2f, root2. cbn [lit Rops]. change (-23)%Z with (- (23))%Z; rewrite (pow2_neg 23) by lia. reflexivity. Qed.
Lemma r3 : @kRoot3f S = root3. Proof. unfold kRoot3f, root3. cbn [lit Rops]. change (-23)%Z with (- (23))%Z; rewrite (pow2_neg 23) by lia. reflexivity. Qed.
Lemma sk4 : @kSkew4f S = skew4. Proof. unfold kSkew4f, skew4. cbn [lit Rops]. change (-24)%Z with (- (24))%Z; rewrite (pow2_neg 24) by lia. reflexivity. Qed.
End Proofs.

(** reduce every reference to [h] to its residue modulo 2^k *)
Ltac redbits h k :=
  repeat match goal with |- context [Z.testbit h ?e] =>
    let e' := eval compute in e in change (Z.testbit h e) with (Z.testbit h e'); rewrite (bit_mod h k e') by lia end;
  repeat match goal with |- context [Z.land h ?e] =>
    let e' := eval compute in e in change (Z.land h e) with (Z.land h e'); rewrite (land_mod h k e') by lia end.
Ltac redmod h i k :=
  let m := eval compute in (2 ^ i)%Z in
  let m' := constr:(Z.of_nat (Z.to_nat m)) in
  repeat (change m' with m);
  rewrite ?(mod_mod_pow2 h i k : (h mod m = (h mod 2^k) mod m)%Z) by lia.

Section C32.
Variable inf : R.
Variable bits : R -> Z.
Notation S := (Rops inf bits).

Theorem C32_perlin2 : forall ft (h : Z) (x y : R),
  GetGradientDotPerlin2 (s:=S) (W:=scalar) ft h x y = dot2 (perlin2_grad h) x y.
Proof.
  intros ft h x y. unfold GetGradientDotPerlin2, ftable. rewrite r2. sunf. rewrite !pow2_0, !Rmult_1_r.
  rewrite !shl_neg, !shr_bit by lia. cbn [length].
  unfold perlin2_grad. redbits h 4%Z.
  change (Z.of_nat 16) with (2^4)%Z. change (Z.of_nat 8) with (2^3)%Z. change 8%Z with (2^3)%Z. rewrite (mod_mod_pow2 h 3 4) by lia.
  pose proof (Z.mod_pos_bound h (2^4) ltac:(lia)) as Hr. set (r := (h mod 2^4)%Z) in *. clearbody r.
  enum r Hr; destruct ft as [[] [] ? ? ?]; cbv -[IZR Rmult Rplus Rminus Ropp root2 root3 skew4]; unfold dot2; cbn [fst snd]; ring.
Qed.

Theorem C32_common : forall ft (h : Z) (x y z : R),
  GetGradientDotCommon (s:=S) (W:=scalar) ft h x y z = dot3 (common_grad h) x y z.
Proof.
  intros ft h x y z. unfold GetGradientDotCommon, ftable. sunf. rewrite !pow2_0, !Rmult_1_r.
  rewrite !shl_neg, !shr_bit by lia. cbn [length]. change (s32 13) with 13%Z.
  unfold common_grad. redbits h 4%Z.
  change (Z.of_nat 16) with (2^4)%Z. change (h mod 16)%Z with (h mod 2^4)%Z.
  pose proof (Z.mod_pos_bound h (2^4) ltac:(lia)) as Hr. set (r := (h mod 2^4)%Z) in *. clearbody r.
  enum r Hr; destruct ft as [[] ? ? [] ?]; cbv -[IZR Rmult Rplus Rminus Ropp root2 root3 skew4]; unfold dot3; cbn [fst snd]; ring.
Qed.

Theorem C32_perlin4 : forall ft (h : Z) (x y z w : R),
  GetGradientDotPerlin4 (s:=S) (W:=scalar) ft h x y z w = dot4 (perlin4_grad h) x y z w.
Proof.
  intros ft h x y z w. unfold GetGradientDotPerlin4, ftable. sunf. rewrite !pow2_0, !Rmult_1_r.
  rewrite !shl_neg, !shr_bit by lia. cbn [length app]. change (s32 24) with 24%Z.
  unfold perlin4_grad. redbits h 5%Z.
  assert ((h / 8) mod 4 = (h mod 2^5) / 8)%Z as ->.
  { change (2^5)%Z with (8 * 4)%Z. rewrite Z.rem_mul_r by lia. rewrite Z.mul_comm, Z.div_add by lia.
    rewrite (Z.div_small (h mod 8)) by (apply Z.mod_pos_bound; lia). reflexivity. }
  change (Z.of_nat 32) with (2^5)%Z.
  pose proof (Z.mod_pos_bound h (2^5) ltac:(lia)) as Hr. set (r := (h mod 2^5)%Z) in *. clearbody r.
  enum r Hr; destruct ft as [[] ? ? ? ?]; cbv -[IZR Rmult Rplus Rminus Ropp root2 root3 skew4]; unfold dot4, sgn; cbn [fst snd]; ring.
Qed.

(** the 31 bit hash of the simplex functions: C31_hash31_range shows it is in range *)
Lemma simplex2_index_range : forall h, (0 <= h < 2^31)%Z -> (0 <= simplex2_index h < 12)%Z.
Proof.
  intros h H. unfold simplex2_index.
  assert (0 <= h / 2 < 2^30)%Z by (split; [apply Z.div_pos; lia|apply Z.div_lt_upper_bound; lia]).
  split; [apply Z.div_pos; lia|apply Z.div_lt_upper_bound; lia].
Qed.
Lemma simplex4_index_range : forall h, (0 <= h < 2^31)%Z -> (0 <= simplex4_index h < 20)%Z.
Proof.
  intros h H. unfold simplex4_index.
  assert (0 <= h / 4 < 2^29)%Z by (split; [apply Z.div_pos; lia|apply Z.div_lt_upper_bound; lia]).
  split; [apply Z.div_pos; lia|apply Z.div_lt_upper_bound; lia].
Qed.
Lemma ushr_small : forall h k, (0 <= k)%Z -> (0 <= h < 2^31)%Z -> z_ushr k h = (h / 2^k)%Z.
Proof.
  intros h k Hk H. unfold z_ushr, u32. rewrite Z.mod_small by lia. apply s32_id.
  assert (0 < 2^k)%Z by (apply Z.pow_pos_nonneg; lia).
  assert (0 <= h / 2^k)%Z by (apply Z.div_pos; lia).
  assert (h / 2^k <= h)%Z by (apply Z.div_le_upper_bound; nia). lia.
Qed.
Lemma s32_bits_div : forall z k i, (0 <= i)%Z -> (0 <= k)%Z -> (i + k < 32)%Z -> Z.testbit (s32 z) (i + k) = Z.testbit (z / 2^k) i.
Proof. intros. rewrite s32_bit by lia. rewrite Z.div_pow2_bits by lia. reflexivity. Qed.

Theorem C32_simplex2 : forall ft (h : Z) (x y : R), (0 <= h < 2^31)%Z ->
  GetGradientDotSimplex2 (s:=S) (W:=scalar) ft h x y = dot2 (simplex2_grad h) x y.
Proof.
  intros ft h x y H. unfold GetGradientDotSimplex2, ftable. rewrite r3. sunf. rewrite !pow2_0, !Rmult_1_r.
  rewrite ushr_small by lia. change (s32 0) with 0%Z. change (s32 3) with 3%Z. unfold z_mul.
  rewrite Z.geb_leb, Z.leb_antisym.
  rewrite !shl_neg, !shr_bit by lia. cbn [length].
  set (X := (h / 2^1 * 3)%Z).
  assert (X / 2^28 = simplex2_index h)%Z as E by (unfold X, simplex2_index; f_equal; rewrite Z.mul_comm; reflexivity).
  pose proof (simplex2_index_range h H) as Hj. unfold simplex2_grad.
  repeat match goal with |- context [Z.testbit (s32 X) ?e] =>
    let e' := eval compute in (e - 28)%Z in change (Z.testbit (s32 X) e) with (Z.testbit (s32 X) (e' + 28));
    rewrite (s32_bits_div X 28 e') by lia end.
  assert (s32 X <? 0 = Z.testbit (X / 2^28) 3)%Z as -> by (rewrite s32_neg_bit, Z.div_pow2_bits by lia; reflexivity).
  assert (z_shr 31 (s32 X) <? 0 = Z.testbit (X / 2^28) 3)%Z as ->.
  { rewrite <- s32_bits_div by lia. rewrite s32_bit by lia. change (3 + 28)%Z with 31%Z. rewrite <- s32_neg_bit. unfold z_shr.
    destruct (Z.ltb_spec (s32 X) 0); [apply Z.ltb_lt, Z.div_lt_upper_bound; lia|apply Z.ltb_ge, Z.div_pos; lia]. }
  assert (z_shr 28 (s32 X) mod Z.of_nat 16 = X / 2^28)%Z as ->.
  { unfold z_shr. change (Z.of_nat 16) with (2^4)%Z. rewrite s32_div_mod by lia. apply Z.mod_small. rewrite E. lia. }
  assert (z_shr 29 (s32 X) mod Z.of_nat 8 = X / 2^28 / 2)%Z as ->.
  { unfold z_shr. change (Z.of_nat 8) with (2^3)%Z. rewrite s32_div_mod by lia.
    change (2^29)%Z with (2^28 * 2)%Z. rewrite <- Z.div_div by lia. rewrite E. apply Z.mod_small.
    split; [apply Z.div_pos; lia|apply Z.div_lt_upper_bound; lia]. }
  rewrite E. set (j := simplex2_index h) in *. clearbody j. clear E X H.
  enum j Hj; destruct ft as [[] [] [] ? ?]; cbv -[IZR Rmult Rplus Rminus Ropp root2 root3 skew4]; unfold dot2; cbn [fst snd]; ring.
Qed.

Theorem C32_simplex4 : forall ft (h : Z) (x y z w : R), (0 <= h < 2^31)%Z ->
  GetGradientDotSimplex4 (s:=S) (W:=scalar) ft h x y z w = dot4 (simplex4_grad h) x y z w.
Proof.
  intros ft h x y z w H. unfold GetGradientDotSimplex4, ftable. rewrite sk4. sunf. rewrite !pow2_0, !Rmult_1_r.
  rewrite (ushr_small h) by lia. change (s32 5) with 5%Z. unfold z_mul. cbn [length app map].
  set (X := (h / 2^2 * 5)%Z).
  assert (X / 2^27 = simplex4_index h)%Z as E by (unfold X, simplex4_index; f_equal; rewrite Z.mul_comm; reflexivity).
  pose proof (simplex4_index_range h H) as Hj. unfold simplex4_grad.
  assert (Z.land (s32 X) (s32 (3 * 2^27)) = (X / 2^27) mod 4 * 2^27)%Z as ->.
  { change (s32 (3 * 2^27))%Z with ((2^2 - 1) * 2^27)%Z. rewrite land_field by lia. rewrite s32_div_mod by lia. reflexivity. }
  assert (Z.land (z_shr 2 (s32 X)) (s32 (7 * 2^27)) = (X / 2^27) / 4 mod 8 * 2^27)%Z as ->.
  { change (s32 (7 * 2^27))%Z with ((2^3 - 1) * 2^27)%Z. rewrite land_field by lia. unfold z_shr.
    rewrite Z.div_div by lia. change (2^2 * 2^27)%Z with (2^29)%Z. rewrite s32_div_mod by lia.
    rewrite Z.div_div by lia. reflexivity. }
  assert (z_ushr 27 (s32 X) mod Z.of_nat 32 = X / 2^27)%Z as ->.
  { unfold z_ushr. change (Z.of_nat 32) with (2^5)%Z.
    rewrite <- (Z.div_1_r (s32 (u32 _ / _))). change 1%Z with (2^0)%Z at 1. rewrite s32_div_mod by lia.
    change (2^0)%Z with 1%Z. rewrite Z.div_1_r. unfold u32. rewrite s32_mod.
    rewrite (Z.mod_small X) by (unfold X; split; [apply Z.mul_nonneg_nonneg; [apply Z.div_pos|]; lia|];
      assert (h / 2^2 < 2^29)%Z by (apply Z.div_lt_upper_bound; lia); lia).
    apply Z.mod_small. rewrite E. lia. }
  rewrite E. set (j := simplex4_index h) in *. clearbody j. clear E X H.
  enum j Hj; destruct ft as [[] ? ? ? ?]; cbv -[IZR Rmult Rplus Rminus Ropp root2 root3 skew4]; unfold dot4; cbn [fst snd]; ring.
Qed.

(** all code paths agree on the hashes the simplex nodes use, for every seed and lattice point *)
Theorem C32_simplex_paths_agree : forall ft ft' seed cs (x y z w : R),
  GetGradientDotSimplex2 (s:=S) (W:=scalar) ft (hash31 seed cs) x y = GetGradientDotSimplex2 (s:=S) (W:=scalar) ft' (hash31 seed cs) x y /\
  GetGradientDotSimplex4 (s:=S) (W:=scalar) ft (hash31 seed cs) x y z w = GetGradientDotSimplex4 (s:=S) (W:=scalar) ft' (hash31 seed cs) x y z w.
Proof.
  intros. pose proof (C31_hash31_range seed cs). rewrite !C32_simplex2, !C32_simplex4 by assumption. split; reflexivity.
Qed.
End C32.
Print Assumptions C32_perlin2.
Print Assumptions C32_common.
Print Assumptions C32_perlin4.
Print Assumptions C32_simplex2.
Print Assumptions C32_simplex4.
Print Assumptions C32_simplex_paths_agree.

Example C32_example : perlin2_grad 13 = (-1, 1 + root2)%R /\ simplex2_grad (2^31 - 1) = (0, -2)%R.
Proof. split; cbv -[IZR Rplus Ropp Rminus root2]; reflexivity. Qed.
