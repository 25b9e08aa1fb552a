(** The matrices a lattice vertex contributes with to a simplex domain warp: explicit tables, and
    arithmetic of the indices. *)
From Coq Require Import Reals ZArith List Bool Lia Lra.
From Verif Require Import Prelude Simd_Model Utils_Model Nodes_Model Simplex_Model Warp_Model SimplexWarp_Model Simd_R Bits P_Hash P_Grad.
Import ListNotations.

(** ** Specification *)
Section Spec.
Open Scope R_scope.
(** The outer vector of a hash: a second, independently chosen vector of the gradient table. *)
Definition outer2_index (h : Z) : Z := (4 * ((2 * (h / 2)) mod 3) + (3 * (h / 2)) mod 4)%Z.
Definition outer2_vec (h : Z) : R * R :=
  nth (Z.to_nat (outer2_index h))
    [(root3, 1); (- root3, -1); (1, root3); (-1, - root3); (root3, -1); (- root3, 1);
     (-1, root3); (1, - root3); (2, 0); (-2, 0); (0, 2); (0, -2)] (0, 0).
(** the 12 edge midpoints of the cube *)
Definition edges3 : list (R * R * R) :=
  [(1,1,0); (-1,1,0); (1,-1,0); (-1,-1,0); (1,0,1); (-1,0,1); (1,0,-1); (-1,0,-1);
   (0,1,1); (0,-1,1); (0,1,-1); (0,-1,-1)].
Definition warp3_grad (h : Z) : R * R * R := nth (Z.to_nat (simplex2_index h)) edges3 (0,0,0).
Definition outer3_vec (h : Z) : R * R * R := nth (Z.to_nat (outer2_index h)) edges3 (0,0,0).
Definition outer4_index (h : Z) : Z := (4 * ((2 * (h / 4)) mod 5) + (h / 4) mod 4)%Z.
Definition outer4_vec (h : Z) : R * R * R * R :=
  let k := skew4 in let l := skew4 + 1 in
  nth (Z.to_nat (outer4_index h))
    [(l,k,k,k); (k,l,k,k); (k,k,l,k); (k,k,k,l);
     (-1,1,0,0); (1,-1,0,0); (0,0,-1,1); (0,0,1,-1);
     (-1,0,1,0); (0,-1,0,1); (1,0,-1,0); (0,1,0,-1);
     (-1,0,0,1); (0,-1,1,0); (0,1,-1,0); (1,0,0,-1);
     (-l,-k,-k,-k); (-k,-l,-k,-k); (-k,-k,-l,-k); (-k,-k,-k,-l)] (0,0,0,0).

(** the float nearest to (sqrt 3 - 1)/2 *)
Definition skew2 : R := IZR 12281775 / IZR (2^25).
(** 12 directions *)
Definition ortho2_grad (h : Z) : R * R :=
  let k := skew2 in let l := skew2 + 1 in
  nth (Z.to_nat (simplex2_index h))
    [(k, l); (-k, l); (k, -l); (-k, -l); (l, k); (-l, k); (l, -k); (-l, -k); (1, 1); (-1, 1); (1, -1); (-1, -1)] (0, 0).
(** the gradient and its rotation by a right angle, to one side or the other *)
Definition ortho2_rows (h : Z) : (R * R) * (R * R) :=
  let '(a, b) := ortho2_grad h in
  ((a, b), (if Z.odd h then (b, - a) else (- b, a))).

(** The floats nearest to 1 + sqrt(3/2) and 1 - sqrt(3/2). *)
Definition compA : R := IZR 1166407 / IZR (2^19).
Definition compB : R := - (IZR 15082373 / IZR (2^26)).
(** a vector with the component [c] on one axis and [u], [v] on the two others *)
Definition place (axis : Z) (u v c : R) : R * R * R :=
  match axis with 0%Z => (u, c, v) | 1%Z => (u, v, c) | _ => (c, u, v) end.
(** Three rows built from (A, B, -1), (B, A, -1) and (1, 1, 2) by choosing the axis of the last component
    (3 ways), the signs of the two others (4 ways), the exchange of the first two rows (2 ways), the place of
    the last row (3 ways) and a common sign (2 ways) from the hash. *)
Definition ortho3_rows (h : Z) : (R * R * R) * (R * R * R) * (R * R * R) :=
  let hs := (h / 2)%Z in
  let axis := ((2 * hs) mod 3)%Z in
  let s0 := sgn (Z.testbit (3 * hs) 0) in let s1 := sgn (Z.testbit (3 * hs) 1) in
  let s := sgn (Z.odd h) in
  let row u v c := place axis (s * (s0 * u)) (s * (s1 * v)) (s * c) in
  let a := if Z.testbit (3 * hs) 2 then row compB compA (-1) else row compA compB (-1) in
  let b := if Z.testbit (3 * hs) 2 then row compA compB (-1) else row compB compA (-1) in
  let c := row 1 1 2 in
  match (3 * hs / 2^30)%Z with
  | 0%Z => (c, a, b) | 1%Z => (a, c, b) | _ => (a, b, c)
  end.
End Spec.

(** ** Indices *)
Section Index.
Open Scope Z_scope.
Lemma outer2_index_range : forall h, 0 <= outer2_index h < 12.
Proof.
  intros h. unfold outer2_index. pose proof (Z.mod_pos_bound (2 * (h / 2)) 3 ltac:(lia)). pose proof (Z.mod_pos_bound (3 * (h / 2)) 4 ltac:(lia)).
  set (a := (2 * (h / 2)) mod 3) in *. set (b := (3 * (h / 2)) mod 4) in *. clearbody a b. lia.
Qed.
Lemma outer4_index_range : forall h, 0 <= outer4_index h < 20.
Proof.
  intros h. unfold outer4_index. pose proof (Z.mod_pos_bound (2 * (h / 4)) 5 ltac:(lia)). pose proof (Z.mod_pos_bound (h / 4) 4 ltac:(lia)).
  set (a := (2 * (h / 4)) mod 5) in *. set (b := (h / 4) mod 4) in *. clearbody a b. lia.
Qed.

Lemma third_top : forall x, 0 <= x < 2^30 -> (x * 0xAAAAAAAB) mod 2^32 / 2^30 = (2 * x) mod 3.
Proof.
  intros x Hx. pose proof (Z.div_mod x 3 ltac:(lia)) as E. pose proof (Z.mod_pos_bound x 3 ltac:(lia)) as Hr.
  set (q := x / 3) in *. set (r := x mod 3) in *. clearbody q r.
  assert ((x * 0xAAAAAAAB) mod 2^32 = (q + r * 0xAAAAAAAB) mod 2^32) as ->.
  { subst x. replace ((3 * q + r) * 0xAAAAAAAB) with (q + r * 0xAAAAAAAB + (2 * q) * 2^32) by lia. apply Z_mod_plus_full. }
  assert (r = 0 \/ r = 1 \/ r = 2) as [?|[?|?]] by lia; subst r.
  - rewrite Z.mod_small by lia. rewrite Z.div_small by lia. subst x. replace (2 * (3 * q + 0)) with (0 + 2 * q * 3) by lia. rewrite Z_mod_plus_full. reflexivity.
  - rewrite Z.mod_small by lia. rewrite <- (Z.div_unique (q + 1 * 0xAAAAAAAB) (2^30) 2 (q + 1 * 0xAAAAAAAB - 2^31)) by lia.
    subst x. replace (2 * (3 * q + 1)) with (2 + 2 * q * 3) by lia. rewrite Z_mod_plus_full. reflexivity.
  - rewrite <- (Z.mod_unique (q + 2 * 0xAAAAAAAB) (2^32) 1 (q + 2 * 0xAAAAAAAB - 2^32)) by lia.
    rewrite <- (Z.div_unique (q + 2 * 0xAAAAAAAB - 2^32) (2^30) 1 (q + 2 * 0xAAAAAAAB - 2^32 - 2^30)) by lia.
    subst x. replace (2 * (3 * q + 2)) with (4 + 2 * q * 3) by lia. rewrite Z_mod_plus_full. reflexivity.
Qed.
Lemma fifth_top : forall x, 0 <= x < 2^29 -> (3 * ((x * 0xCCCCCCCD) mod 2^32 / 2^29)) mod 8 = (2 * x) mod 5.
Proof.
  intros x Hx. pose proof (Z.div_mod x 5 ltac:(lia)) as E. pose proof (Z.mod_pos_bound x 5 ltac:(lia)) as Hr.
  set (q := x / 5) in *. set (r := x mod 5) in *. clearbody q r.
  assert ((x * 0xCCCCCCCD) mod 2^32 = (q + r * 0xCCCCCCCD) mod 2^32) as ->.
  { subst x. replace ((5 * q + r) * 0xCCCCCCCD) with (q + r * 0xCCCCCCCD + (4 * q) * 2^32) by lia. apply Z_mod_plus_full. }
  assert (r = 0 \/ r = 1 \/ r = 2 \/ r = 3 \/ r = 4) as [?|[?|[?|[?|?]]]] by lia; subst r.
  - rewrite (Z.mod_small (q + 0 * 0xCCCCCCCD)) by lia. rewrite Z.div_small by lia. subst x. replace (2 * (5 * q + 0)) with (0 + 2 * q * 5) by lia. rewrite Z_mod_plus_full. reflexivity.
  - rewrite (Z.mod_small (q + 1 * 0xCCCCCCCD)) by lia. rewrite <- (Z.div_unique (q + 1 * 0xCCCCCCCD) (2^29) 6 (q + 1 * 0xCCCCCCCD - 6 * 2^29)) by lia.
    subst x. replace (2 * (5 * q + 1)) with (2 + 2 * q * 5) by lia. rewrite Z_mod_plus_full. reflexivity.
  - rewrite <- (Z.mod_unique (q + 2 * 0xCCCCCCCD) (2^32) 1 (q + 2 * 0xCCCCCCCD - 2^32)) by lia.
    rewrite <- (Z.div_unique (q + 2 * 0xCCCCCCCD - 2^32) (2^29) 4 (q + 2 * 0xCCCCCCCD - 2^32 - 4 * 2^29)) by lia.
    subst x. replace (2 * (5 * q + 2)) with (4 + 2 * q * 5) by lia. rewrite Z_mod_plus_full. reflexivity.
  - rewrite <- (Z.mod_unique (q + 3 * 0xCCCCCCCD) (2^32) 2 (q + 3 * 0xCCCCCCCD - 2 * 2^32)) by lia.
    rewrite <- (Z.div_unique (q + 3 * 0xCCCCCCCD - 2 * 2^32) (2^29) 3 (q + 3 * 0xCCCCCCCD - 2 * 2^32 - 3 * 2^29)) by lia.
    subst x. replace (2 * (5 * q + 3)) with (6 + 2 * q * 5) by lia. rewrite Z_mod_plus_full. reflexivity.
  - rewrite <- (Z.mod_unique (q + 4 * 0xCCCCCCCD) (2^32) 3 (q + 4 * 0xCCCCCCCD - 3 * 2^32)) by lia.
    rewrite <- (Z.div_unique (q + 4 * 0xCCCCCCCD - 3 * 2^32) (2^29) 1 (q + 4 * 0xCCCCCCCD - 3 * 2^32 - 1 * 2^29)) by lia.
    subst x. replace (2 * (5 * q + 4)) with (8 + 2 * q * 5) by lia. rewrite Z_mod_plus_full. reflexivity.
Qed.

(** the high and the low two bits *)
Lemma land_ends : forall x k j, 0 <= j -> 0 < k -> j <= k -> Z.land x (- 2^k + (2^j - 1)) = (x / 2^k) * 2^k + x mod 2^j.
Proof.
  intros x k j Hj Hk Hjk.
  assert (2^j <= 2^k) by (apply Z.pow_le_mono_r; lia). assert (0 < 2^j) by (apply Z.pow_pos_nonneg; lia).
  assert (forall a b, 0 <= b < 2^k -> a * 2^k + b = Z.lor (a * 2^k) b) as K.
  { intros a b Hb. enough (Z.land (a * 2^k) b = 0) as K by (rewrite Z.add_nocarry_lxor, Z.lxor_lor by exact K; reflexivity).
    apply Z.bits_inj'. intros i Hi. rewrite Z.land_spec, Z.bits_0. destruct (Z.ltb_spec i k).
    - rewrite Z.mul_pow2_bits_low by lia. reflexivity.
    - rewrite <- (Z.mod_small b (2^k)) by lia. rewrite (Z.mod_pow2_bits_high b) by lia. apply andb_false_r. }
  replace (- 2^k + (2^j - 1)) with ((-1) * 2^k + (2^j - 1)) by lia.
  pose proof (Z.mod_pos_bound x (2^j) ltac:(lia)).
  rewrite !K by lia. rewrite Z.land_lor_distr_r. f_equal.
  - apply Z.bits_inj'. intros i Hi. rewrite Z.land_spec. destruct (Z.ltb_spec i k).
    + rewrite !(Z.mul_pow2_bits_low _ k i) by lia. apply andb_false_r.
    + rewrite !Z.mul_pow2_bits by lia. rewrite Z.div_pow2_bits by lia. rewrite Z.bits_m1 by lia. rewrite andb_true_r. f_equal. lia.
  - replace (2^j - 1) with (Z.ones j) by (rewrite Z.ones_equiv; lia). apply Z.land_ones. lia.
Qed.
(** the masked index as a 32 bit number *)
Lemma land_ends32 : forall P k j, 0 <= j -> 0 < k -> j <= k < 32 ->
  Z.land (s32 P) (- 2^k + (2^j - 1)) = s32 ((P mod 2^32 / 2^k) * 2^k + P mod 2^j).
Proof.
  intros P k j Hj Hk Hjk. rewrite land_ends by lia.
  assert (s32 P mod 2^j = P mod 2^j) as ->.
  { rewrite (mod_mod_pow2 (s32 P) j 32), s32_mod, <- mod_mod_pow2 by lia. reflexivity. }
  rewrite <- s32_mod. pose proof (s32_range P) as R0. set (b := P mod 2^j).
  assert (0 <= b < 2^k) as Hb.
  { assert (2^j <= 2^k) by (apply Z.pow_le_mono_r; lia). assert (0 < 2^j) by (apply Z.pow_pos_nonneg; lia).
    pose proof (Z.mod_pos_bound P (2^j) ltac:(lia)). unfold b. lia. }
  set (Q := s32 P) in *. clearbody Q b. clear P.
  assert (2^32 = 2^(32 - k) * 2^k) as E32 by (rewrite <- Z.pow_add_r by lia; f_equal; lia).
  assert (0 < 2^k) by (apply Z.pow_pos_nonneg; lia).
  pose proof (Z.div_mod Q (2^32) ltac:(lia)) as D.
  symmetry. transitivity (s32 (Q / 2^k * 2^k + b)).
  - apply s32_eq_iff.
    assert (Q mod 2^32 = Q + (- (Q / 2^32) * 2^(32 - k)) * 2^k) as -> by (rewrite <- Z.mul_assoc, <- E32; lia). rewrite Z.div_add by lia.
    assert ((Q / 2^k + - (Q / 2^32) * 2^(32 - k)) * 2^k + b = Q / 2^k * 2^k + b + (- (Q / 2^32)) * 2^32) as ->
      by (rewrite Z.mul_add_distr_r, <- Z.mul_assoc, <- E32; lia). apply Z_mod_plus_full.
  - apply s32_id. pose proof (Z.div_mod Q (2^k) ltac:(lia)). pose proof (Z.mod_pos_bound Q (2^k) ltac:(lia)).
    assert (2^31 = 2^(31 - k) * 2^k) as E31 by (rewrite <- Z.pow_add_r by lia; f_equal; lia).
      assert (- 2^(31 - k) <= Q / 2^k) by (apply Z.div_le_lower_bound; lia).
      assert (Q / 2^k < 2^(31 - k)) by (apply Z.div_lt_upper_bound; lia). rewrite E31. nia.
Qed.
Lemma outer2_masked : forall h, 0 <= h < 2^31 ->
  Z.land (s32 (h / 2^1 * s32 0xAAAAAAAB)) (s32 0xC0000003) = s32 ((outer2_index h / 4) * 2^30 + outer2_index h mod 4).
Proof.
  intros h H. rewrite s32_idem_mul_r. change (s32 0xC0000003) with (- 2^30 + (2^2 - 1)). rewrite land_ends32 by lia.
  change (2^1) with 2.
  assert (0 <= h / 2 < 2^30) by (split; [apply Z.div_pos; lia|apply Z.div_lt_upper_bound; lia]).
  rewrite third_top by lia. unfold outer2_index.
  assert ((h / 2 * 0xAAAAAAAB) mod 2^2 = (3 * (h / 2)) mod 4) as ->.
  { change (2^2) with 4. rewrite <- Zmult_mod_idemp_r. change (0xAAAAAAAB mod 4) with 3. f_equal. lia. }
  pose proof (Z.mod_pos_bound (3 * (h / 2)) 4 ltac:(lia)) as B4.
  set (a := (2 * (h / 2)) mod 3) in *. set (b := (3 * (h / 2)) mod 4) in *. clearbody a b.
  do 2 f_equal; [f_equal|]; [apply Z.div_unique with b|apply Z.mod_unique with a]; lia.
Qed.
Lemma outer4_masked : forall h, 0 <= h < 2^31 ->
  s32 (Z.land (s32 (h / 2^2 * s32 0xCCCCCCCD)) (s32 0xE0000003) * s32 (3 + 2^27)) =
  s32 (outer4_index h * 2^27 + 3 * (outer4_index h mod 4)).
Proof.
  intros h H. rewrite !s32_idem_mul_r. change (s32 0xE0000003) with (- 2^29 + (2^2 - 1)). rewrite land_ends32 by lia.
  change (2^2) with 4.
  assert (0 <= h / 4 < 2^29) by (split; [apply Z.div_pos; lia|apply Z.div_lt_upper_bound; lia]).
  rewrite s32_idem_mul_l. unfold outer4_index. rewrite <- (fifth_top (h / 4)) by lia.
  assert ((h / 4 * 0xCCCCCCCD) mod 4 = (h / 4) mod 4) as ->.
  { rewrite <- Zmult_mod_idemp_r. change (0xCCCCCCCD mod 4) with 1. f_equal. lia. }
  pose proof (Z.mod_pos_bound (h / 4) 4 ltac:(lia)) as B4.
  set (t := (h / 4 * 0xCCCCCCCD) mod 2^32 / 2^29) in *. set (b := (h / 4) mod 4) in *. clearbody t b.
  pose proof (Z.div_mod (3 * t) 8 ltac:(lia)) as D. set (q := 3 * t / 8) in *. set (r := (3 * t) mod 8) in *. clearbody q r.
  assert ((4 * r + b) mod 4 = b) as -> by (symmetry; apply Z.mod_unique with r; lia).
  apply s32_eq_iff. replace ((t * 2^29 + b) * (3 + 2^27)) with ((4 * r + b) * 2^27 + 3 * b + (q + t * 2^24) * 2^32) by lia.
  apply Z_mod_plus_full.
Qed.
End Index.

(** rewrite every use of the gradient index [s32 X] into the value [X / 2^28] *)
Lemma grad12_bit31 : forall X, (s32 X <? 0)%Z = Z.testbit (X / 2^28) 3.
Proof. intros. rewrite s32_neg_bit, Z.div_pow2_bits by lia. reflexivity. Qed.
Lemma grad12_nonneg : forall X, (s32 X >=? 0)%Z = negb (Z.testbit (X / 2^28) 3).
Proof. intros. rewrite Z.geb_leb, Z.leb_antisym, grad12_bit31. reflexivity. Qed.
Lemma grad12_shr : forall X, (0 <= X / 2^28 < 12)%Z -> (z_shr 28 (s32 X) mod Z.of_nat 16 = X / 2^28)%Z.
Proof. intros X H. unfold z_shr. change (Z.of_nat 16) with (2^4)%Z. rewrite s32_div_mod by lia. apply Z.mod_small. lia. Qed.
Lemma grad12_shr29 : forall X, (0 <= X / 2^28 < 12)%Z -> (z_shr 29 (s32 X) mod Z.of_nat 8 = X / 2^28 / 2)%Z.
Proof.
  intros X H. unfold z_shr. change (Z.of_nat 8) with (2^3)%Z. rewrite s32_div_mod by lia.
  change (2^29)%Z with (2^28 * 2)%Z. rewrite <- Z.div_div by lia. apply Z.mod_small.
  split; [apply Z.div_pos; lia|apply Z.div_lt_upper_bound; lia].
Qed.
Lemma grad12_ushr : forall X, (0 <= X < 2^32)%Z -> (0 <= X / 2^28 < 12)%Z -> (z_ushr 28 (s32 X) = X / 2^28)%Z.
Proof.
  intros X H0 H. unfold z_ushr, u32. rewrite s32_mod, (Z.mod_small X) by lia. apply s32_id. lia.
Qed.


Ltac bits28 X :=
  repeat match goal with |- context [Z.testbit (s32 X) ?e] =>
    let e' := eval compute in (e - 28)%Z in change (Z.testbit (s32 X) e) with (Z.testbit (s32 X) (e' + 28));
    rewrite (s32_bits_div X 28 e') by lia end.
Section K.
Variable inf : R.
Variable bits : R -> Z.
Notation S := (Rops inf bits).
Lemma sk2 : @kSkew2f S = skew2. Proof. unfold kSkew2f, skew2. cbn [lit Rops]. change (-25)%Z with (- (25))%Z; rewrite (pow2_neg 25) by lia. reflexivity. Qed.
Lemma kA : @kComponentA S = compA. Proof. unfold kComponentA, compA. cbn [lit Rops]. change (-19)%Z with (- (19))%Z; rewrite (pow2_neg 19) by lia. reflexivity. Qed.
Lemma kB : @kComponentB S = compB. Proof. unfold kComponentB, compB. cbn [lit Rops]. change (-26)%Z with (- (26))%Z; rewrite (pow2_neg 26) by lia. unfold Rdiv. rewrite <- Ropp_mult_distr_l_reverse. reflexivity. Qed.
End K.
