(** Facts about signed 32 bit integers and single bits, used by the hash and gradient proofs. *)
From Coq Require Import ZArith List Bool Lia.
From Verif Require Import Prelude Simd_Model.
Import ListNotations.
Open Scope Z_scope.

(** representable as int32_t *)
Definition in32 (z : Z) : Prop := - 2^31 <= z < 2^31.

Lemma in32_s32 : forall z, in32 (s32 z). Proof. exact s32_range. Qed.
Lemma s32_mod : forall z, (s32 z) mod 2^32 = z mod 2^32.
Proof.
  intros. unfold s32. rewrite Zminus_mod, Zmod_mod, <- Zminus_mod. f_equal. lia.
Qed.
Lemma s32_eq_iff : forall a b, s32 a = s32 b <-> a mod 2^32 = b mod 2^32.
Proof.
  intros. split; intros H.
  - rewrite <- s32_mod, H, s32_mod. reflexivity.
  - unfold s32. f_equal. rewrite Zplus_mod, H, <- Zplus_mod. reflexivity.
Qed.
Lemma in32_s32_id : forall z, in32 z -> s32 z = z. Proof. exact s32_id. Qed.
Lemma s32_idem_mul_l : forall a b, s32 (s32 a * b) = s32 (a * b).
Proof. intros. apply s32_eq_iff. rewrite Zmult_mod, s32_mod, <- Zmult_mod. reflexivity. Qed.
Lemma s32_idem_mul_r : forall a b, s32 (a * s32 b) = s32 (a * b).
Proof. intros. apply s32_eq_iff. rewrite Zmult_mod, s32_mod, <- Zmult_mod. reflexivity. Qed.
Lemma s32_idem_add_l : forall a b, s32 (s32 a + b) = s32 (a + b).
Proof. intros. apply s32_eq_iff. rewrite Zplus_mod, s32_mod, <- Zplus_mod. reflexivity. Qed.
Lemma s32_idem_add_r : forall a b, s32 (a + s32 b) = s32 (a + b).
Proof. intros. apply s32_eq_iff. rewrite Zplus_mod, s32_mod, <- Zplus_mod. reflexivity. Qed.
Lemma s32_idem_sub_r : forall a b, s32 (a - s32 b) = s32 (a - b).
Proof. intros. apply s32_eq_iff. rewrite Zminus_mod, s32_mod, <- Zminus_mod. reflexivity. Qed.
Lemma s32_idem_sub_l : forall a b, s32 (s32 a - b) = s32 (a - b).
Proof. intros. apply s32_eq_iff. rewrite Zminus_mod, s32_mod, <- Zminus_mod. reflexivity. Qed.

(** multiplication by an odd constant can be undone *)
Lemma s32_mul_inj : forall A Ainv a b, (A * Ainv) mod 2^32 = 1 -> in32 a -> in32 b ->
  s32 (a * A) = s32 (b * A) -> a = b.
Proof.
  intros A B a b HA Ha Hb H.
  assert (E : s32 (s32 (a * A) * B) = s32 (s32 (b * A) * B)) by (rewrite H; reflexivity).
  rewrite !s32_idem_mul_l in E.
  assert (forall c, in32 c -> s32 (c * A * B) = c) as K.
  { intros c Hc. rewrite <- (in32_s32_id c) at 2 by assumption. apply s32_eq_iff.
    rewrite <- Z.mul_assoc, <- Zmult_mod_idemp_r, HA, Z.mul_1_r. reflexivity. }
  rewrite !K in E by assumption. exact E.
Qed.

Lemma in32_shift : forall z, in32 z <-> Z.shiftr z 31 = 0 \/ Z.shiftr z 31 = -1.
Proof.
  intros. rewrite Z.shiftr_div_pow2 by lia. unfold in32.
  pose proof (Z.div_mod z (2^31) ltac:(lia)). pose proof (Z.mod_pos_bound z (2^31) ltac:(lia)).
  split; intros; [|lia].
  assert (- 1 <= z / 2^31 <= 0) by (split; [apply Z.div_le_lower_bound; lia|apply Z.lt_succ_r; apply Z.div_lt_upper_bound; lia]). lia.
Qed.
Lemma in32_lxor : forall a b, in32 a -> in32 b -> in32 (Z.lxor a b).
Proof.
  intros a b Ha Hb. apply in32_shift. rewrite Z.shiftr_lxor.
  apply in32_shift in Ha, Hb. destruct Ha as [->| ->], Hb as [->| ->]; cbn; auto.
Qed.
Lemma in32_land : forall a b, in32 a -> in32 b -> in32 (Z.land a b).
Proof.
  intros a b Ha Hb. apply in32_shift. rewrite Z.shiftr_land.
  apply in32_shift in Ha, Hb. destruct Ha as [->| ->], Hb as [->| ->]; cbn; auto.
Qed.
Lemma in32_lor : forall a b, in32 a -> in32 b -> in32 (Z.lor a b).
Proof.
  intros a b Ha Hb. apply in32_shift. rewrite Z.shiftr_lor.
  apply in32_shift in Ha, Hb. destruct Ha as [->| ->], Hb as [->| ->]; cbn; auto.
Qed.
Lemma lxor_inj_l : forall a b c, Z.lxor a c = Z.lxor b c -> a = b.
Proof.
  intros a b c H. rewrite <- (Z.lxor_0_r a), <- (Z.lxor_0_r b), <- (Z.lxor_nilpotent c).
  rewrite <- !Z.lxor_assoc, H. reflexivity.
Qed.
Lemma lxor_inj_r : forall a b c, Z.lxor c a = Z.lxor c b -> a = b.
Proof. intros a b c H. rewrite !(Z.lxor_comm c) in H. eapply lxor_inj_l; eauto. Qed.

(** bits *)
Lemma s32_neg_bit : forall z, (s32 z <? 0) = Z.testbit z 31.
Proof.
  intros. rewrite Z.testbit_eqb by lia.
  assert (z mod 2^32 = 2^31 * ((z / 2^31) mod 2) + z mod 2^31) as E.
  { replace (2^32) with (2^31 * 2) by reflexivity. rewrite Z.rem_mul_r by lia. lia. }
  pose proof (Z.mod_pos_bound z (2^31) ltac:(lia)).
  pose proof (Z.mod_pos_bound (z / 2^31) 2 ltac:(lia)).
  pose proof (s32_range z). pose proof (s32_mod z) as M.
  pose proof (Z.div_mod (s32 z) (2^32) ltac:(lia)).
  pose proof (Z.mod_pos_bound (s32 z) (2^32) ltac:(lia)).
  destruct (Z.ltb_spec (s32 z) 0), (Z.eqb_spec ((z / 2^31) mod 2) 1); auto; exfalso; lia.
Qed.
Lemma shl_neg : forall k z, 0 <= k <= 31 -> (z_shl k z <? 0) = Z.testbit z (31 - k).
Proof. intros. unfold z_shl. rewrite s32_neg_bit, Z.mul_pow2_bits by lia. reflexivity. Qed.
Lemma shr_bit : forall k z i, 0 <= k -> 0 <= i -> Z.testbit (z_shr k z) i = Z.testbit z (i + k).
Proof. intros. unfold z_shr. apply Z.div_pow2_bits; lia. Qed.
Lemma s32_bit : forall z i, 0 <= i < 32 -> Z.testbit (s32 z) i = Z.testbit z i.
Proof.
  intros. rewrite <- (Z.mod_pow2_bits_low (s32 z) 32) by lia. rewrite s32_mod. apply Z.mod_pow2_bits_low. lia.
Qed.
Lemma s32_div_mod : forall z k j, 0 <= k -> 0 <= j -> k + j <= 32 -> (s32 z / 2^k) mod 2^j = (z / 2^k) mod 2^j.
Proof.
  intros. apply Z.bits_inj'. intros i Hi.
  destruct (Z.ltb_spec i j).
  - rewrite !Z.mod_pow2_bits_low, !Z.div_pow2_bits by lia. apply s32_bit. lia.
  - rewrite !Z.mod_pow2_bits_high by lia. reflexivity.
Qed.
Lemma land_field : forall x k j, 0 <= k -> 0 <= j -> Z.land x ((2^j - 1) * 2^k) = ((x / 2^k) mod 2^j) * 2^k.
Proof.
  intros. rewrite <- !Z.land_ones, <- Z.shiftr_div_pow2, <- !Z.shiftl_mul_pow2 by lia.
  replace (2^j - 1) with (Z.ones j) by (rewrite Z.ones_equiv; lia).
  apply Z.bits_inj'. intros i Hi. rewrite Z.land_spec.
  destruct (Z.ltb_spec i k).
  - rewrite !Z.shiftl_spec_low by lia. apply andb_false_r.
  - rewrite !Z.shiftl_spec_high, Z.land_spec, Z.shiftr_spec by lia. f_equal. f_equal. lia.
Qed.
Lemma land_mod : forall x j m, 0 <= j -> 0 <= m < 2^j -> Z.land x m = Z.land (x mod 2^j) m.
Proof.
  intros. apply Z.bits_inj'. intros i Hi. rewrite !Z.land_spec.
  destruct (Z.ltb_spec i j).
  - rewrite Z.mod_pow2_bits_low by lia. reflexivity.
  - rewrite <- (Z.mod_small m (2^j)) by lia. rewrite (Z.mod_pow2_bits_high m) by lia. rewrite !andb_false_r. reflexivity.
Qed.
Lemma bit_mod : forall x j i, 0 <= i < j -> Z.testbit x i = Z.testbit (x mod 2^j) i.
Proof. intros. rewrite Z.mod_pow2_bits_low by lia. reflexivity. Qed.
Lemma mod_mod_pow2 : forall x i j, 0 <= i <= j -> x mod 2^i = (x mod 2^j) mod 2^i.
Proof.
  intros. apply Z.bits_inj'. intros k Hk. destruct (Z.ltb_spec k i).
  - rewrite !Z.mod_pow2_bits_low by lia. reflexivity.
  - rewrite !Z.mod_pow2_bits_high by lia. reflexivity.
Qed.

(** case analysis over a bounded integer *)
Ltac enum r H :=
  match type of H with
  | 0 <= r < ?n =>
      let K := fresh in
      assert (K : List.In r (List.map Z.of_nat (List.seq 0 (Z.to_nat n))))
        by (rewrite List.in_map_iff; exists (Z.to_nat r); split; [rewrite Z2Nat.id; lia|rewrite List.in_seq; split; [lia|]; rewrite Nat.add_0_l; apply Z2Nat.inj_lt; lia]);
      let l := eval vm_compute in (List.map Z.of_nat (List.seq 0 (Z.to_nat n))) in
      change (List.In r l) in K; clear H; cbn [List.In] in K;
      repeat (destruct K as [K|K]; [subst r|]); [..|contradiction]
  end.
