(** C31: lattice hashing; C32: every code path chooses the same gradients. *)
From Coq Require Import Reals ZArith List Bool Lia Lra Permutation.
From Verif Require Import Prelude Simd_Model Utils_Model Simd_R Bits.
Import ListNotations.
Open Scope Z_scope.

(** ** Specification *)
(** A lattice coordinate multiplied by its axis' prime, as every node does before hashing
    (e.g. Perlin.inl:20-23). *)
Fixpoint primed (primes cs : list Z) : list Z :=
  match primes, cs with p :: primes', c :: cs' => z_mul c p :: primed primes' cs' | _, _ => [] end.
(** the hashes of the lattice point [cs] (2, 3 or 4 coordinates) for a seed, one lane *)
Definition hash_hb (seed : Z) (cs : list Z) : Z := HashPrimesHB (W:=scalar) seed (primed PrimesLookup cs).
Definition hash31 (seed : Z) (cs : list Z) : Z := HashPrimes (W:=scalar) seed (primed PrimesLookup cs).

(** ** C31 *)
Lemma xor_fold_cons : forall x l, xor_fold (W:=scalar) (x :: l) = Z.lxor x (xor_fold (W:=scalar) l).
Proof. intros. destruct l; cbn; [rewrite Z.lxor_0_r|]; reflexivity. Qed.
Lemma xor_fold_perm : forall l l', Permutation l l' -> xor_fold (W:=scalar) l = xor_fold (W:=scalar) l'.
Proof.
  induction 1; auto.
  - rewrite !xor_fold_cons. f_equal. exact IHPermutation.
  - rewrite !xor_fold_cons. rewrite <- !Z.lxor_assoc, (Z.lxor_comm y x). reflexivity.
  - congruence.
Qed.
Lemma hb_eq : forall seed p, HashPrimesHB (W:=scalar) seed p = z_mul (Z.lxor seed (xor_fold (W:=scalar) p)) (s32 HashA).
Proof. reflexivity. Qed.
Lemma h31_eq : forall seed p, HashPrimes (W:=scalar) seed p = let h := HashPrimesHB (W:=scalar) seed p in Z.lxor (h / 2^15) h.
Proof. reflexivity. Qed.
Lemma primed_in32 : forall ps cs, Forall in32 (primed ps cs).
Proof. induction ps; destruct cs; cbn; constructor; auto. apply in32_s32. Qed.
Lemma xor_fold_in32 : forall l, Forall in32 l -> in32 (xor_fold (W:=scalar) l).
Proof. induction 1; [cbn; unfold in32; lia|]. rewrite xor_fold_cons. apply in32_lxor; auto. Qed.
Lemma A_inv : (s32 HashA * 2559385181) mod 2^32 = 1. Proof. vm_compute. reflexivity. Qed.
Lemma hb_inj : forall a b, in32 a -> in32 b -> z_mul a (s32 HashA) = z_mul b (s32 HashA) -> a = b.
Proof. intros a b Ha Hb H. eapply s32_mul_inj; eauto using A_inv. Qed.

Theorem C31_seed_injective : forall seed seed' cs, in32 seed -> in32 seed' ->
  hash_hb seed cs = hash_hb seed' cs -> seed = seed'.
Proof.
  intros seed seed' cs Hs Hs' H. unfold hash_hb in H. rewrite !hb_eq in H.
  pose proof (xor_fold_in32 _ (primed_in32 PrimesLookup cs)).
  apply hb_inj in H; try (apply in32_lxor; assumption). eapply lxor_inj_l; eauto.
Qed.
Print Assumptions C31_seed_injective.

Lemma primed_upd : forall ps cs i v v', (i < length cs)%nat -> (length cs <= length ps)%nat ->
  Forall (fun p => exists q, (p * q) mod 2^32 = 1) ps -> in32 v -> in32 v' ->
  xor_fold (W:=scalar) (primed ps (upd cs i v)) = xor_fold (W:=scalar) (primed ps (upd cs i v')) -> v = v'.
Proof.
  induction ps as [|p ps IH]; intros cs i v v' Hi Hl Hp Hv Hv' H; destruct cs as [|c cs]; cbn [length] in *; try lia.
  inversion Hp as [|? ? [q Hq] Hp']; subst. destruct i as [|i]; cbn [upd primed] in H; rewrite !xor_fold_cons in H.
  - apply lxor_inj_l in H. eapply s32_mul_inj; eauto.
  - apply lxor_inj_r in H. eapply (IH cs i); eauto; lia.
Qed.
Lemma primes_odd : Forall (fun p => exists q, (p * q) mod 2^32 = 1) PrimesLookup.
Proof.
  repeat constructor;
    [exists 4092226551|exists 1759979961|exists 1610958511|exists 3928139721]; vm_compute; reflexivity.
Qed.
Theorem C31_coordinate_injective : forall seed cs i v v', (i < length cs <= 4)%nat -> in32 seed -> in32 v -> in32 v' ->
  hash_hb seed (upd cs i v) = hash_hb seed (upd cs i v') -> v = v'.
Proof.
  intros seed cs i v v' Hi Hs Hv Hv' H. unfold hash_hb in H. rewrite !hb_eq in H.
  apply hb_inj in H; try (apply in32_lxor; [assumption|apply xor_fold_in32, primed_in32]).
  apply lxor_inj_r in H. destruct Hi as [Hi Hl]. exact (primed_upd PrimesLookup cs i v v' Hi Hl primes_odd Hv Hv' H).
Qed.
Print Assumptions C31_coordinate_injective.

(** The next lattice point along an axis is reached by adding the prime (the [x1 = x0 + Prime] of
    the nodes), also where the coordinate wraps around. *)
Theorem C31_neighbour : forall p c, z_add (z_mul c p) (s32 p) = z_mul (z_add c 1) p.
Proof.
  intros. unfold z_add, z_mul. rewrite s32_idem_add_l, s32_idem_add_r, s32_idem_mul_l. f_equal. ring.
Qed.
Print Assumptions C31_neighbour.

(** The order in which the coordinates are folded does not matter. *)
Theorem C31_order_independent : forall seed p p', Permutation p p' ->
  HashPrimesHB (W:=scalar) seed p = HashPrimesHB (W:=scalar) seed p' /\
  HashPrimes (W:=scalar) seed p = HashPrimes (W:=scalar) seed p'.
Proof.
  intros seed p p' H. rewrite !h31_eq, !hb_eq, (xor_fold_perm _ _ H). auto.
Qed.
Print Assumptions C31_order_independent.

(** The 31 bit hash is never negative, and two lattice points share it exactly when their full
    hashes are equal or bitwise complements: one bit is lost, systematically. *)
Lemma shift15_fix : forall x, in32 x -> x = x / 2^15 -> x = 0 \/ x = -1.
Proof.
  intros x Hx H. pose proof (Z.div_mod x (2^15) ltac:(lia)). pose proof (Z.mod_pos_bound x (2^15) ltac:(lia)).
  rewrite <- H in H0. lia.
Qed.
Lemma hb_in32 : forall seed p, in32 (HashPrimesHB (W:=scalar) seed p).
Proof. intros. rewrite hb_eq. apply in32_s32. Qed.
Lemma xorshift_range : forall h, in32 h -> 0 <= Z.lxor (h / 2^15) h < 2^31.
Proof.
  intros h Hh.
  assert (in32 (h / 2^15)) as Hd.
  { unfold in32 in *. split; [apply Z.div_le_lower_bound; lia|apply Z.div_lt_upper_bound; lia]. }
  pose proof (in32_lxor _ _ Hd Hh) as [A B]. split; [|exact B].
  apply Z.lxor_nonneg. split; intros; [|apply Z.div_pos; lia].
  destruct (Z.neg_nonneg_cases h); [|lia].
  assert (h / 2^15 < 0) by (apply Z.div_lt_upper_bound; lia). lia.
Qed.
Theorem C31_hash31_range : forall seed cs, 0 <= hash31 seed cs < 2^31.
Proof. intros. unfold hash31. rewrite h31_eq. apply xorshift_range, hb_in32. Qed.
Print Assumptions C31_hash31_range.
Lemma xorshift_eq : forall h h', in32 h -> in32 h' ->
  (Z.lxor (h / 2^15) h = Z.lxor (h' / 2^15) h' <-> h = h' \/ h = - 1 - h').
Proof.
  intros h h' ? ?.
  rewrite <- !Z.shiftr_div_pow2 by lia.
  assert (- 1 - h' = Z.lnot h') as -> by (unfold Z.lnot; lia).
  split.
  - intros E. assert (Z.lxor h h' = Z.shiftr (Z.lxor h h') 15) as X.
    { rewrite Z.shiftr_lxor.
      apply (lxor_inj_l _ _ (Z.lxor (Z.shiftr h 15) h')).
      transitivity (Z.lxor (Z.shiftr h 15) h).
      - rewrite (Z.lxor_comm (Z.shiftr h 15) h'), Z.lxor_assoc, <- (Z.lxor_assoc h' h'), Z.lxor_nilpotent, Z.lxor_0_l, Z.lxor_comm. reflexivity.
      - rewrite E. rewrite (Z.lxor_comm (Z.shiftr h 15) (Z.shiftr h' 15)), Z.lxor_assoc, <- (Z.lxor_assoc (Z.shiftr h 15) (Z.shiftr h 15)), Z.lxor_nilpotent, Z.lxor_0_l. reflexivity. }
    rewrite Z.shiftr_div_pow2 in X by lia. apply shift15_fix in X; [|apply in32_lxor; assumption].
    destruct X as [X|X]; [left; apply Z.lxor_eq; exact X|right].
    apply (lxor_inj_l _ _ h'). rewrite X. rewrite <- Z.lnot_lxor_l, Z.lxor_nilpotent. reflexivity.
  - intros [->| ->]; [reflexivity|].
    rewrite <- (Z.lxor_m1_r h'), Z.shiftr_lxor. replace (Z.shiftr (-1) 15) with (-1) by reflexivity.
    rewrite Z.lxor_assoc, <- (Z.lxor_assoc (-1) h'), (Z.lxor_comm (-1) h'), Z.lxor_assoc, Z.lxor_nilpotent, Z.lxor_0_r. reflexivity.
Qed.
Theorem C31_hash31_collisions : forall seed cs seed' cs',
  hash31 seed cs = hash31 seed' cs' <->
  hash_hb seed cs = hash_hb seed' cs' \/ hash_hb seed cs = - 1 - hash_hb seed' cs'.
Proof.
  intros. unfold hash31, hash_hb. rewrite !h31_eq. cbv zeta.
  apply xorshift_eq; apply hb_in32.
Qed.
Print Assumptions C31_hash31_collisions.

(** Value noise squares the hash ([hash *= hash * A], Utils.inl:247): seeds 1 and -1 give the same
    lattice value at the origin, so its value is not injective in the seed. *)
Theorem C31_value_noise_refuted : exists seed seed' : Z, in32 seed /\ in32 seed' /\ seed <> seed' /\
  forall s : sops, GetValueCoord (s:=s) (W:=scalar) seed (primed PrimesLookup [0; 0]) =
                   GetValueCoord (s:=s) (W:=scalar) seed' (primed PrimesLookup [0; 0]).
Proof.
  exists 1, (-1). split; [unfold in32; lia|]. split; [unfold in32; lia|]. split; [lia|].
  intros s. unfold GetValueCoord, slet. f_equal.
Qed.
Print Assumptions C31_value_noise_refuted.

Example C31_example : hash_hb 1337 [3; -7] <> hash_hb 1338 [3; -7] /\ hash_hb 1337 [3; -7] <> hash_hb 1337 [3; -6].
Proof. split; vm_compute; intros E; inversion E. Qed.
