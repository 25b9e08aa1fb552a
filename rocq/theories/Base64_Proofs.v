From Coq Require Import ZArith List Bool Lia.
From Verif Require Import Prelude Base64_Model Base64_Spec.
Import ListNotations.
Open Scope Z_scope.

Lemma bind_assoc : forall A B C (x : res A) (f : A -> res B) (g : B -> res C),
  bind (bind x f) g = bind x (fun a => bind (f a) g).
Proof. intros A B C [a| |]; reflexivity. Qed.

(** ** Tables *)
Definition range64 : list Z := List.map Z.of_nat (seq 0 64).

Lemma in_range64 : forall v, 0 <= v < 64 -> In v range64.
Proof.
  intros. unfold range64. apply in_map_iff. exists (Z.to_nat v). split; [lia|].
  apply in_seq. lia.
Qed.

Lemma all64 : forall (P : Z -> Prop) (f : Z -> bool),
  (forall v, f v = true -> P v) -> forallb f range64 = true -> forall v, 0 <= v < 64 -> P v.
Proof. intros P f Hf H v Hv. apply Hf. rewrite forallb_forall in H. apply H. apply in_range64; auto. Qed.

Definition range256 : list Z := List.map Z.of_nat (seq 0 256).
Lemma in_range256 : forall v, 0 <= v < 256 -> In v range256.
Proof.
  intros. unfold range256. apply in_map_iff. exists (Z.to_nat v). split; [lia|].
  apply in_seq. lia.
Qed.
Lemma all256 : forall (P : Z -> Prop) (f : Z -> bool),
  (forall v, f v = true -> P v) -> forallb f range256 = true -> forall v, 0 <= v < 256 -> P v.
Proof. intros P f Hf H v Hv. apply Hf. rewrite forallb_forall in H. apply H. apply in_range256; auto. Qed.

Lemma enc_table_sym : forall v, 0 <= v < 64 -> rd kEncodingTable (Z.to_nat v) = Ok (sym v).
Proof.
  apply (all64 _ (fun v => match rd kEncodingTable (Z.to_nat v) with Ok x => x =? sym v | _ => false end)).
  - intros v H. destruct (rd kEncodingTable (Z.to_nat v)); try discriminate. f_equal. lia.
  - vm_compute. reflexivity.
Qed.

Lemma dec_sym : forall v, 0 <= v < 64 -> dec_char (sym v) = Ok v.
Proof.
  apply (all64 _ (fun v => match dec_char (sym v) with Ok x => x =? v | _ => false end)).
  - intros v H. destruct (dec_char (sym v)); try discriminate. f_equal. lia.
  - vm_compute. reflexivity.
Qed.

Lemma sym_facts : forall v, 0 <= v < 64 ->
  sym v <> 64 /\ sym v <> 61 /\ 0 < sym v < 256 /\ (sym v = 65 <-> v = 0).
Proof.
  apply (all64 _ (fun v => negb (sym v =? 64) && negb (sym v =? 61) && (0 <? sym v) && (sym v <? 256)
     && Bool.eqb (sym v =? 65) (v =? 0))).
  - intros v H. repeat rewrite andb_true_iff in H. rewrite eqb_true_iff in H.
    destruct H as [[[[H1 H2] H3] H4] H5].
    destruct (Z.eqb_spec (sym v) 64); try discriminate.
    destruct (Z.eqb_spec (sym v) 61); try discriminate.
    destruct (Z.eqb_spec (sym v) 65), (Z.eqb_spec v 0); try discriminate; repeat split; try lia; auto.
  - vm_compute. reflexivity.
Qed.

Lemma dec_char_total : forall c, exists a, dec_char c = Ok a /\ 0 <= a <= 64.
Proof.
  intros c. unfold dec_char. set (k := u8 c).
  assert (Hk : 0 <= k < 256) by (unfold k, u8; apply Z.mod_pos_bound; lia).
  revert Hk. generalize k.
  apply (all256 _ (fun v => match rd kDecodingTable (Z.to_nat v) with Ok x => (0 <=? x) && (x <=? 64) | _ => false end)).
  - intros v H. destruct (rd kDecodingTable (Z.to_nat v)); try discriminate. exists a. split; [reflexivity|]. lia.
  - vm_compute. reflexivity.
Qed.

Lemma dec_At : dec_char 64 = Ok 64. Proof. reflexivity. Qed.
Lemma dec_Nul : dec_char 0 = Ok 64. Proof. reflexivity. Qed.
Lemma dec_Eq : dec_char 61 = Ok 0. Proof. reflexivity. Qed.
Lemma dec_A : dec_char 65 = Ok 0. Proof. reflexivity. Qed.

(** ** Encoding as a fold of [append_char] over the plain base64 text *)
Fixpoint append_all (st : enc_state) (cs : list Z) : res enc_state :=
  match cs with
  | [] => Ok st
  | c :: t => st' <- append_char st c ; append_all st' t
  end.

Lemma append_all_app : forall l1 l2 st,
  append_all st (l1 ++ l2) = (st' <- append_all st l1 ; append_all st' l2).
Proof.
  induction l1; intros; simpl; [reflexivity|].
  rewrite bind_assoc. destruct (append_char st a); simpl; auto.
Qed.

Lemma append_code_sym : forall st v, 0 <= v < 64 -> append_code st v = append_char st (sym v).
Proof. intros. unfold append_code. rewrite enc_table_sym by assumption. reflexivity. Qed.

Lemma bits1 : forall a, is_byte a -> Z.land (Z.shiftr a 2) 63 = a / 4 /\ 0 <= a / 4 < 64.
Proof.
  intros a [H1 H2]. rewrite Z.shiftr_div_pow2 by lia. change 63 with (Z.ones 6).
  rewrite Z.land_ones by lia. change (2^2) with 4. change (2^6) with 64.
  assert (0 <= a / 4 < 64) by (split; [apply Z.div_pos; lia | apply Z.div_lt_upper_bound; lia]).
  split; [apply Z.mod_small; lia | lia].
Qed.

Lemma lor_add : forall x y k, 0 <= k -> 0 <= y < 2^k -> Z.lor (Z.shiftl x k) y = x * 2^k + y.
Proof.
  intros x y k Hk Hy.
  assert (HL : Z.land (Z.shiftl x k) y = 0).
  2:{ rewrite <- Z.lxor_lor by exact HL. rewrite <- Z.add_nocarry_lxor by exact HL.
      rewrite Z.shiftl_mul_pow2 by lia. lia. }
  { apply Z.bits_inj'. intros n Hn. rewrite Z.land_spec, Z.bits_0, Z.shiftl_spec by lia.
    destruct (Z.ltb_spec n k).
    + rewrite Z.testbit_neg_r by lia. reflexivity.
    + rewrite andb_comm.
      replace (Z.testbit y n) with false; [reflexivity|].
      destruct (Z.eq_dec y 0) as [->|]; [symmetry; apply Z.bits_0|].
      symmetry. apply Z.bits_above_log2; [lia|]. assert (Z.log2 y < k) by (apply Z.log2_lt_pow2; lia). lia. }
Qed.

Lemma land_hi : forall b k, is_byte b -> 0 <= k <= 8 -> Z.shiftr (Z.land b (256 - 2^k)) k = b / 2^k.
Proof.
  intros b k [H1 H2] Hk. rewrite <- Z.shiftr_div_pow2 by lia.
  apply Z.bits_inj'. intros n Hn. rewrite !Z.shiftr_spec, Z.land_spec by lia.
  replace (256 - 2^k) with (Z.shiftl (Z.ones (8 - k)) k).
  2:{ rewrite Z.shiftl_mul_pow2 by lia. rewrite Z.ones_equiv. unfold Z.pred.
      rewrite Z.mul_add_distr_r. rewrite <- Z.pow_add_r by lia. replace (8-k+k) with 8 by lia. change (2^8) with 256. lia. }
  rewrite Z.shiftl_spec by lia. replace (n + k - k) with n by lia.
  destruct (Z.ltb_spec n (8-k)).
  - rewrite Z.ones_spec_low by lia. apply andb_true_r.
  - rewrite Z.ones_spec_high by lia. rewrite andb_false_r. symmetry.
    destruct (Z.eq_dec b 0) as [->|]; [apply Z.bits_0|].
    apply Z.bits_above_log2; [lia|]. assert (Z.log2 b < 8) by (apply Z.log2_lt_pow2; [lia|change (2^8) with 256; lia]). lia.
Qed.

Lemma bits2 : forall a b, is_byte a -> is_byte b ->
  Z.lor (Z.shiftl (Z.land a 3) 4) (Z.shiftr (Z.land b 240) 4) = a mod 4 * 16 + b / 16
  /\ 0 <= a mod 4 * 16 + b / 16 < 64.
Proof.
  intros a b Ha Hb. change 240 with (256 - 2^4). rewrite land_hi by (auto; lia).
  change 3 with (Z.ones 2). rewrite Z.land_ones by lia. change (2^2) with 4. change (2^4) with 16.
  destruct Ha, Hb.
  assert (0 <= b / 16 < 16) by (split; [apply Z.div_pos; lia | apply Z.div_lt_upper_bound; lia]).
  pose proof (Z.mod_pos_bound a 4).
  split; [rewrite lor_add by (change (2^4) with 16; lia); reflexivity | lia].
Qed.

Lemma bits3 : forall b c, is_byte b -> is_byte c ->
  Z.lor (Z.shiftl (Z.land b 15) 2) (Z.shiftr (Z.land c 192) 6) = b mod 16 * 4 + c / 64
  /\ 0 <= b mod 16 * 4 + c / 64 < 64.
Proof.
  intros a b Ha Hb. change 192 with (256 - 2^6). rewrite land_hi by (auto; lia).
  change 15 with (Z.ones 4). rewrite Z.land_ones by lia. change (2^4) with 16. change (2^6) with 64.
  destruct Ha, Hb.
  assert (0 <= b / 64 < 4) by (split; [apply Z.div_pos; lia | apply Z.div_lt_upper_bound; lia]).
  pose proof (Z.mod_pos_bound a 16).
  split; [rewrite lor_add by (change (2^2) with 4; lia); reflexivity | lia].
Qed.

Lemma bits4 : forall c, Z.land c 63 = c mod 64 /\ 0 <= c mod 64 < 64.
Proof.
  intros. change 63 with (Z.ones 6). rewrite Z.land_ones by lia. split; [reflexivity|].
  apply Z.mod_pos_bound. lia.
Qed.

Lemma bits2' : forall a, is_byte a -> Z.shiftl (Z.land a 3) 4 = a mod 4 * 16 /\ 0 <= a mod 4 * 16 < 64.
Proof.
  intros a Ha. change 3 with (Z.ones 2). rewrite Z.land_ones by lia. rewrite Z.shiftl_mul_pow2 by lia.
  change (2^2) with 4. change (2^4) with 16. pose proof (Z.mod_pos_bound a 4). lia.
Qed.

Lemma bits3' : forall a, is_byte a -> Z.shiftl (Z.land a 15) 2 = a mod 16 * 4 /\ 0 <= a mod 16 * 4 < 64.
Proof.
  intros a Ha. change 15 with (Z.ones 4). rewrite Z.land_ones by lia. rewrite Z.shiftl_mul_pow2 by lia.
  change (2^2) with 4. change (2^4) with 16. pose proof (Z.mod_pos_bound a 16). lia.
Qed.

Definition enc_tail (data : list Z) (i : nat) (st : enc_state) : res enc_state :=
  if (i <? length data)%nat then
     d0 <- rd data i ;
     st <- append_code st (Z.land (Z.shiftr d0 2) 63) ;
     st <- (if (i =? length data - 1)%nat then
              st <- append_code st (Z.shiftl (Z.land d0 3) 4) ;
              append_char st chEq
            else
              d1 <- rd data (i + 1) ;
              st <- append_code st (Z.lor (Z.shiftl (Z.land d0 3) 4) (Z.shiftr (Z.land d1 240) 4)) ;
              append_code st (Z.shiftl (Z.land d1 15) 2)) ;
     append_char st chEq
   else append_char st chNul.

Definition final_nul (d : list Z) : list Z := if (length d mod 3 =? 0)%nat then [chNul] else [].

Lemma rd_pre : forall A (pre rest : list A) i k, i = (length pre + k)%nat -> rd (pre ++ rest) i = rd rest k.
Proof.
  intros. subst. unfold rd. rewrite nth_error_app2 by lia. replace (length pre + k - length pre)%nat with k by lia. reflexivity.
Qed.

Lemma enc_rest : forall n rest pre st fuel,
  (length rest <= n)%nat -> (length rest < fuel)%nat ->
  Z.of_nat (length (pre ++ rest)) < 2^64 -> (2 <= length (pre ++ rest))%nat ->
  Forall is_byte rest ->
  (' (i, st) <- enc_loop fuel (pre ++ rest) (length pre) st ; enc_tail (pre ++ rest) i st)
  = append_all st (b64_text rest ++ final_nul rest).
Proof.
  induction n as [|n IH]; intros rest pre st fuel Hn Hf H64 Hge HB.
  - destruct rest; [|simpl in Hn; lia]. destruct fuel as [|fuel]; [simpl in Hf; lia|].
    rewrite app_nil_r in *. cbn [enc_loop].
    replace (Z.of_nat (length pre) <? u64 (Z.of_nat (length pre) - 2)) with false.
    2:{ symmetry. apply Z.ltb_ge. unfold u64. rewrite Z.mod_small by lia. lia. }
    simpl. unfold enc_tail. rewrite Nat.ltb_irrefl. unfold final_nul. simpl.
    destruct (append_char st chNul); reflexivity.
  - destruct fuel as [|fuel]; [lia|].
    cbn [enc_loop].
    destruct rest as [|a [|b [|c t]]].
    + apply (IH [] pre st (S fuel)); auto; simpl; lia.
    + (* one byte *)
      assert (Hl : length (pre ++ [a]) = (length pre + 1)%nat) by (rewrite app_length; reflexivity).
      replace (Z.of_nat (length pre) <? u64 (Z.of_nat (length (pre ++ [a])) - 2)) with false.
      2:{ symmetry. apply Z.ltb_ge. unfold u64. rewrite Z.mod_small by lia. lia. }
      simpl. unfold enc_tail. rewrite Hl.
      replace (length pre <? length pre + 1)%nat with true by (symmetry; apply Nat.ltb_lt; lia).
      replace (length pre =? length pre + 1 - 1)%nat with true by (symmetry; apply Nat.eqb_eq; lia).
      rewrite (rd_pre _ pre [a] _ 0) by lia. cbn [rd nth_error bind].
      inversion HB; subst.
      destruct (bits1 a) as [-> ?]; auto. destruct (bits2' a) as [-> ?]; auto.
      rewrite append_code_sym by assumption. unfold final_nul. cbn [length b64_text app Nat.modulo].
      destruct (append_char st (sym (a/4))); simpl; auto.
      rewrite append_code_sym by assumption.
      destruct (append_char a0 (sym (a mod 4 * 16))); simpl; auto.
      unfold chEq. destruct (append_char a1 61); simpl; auto.
      destruct (append_char a2 61); simpl; auto.
    + assert (Hl : length (pre ++ [a;b]) = (length pre + 2)%nat) by (rewrite app_length; reflexivity).
      replace (Z.of_nat (length pre) <? u64 (Z.of_nat (length (pre ++ [a;b])) - 2)) with false.
      2:{ symmetry. apply Z.ltb_ge. unfold u64. rewrite Z.mod_small by lia. lia. }
      simpl. unfold enc_tail. rewrite Hl.
      replace (length pre <? length pre + 2)%nat with true by (symmetry; apply Nat.ltb_lt; lia).
      replace (length pre =? length pre + 2 - 1)%nat with false by (symmetry; apply Nat.eqb_neq; lia).
      rewrite (rd_pre _ pre [a;b] _ 0) by lia. rewrite (rd_pre _ pre [a;b] _ 1) by lia.
      cbn [rd nth_error bind].
      inversion HB as [|? ? Ha HB']; subst. inversion HB' as [|? ? Hb _]; subst.
      destruct (bits1 a) as [-> ?]; auto. destruct (bits2 a b) as [-> ?]; auto. destruct (bits3' b) as [-> ?]; auto.
      rewrite append_code_sym by assumption. unfold final_nul. cbn [length b64_text app Nat.modulo].
      destruct (append_char st (sym (a/4))); simpl; auto.
      rewrite append_code_sym by assumption.
      destruct (append_char a0 (sym (a mod 4 * 16 + b / 16))); simpl; auto.
      rewrite append_code_sym by assumption.
      destruct (append_char a1 (sym (b mod 16 * 4))); simpl; auto.
      unfold chEq. destruct (append_char a2 61); simpl; auto.
    + assert (Hl : length (pre ++ a :: b :: c :: t) = (length pre + 3 + length t)%nat)
        by (rewrite app_length; simpl; lia).
      replace (Z.of_nat (length pre) <? u64 (Z.of_nat (length (pre ++ a :: b :: c :: t)) - 2)) with true.
      2:{ symmetry. apply Z.ltb_lt. unfold u64. rewrite Z.mod_small by lia. lia. }
      rewrite (rd_pre _ pre (a::b::c::t) _ 0) by lia.
      rewrite (rd_pre _ pre (a::b::c::t) _ 1) by lia.
      rewrite (rd_pre _ pre (a::b::c::t) _ 2) by lia.
      cbn [rd nth_error bind].
      inversion HB as [|? ? Ha HB1]; subst. inversion HB1 as [|? ? Hb HB2]; subst. inversion HB2 as [|? ? Hc HB3]; subst.
      destruct (bits1 a) as [-> ?]; auto. destruct (bits2 a b) as [-> ?]; auto. destruct (bits3 b c) as [-> ?]; auto.
      destruct (bits4 c) as [-> ?].
      rewrite !bind_assoc.
      rewrite append_code_sym by assumption. cbn [b64_text app append_all].
      destruct (append_char st (sym (a/4))); cbn [bind]; auto. rewrite !bind_assoc.
      rewrite append_code_sym by assumption.
      destruct (append_char a0 (sym (a mod 4 * 16 + b / 16))); cbn [bind]; auto. rewrite !bind_assoc.
      rewrite append_code_sym by assumption.
      destruct (append_char a1 (sym (b mod 16 * 4 + c / 64))); cbn [bind]; auto. rewrite !bind_assoc.
      rewrite append_code_sym by assumption.
      destruct (append_char a2 (sym (c mod 64))); cbn [bind]; auto.
      replace (pre ++ a :: b :: c :: t) with ((pre ++ [a;b;c]) ++ t) in * by (rewrite <- app_assoc; reflexivity).
      replace (length pre + 3)%nat with (length (pre ++ [a;b;c])) by (rewrite app_length; reflexivity).
      rewrite (IH t (pre ++ [a;b;c]) a3 fuel); auto.
      * f_equal. f_equal. unfold final_nul. f_equal. f_equal.
        change (length (a :: b :: c :: t)) with (S (S (S (length t)))).
        replace (S (S (S (length t)))) with (length t + 1 * 3)%nat by lia. rewrite Nat.mod_add by lia. reflexivity.
      * simpl in Hn. lia.
      * simpl in Hf. lia.
Qed.

Lemma encode_fold : forall data, (2 <= length data)%nat -> Z.of_nat (length data) < 2^64 -> Forall is_byte data ->
  encode data = (st <- append_all {| e_ret := []; e_as := 0 |} (b64_text data ++ final_nul data) ; Ok (e_ret st)).
Proof.
  intros data H2 H64 HB.
  rewrite <- (enc_rest (length data) data [] _ (S (length data))); auto.
  unfold encode. cbn [app]. rewrite bind_assoc. cbn [length].
  destruct (enc_loop (S (length data)) data 0 {| e_ret := []; e_as := 0 |}) as [[i st]| |]; cbn [bind];
  unfold enc_tail; reflexivity.
Qed.

(** ** Run-length compression invariant *)
Lemma means_app : forall s1 x1 s2 x2, means s1 x1 -> means s2 x2 -> means (s1 ++ s2) (x1 ++ x2).
Proof.
  induction 1; intros; simpl; auto.
  - constructor; auto.
  - rewrite <- app_assoc. constructor; auto.
Qed.

Lemma means_As : forall k, means (repeat 65 k) (repeat 65 k).
Proof. induction k; simpl; constructor; auto. lia. Qed.

Lemma means_length : forall s x, means s x -> (length s <= length x)%nat.
Proof. induction 1; simpl; auto; [lia|]. rewrite app_length, repeat_length. lia. Qed.


Definition ends_A (l : list Z) : Prop := exists l', l = l' ++ [65].

(** State of the compressor after the plain characters [cs]: [m] surplus
    characters have been introduced so far; as long as there is none, the
    output means exactly [cs] and [cs] has no run of 66. *)
Definition rle_inv (cs : list Z) (st : enc_state) (m : nat) : Prop :=
  exists base xs k, e_ret st = base ++ repeat 65 (min k 2) /\ e_as st = Z.of_nat k /\ (k < 66)%nat /\
    means base xs /\ (length xs + k = length cs + m)%nat /\
    (m = 0%nat -> cs = xs ++ repeat 65 k /\ ~ has_run 65 66 cs /\ ~ ends_A xs) /\
    ((0 < m)%nat -> has_run 65 66 cs).

Lemma repeat_snoc : forall (x : Z) k, repeat x k ++ [x] = repeat x (S k).
Proof. induction k; simpl; auto. rewrite IHk. reflexivity. Qed.

Lemma snoc_cases : forall (A : Type) (l : list A), l = [] \/ exists l' x, l = l' ++ [x].
Proof. intros A l. destruct l using rev_ind; [left; reflexivity | right; eauto]. Qed.

Lemma has_run_snoc : forall n l c, has_run 65 (S n) (l ++ [c]) ->
  has_run 65 (S n) l \/ (c = 65 /\ exists p, l = p ++ repeat 65 n).
Proof.
  intros n l c (p & q & H).
  destruct (snoc_cases _ q) as [-> | (q' & x & ->)].
  - right. rewrite app_nil_r, <- repeat_snoc, app_assoc in H. apply app_inj_tail in H. destruct H; subst. eauto.
  - left. rewrite app_assoc, app_assoc in H. apply app_inj_tail in H. destruct H; subst.
    exists p, q'. rewrite <- app_assoc. reflexivity.
Qed.

Lemma repeat_suffix : forall k n xs p, xs ++ repeat 65 k = p ++ repeat 65 n -> (k < n)%nat -> ends_A xs.
Proof.
  induction k; intros n xs p H Hlt.
  - destruct n; [lia|]. rewrite <- repeat_snoc in H. simpl in H. rewrite app_nil_r in H. exists (p ++ repeat 65 n).
    rewrite H, app_assoc. reflexivity.
  - destruct n; [lia|]. rewrite <- !repeat_snoc, !app_assoc in H. apply app_inj_tail in H. destruct H.
    eapply IHk; eauto. lia.
Qed.

Lemma has_run_app_l : forall n l l', has_run 65 n l -> has_run 65 n (l ++ l').
Proof. intros n l l' (p & q & ->). exists p, (q ++ l'). rewrite <- !app_assoc. reflexivity. Qed.

Lemma overwrite_ok : forall base k, (3 <= k < 67)%nat ->
  overwrite_tail (base ++ repeat 65 2) (Z.of_nat k) = Ok (base ++ [64; sym (Z.of_nat k - 3)]).
Proof.
  intros base k Hk. unfold overwrite_tail. simpl repeat.
  change (base ++ [65;65]) with (base ++ 65 :: [65]).
  rewrite (wr_mid _ base [65] 65 chAt) by (rewrite app_length; simpl; lia). cbn [bind].
  rewrite enc_table_sym by lia. cbn [bind].
  replace (base ++ [chAt; 65]) with ((base ++ [chAt]) ++ 65 :: []) by (rewrite <- app_assoc; reflexivity).
  rewrite wr_mid by (rewrite !app_length; simpl; lia). rewrite <- app_assoc. reflexivity.
Qed.

Lemma means_run_nat : forall k, (3 <= k < 67)%nat -> means [64; sym (Z.of_nat k - 3)] (repeat 65 k).
Proof.
  intros. replace (repeat 65 k) with (repeat 65 (Z.to_nat (Z.of_nat k - 3) + 3) ++ []).
  - constructor; [lia|constructor].
  - rewrite app_nil_r. f_equal. lia.
Qed.


Lemma append_char_A_inv : forall cs st m, rle_inv cs st m ->
  exists st' m', append_char st 65 = Ok st' /\ rle_inv (cs ++ [65]) st' m'.
Proof.
  intros cs st m (base & xs & k & Hret & Has & Hk & Hm & Hlen & Hex & Hrun).
  unfold append_char, chA. simpl (65 =? 65). cbv iota.
  assert (Hnorun : (k < 65)%nat -> m = 0%nat -> has_run 65 66 (cs ++ [65]) -> False).
  { intros Hk65 -> Hr. destruct (Hex eq_refl) as (Hcs & Hnr & HnA).
    apply has_run_snoc in Hr. destruct Hr as [Hr | (_ & p & Hp)]; [auto|].
    apply HnA. rewrite Hcs in Hp. eapply repeat_suffix; eauto. }
  assert (Hmk : (k < 65)%nat -> rle_inv (cs ++ [65])
       {| e_ret := base ++ repeat 65 (min (S k) 2); e_as := Z.of_nat (S k) |} m).
  { intros Hk65. exists base, xs, (S k). simpl e_ret; simpl e_as.
    split; [reflexivity|]. split; [lia|]. split; [lia|]. split; [auto|]. split; [|split].
    - rewrite app_length. simpl. lia.
    - intros Hm0. destruct (Hex Hm0) as (Hcs & Hnr & HnA). split; [|split; auto].
      rewrite Hcs at 1. rewrite <- app_assoc, repeat_snoc. reflexivity.
    - intros. apply has_run_app_l. auto. }
  destruct (Z.leb_spec (e_as st) 1) as [H1|H1].
  - exists {| e_ret := base ++ repeat 65 (min (S k) 2); e_as := Z.of_nat (S k) |}, m.
    split; [|apply Hmk; lia].
    rewrite Hret, Has, <- app_assoc. do 2 f_equal; [|lia]. f_equal.
    assert (k = 0%nat \/ k = 1%nat) as [-> | ->] by lia; reflexivity.
  - destruct (Z.geb_spec (e_as st + 1) (64 + 2)) as [H66|H66].
    + assert (k = 65)%nat by lia. subst k.
      replace (e_as st + 1) with (Z.of_nat 66) by lia.
      rewrite Hret. replace (min 65 2) with 2%nat by reflexivity.
      rewrite overwrite_ok by lia. cbn [bind].
      eexists; exists (S m); split; [reflexivity|].
      exists (base ++ [64; sym (Z.of_nat 66 - 3)]), (xs ++ repeat 65 66), 1%nat. simpl e_ret; simpl e_as.
      split; [reflexivity|]. split; [reflexivity|]. split; [lia|].
      split; [apply means_app; auto; apply means_run_nat; lia|].
      split; [rewrite !app_length, repeat_length; simpl; lia|]. split; [discriminate|].
      intros _. destruct m.
      * destruct (Hex eq_refl) as (Hcs & _ & _). rewrite Hcs, <- app_assoc, repeat_snoc.
        exists xs, []. rewrite app_nil_r. reflexivity.
      * apply has_run_app_l. apply Hrun. lia.
    + exists {| e_ret := base ++ repeat 65 (min (S k) 2); e_as := Z.of_nat (S k) |}, m.
      split; [|apply Hmk; lia].
      rewrite Hret, Has. do 2 f_equal; [|lia]. rewrite !Nat.min_r by lia. reflexivity.
Qed.

Lemma ends_A_snoc : forall l c, ends_A (l ++ [c]) -> c = 65.
Proof. intros l c (l' & H). apply app_inj_tail in H. tauto. Qed.

(** flushing on a character other than 'A' (or on the final NUL) *)
Lemma append_char_other_inv : forall cs st c m, rle_inv cs st m -> c <> 65 -> c <> 64 ->
  exists st' xs, append_char st c = Ok st' /\ e_as st' = 0 /\
    means (e_ret st') xs /\ (c <> 0 -> rle_inv (cs ++ [c]) st' m) /\
    (c = 0 -> (m = 0%nat -> xs = cs) /\ length xs = (length cs + m)%nat).
Proof.
  intros cs st c m (base & xs & k & Hret & Has & Hk & Hm & Hlen & Hex & Hrun) Hc Hat.
  unfold append_char, chA, chNul. rewrite (proj2 (Z.eqb_neq c 65) Hc).
  assert (exists base', (if e_as st >=? 3 then overwrite_tail (e_ret st) (e_as st) else Ok (e_ret st)) = Ok base'
             /\ means base' (xs ++ repeat 65 k)) as (base' & -> & Hm').
  { destruct (Z.geb_spec (e_as st) 3).
    - rewrite Hret, Has. rewrite Nat.min_r by lia. rewrite overwrite_ok by lia.
      eexists; split; [reflexivity|]. apply means_app; auto. apply means_run_nat. lia.
    - exists (e_ret st). split; [reflexivity|]. rewrite Hret. apply means_app; auto.
      rewrite Nat.min_l by lia. apply means_As. }
  cbn [bind]. destruct (Z.eqb_spec c 0) as [->|Hc0].
  - eexists; exists (xs ++ repeat 65 k). split; [reflexivity|]. simpl e_ret; simpl e_as.
    split; [reflexivity|]. split; [auto|]. split; [congruence|]. intros _. split.
    + intros Hm0. destruct (Hex Hm0) as (Hcs & _ & _). auto.
    + rewrite app_length, repeat_length. lia.
  - eexists; exists ((xs ++ repeat 65 k) ++ [c]). split; [reflexivity|]. simpl e_ret; simpl e_as.
    split; [reflexivity|].
    assert (means (base' ++ [c]) ((xs ++ repeat 65 k) ++ [c])) by (apply means_app; auto; constructor; [auto|constructor]).
    split; [auto|]. split; [|congruence]. intros _.
    exists (base' ++ [c]), ((xs ++ repeat 65 k) ++ [c]), 0%nat. simpl e_ret; simpl e_as. simpl repeat. rewrite !app_nil_r.
    split; [reflexivity|]. split; [reflexivity|]. split; [lia|]. split; [auto|]. split; [|split].
    + rewrite !app_length, repeat_length. simpl. lia.
    + intros Hm0. destruct (Hex Hm0) as (Hcs & Hnr & HnA). split; [|split].
      * rewrite <- Hcs. reflexivity.
      * intros Hr. apply has_run_snoc in Hr. destruct Hr as [Hr|[? _]]; auto.
      * intros HA. apply ends_A_snoc in HA. auto.
    + intros. apply has_run_app_l. auto.
Qed.

Lemma append_all_inv : forall cs' cs st m, rle_inv cs st m -> Forall (fun c => c <> 64 /\ c <> 0) cs' ->
  exists st' m', append_all st cs' = Ok st' /\ rle_inv (cs ++ cs') st' m' /\
    (cs' <> [] -> last cs' 0 <> 65 -> e_as st' = 0).
Proof.
  induction cs' as [|c cs' IH]; intros cs st m Hinv HF.
  - exists st, m. rewrite app_nil_r. simpl. split; auto. split; auto. congruence.
  - inversion HF as [|? ? [Hc64 Hc0] HF']; subst. simpl append_all.
    destruct (Z.eq_dec c 65) as [->|Hc].
    + destruct (append_char_A_inv _ _ _ Hinv) as (st1 & m1 & -> & H1). cbn [bind].
      destruct (IH _ _ _ H1 HF') as (st2 & m2 & -> & H2 & H3). exists st2, m2.
      rewrite <- app_assoc in H2. split; auto. split; auto. intros _ Hl.
      destruct cs'; [simpl in Hl; congruence|]. apply H3; [discriminate|]. simpl in *. auto.
    + destruct (append_char_other_inv _ _ _ _ Hinv Hc Hc64) as (st1 & xs & -> & Has & Hm & H1 & _). cbn [bind].
      destruct (IH _ _ _ (H1 Hc0) HF') as (st2 & m2 & E2 & H2 & H3). exists st2, m2. rewrite E2.
      rewrite <- app_assoc in H2. split; auto. split; auto. intros _ Hl.
      destruct cs' as [|c' cs'].
      * simpl in E2. inversion E2; subst. auto.
      * apply H3; [discriminate|]. simpl in *. auto.
Qed.

Lemma b64_text_facts : forall n d, (length d <= n)%nat -> Forall is_byte d ->
  Forall (fun c => c <> 64 /\ c <> 0) (b64_text d) /\
  (length (b64_text d) = 4 * ((length d + 2) / 3))%nat /\
  ((length d mod 3 <> 0)%nat -> exists l, b64_text d = l ++ [61]).
Proof.
  induction n as [|n IH]; intros d Hn HB.
  - destruct d; [|simpl in Hn; lia]. simpl. repeat split; auto. intros H; exfalso; apply H; reflexivity.
  - assert (HS : forall v, 0 <= v < 64 -> sym v <> 64 /\ sym v <> 0) by (intros v Hv; pose proof (sym_facts v Hv); lia).
    destruct d as [|a [|b [|c t]]].
    + simpl. repeat split; auto. intros H; exfalso; apply H; reflexivity.
    + inversion HB as [|? ? Ha HB1]; subst.
      destruct (bits1 a Ha) as [_ ?]. destruct (bits2' a Ha) as [_ ?].
      simpl. split; [repeat constructor; try apply HS; auto; lia|]. split; [reflexivity|].
      intros _. exists [sym (a/4); sym (a mod 4 * 16); 61]. reflexivity.
    + inversion HB as [|? ? Ha HB1]; subst. inversion HB1 as [|? ? Hb HB2]; subst.
      destruct (bits1 a Ha) as [_ ?]. destruct (bits2 a b Ha Hb) as [_ ?]. destruct (bits3' b Hb) as [_ ?].
      simpl. split; [repeat constructor; try apply HS; auto; lia|]. split; [reflexivity|].
      intros _. exists [sym (a/4); sym (a mod 4 * 16 + b/16); sym (b mod 16 * 4)]. reflexivity.
    + inversion HB as [|? ? Ha HB1]; subst. inversion HB1 as [|? ? Hb HB2]; subst. inversion HB2 as [|? ? Hc HB3]; subst.
      destruct (bits1 a Ha) as [_ ?]. destruct (bits2 a b Ha Hb) as [_ ?]. destruct (bits3 b c Hb Hc) as [_ ?]. destruct (bits4 c) as [_ ?].
      destruct (IH t) as (H1' & H2' & H3'); [simpl in Hn; lia|auto|].
      change (length (a::b::c::t)) with (S (S (S (length t)))).
      replace (S (S (S (length t)))) with (length t + 1 * 3)%nat by lia.
      cbn [b64_text]. split; [repeat (constructor; [apply HS; auto|]); auto|]. split.
      * cbn [length]. rewrite H2'. replace (length t + 1 * 3 + 2)%nat with (length t + 2 + 1 * 3)%nat by lia.
        rewrite Nat.div_add by lia. lia.
      * rewrite Nat.mod_add by lia. intros Hm. destruct (H3' Hm) as (l & ->).
        eexists (_ :: _ :: _ :: _ :: l). reflexivity.
Qed.

(** The result of encoding: a compressed text meaning the plain base64 text,
    unless the latter contains a run of 66 'A's. *)
Lemma encode_means : forall data, (2 <= length data)%nat -> Z.of_nat (length data) < 2^64 -> Forall is_byte data ->
  exists s xs, encode data = Ok s /\ means s xs /\
    (~ has_run 65 66 (b64_text data) -> xs = b64_text data) /\
    (has_run 65 66 (b64_text data) -> (length (b64_text data) < length xs)%nat).
Proof.
  intros data H2 H64 HB.
  rewrite encode_fold by assumption.
  destruct (b64_text_facts (length data) data) as (Hc & Hlen & Hpad); auto.
  assert (H0 : rle_inv [] {| e_ret := []; e_as := 0 |} 0).
  { exists [], [], 0%nat. simpl. split; [reflexivity|]. split; [reflexivity|]. split; [lia|]. split; [constructor|].
    split; [reflexivity|]. split; [|lia]. intros _. split; [reflexivity|]. split.
    - intros (p & q & Hpq). destruct p; discriminate.
    - intros (l & Hl). destruct l; discriminate. }
  rewrite append_all_app.
  destruct (append_all_inv _ _ _ _ H0 Hc) as (st1 & m & -> & Hinv & Hlast). cbn [bind]. simpl app in Hinv.
  unfold final_nul. destruct (Nat.eqb_spec (length data mod 3) 0) as [Hm|Hm].
  - simpl append_all.
    destruct (append_char_other_inv _ _ chNul _ Hinv) as (st2 & xs & -> & _ & Hmeans & _ & Hx); try (unfold chNul; lia).
    cbn [bind]. destruct (Hx eq_refl) as [Hx1 Hx2].
    exists (e_ret st2), xs. split; [reflexivity|]. split; [auto|].
    destruct Hinv as (base & ys & k & _ & _ & _ & _ & _ & Hex & Hrun).
    split.
    + intros Hn. apply Hx1. destruct m; auto. exfalso. apply Hn. apply Hrun. lia.
    + intros Hr. rewrite Hx2. destruct m; [exfalso; apply (proj1 (proj2 (Hex eq_refl))); auto|lia].
  - simpl append_all. cbn [bind].
    destruct (Hpad Hm) as (l & Hl).
    assert (Has : e_as st1 = 0).
    { apply Hlast; rewrite Hl; [destruct l; discriminate|rewrite last_last; lia]. }
    destruct Hinv as (base & ys & k & Hret & Hk & _ & Hmeans & Hlen2 & Hex & Hrun).
    assert (k = 0)%nat by lia. subst k. simpl repeat in *. rewrite app_nil_r in Hret.
    exists (e_ret st1), ys. rewrite Hret. split; [reflexivity|]. split; [auto|].
    split.
    + intros Hn. destruct m; [destruct (Hex eq_refl) as (-> & _); rewrite app_nil_r; reflexivity|].
      exfalso. apply Hn. apply Hrun. lia.
    + intros Hr. destruct m; [exfalso; apply (proj1 (proj2 (Hex eq_refl))); auto|lia].
Qed.

(** ** Decoding *)
Definition no_nul (s : list Z) : Prop := Forall (fun c => c <> 0) s.

(** Decoder-side meaning: any character with a table value below 64 may
    follow '@' (this includes '='). *)
Inductive dmeans : list Z -> list Z -> Prop :=
| dmeans_nil : dmeans [] []
| dmeans_char : forall c s x, c <> 64 -> dmeans s x -> dmeans (c :: s) (c :: x)
| dmeans_run : forall c a s x, c <> 64 -> dec_char c = Ok a -> a <> 64 -> dmeans s x ->
    dmeans (64 :: c :: s) (repeat 65 (Z.to_nat a + 3) ++ x).

Lemma means_dmeans : forall s x, means s x -> dmeans s x.
Proof.
  induction 1; [constructor|constructor; auto|].
  apply dmeans_run; auto; [apply (sym_facts v); auto | apply dec_sym; auto | lia].
Qed.

Lemma rd_cstr_pre : forall pre rest k, rd_cstr (pre ++ rest) (length pre + k) = rd_cstr rest k.
Proof. intros. unfold rd_cstr. rewrite <- app_assoc. apply rd_pre. reflexivity. Qed.

Lemma rd_cstr_0 : forall pre c rest, rd_cstr (pre ++ c :: rest) (length pre) = Ok c.
Proof. intros. replace (length pre) with (length pre + 0)%nat by lia. rewrite rd_cstr_pre. reflexivity. Qed.

Lemma rd_cstr_1 : forall pre c d rest, rd_cstr (pre ++ c :: d :: rest) (length pre + 1) = Ok d.
Proof. intros. rewrite rd_cstr_pre. reflexivity. Qed.

Lemma rd_cstr_end : forall s, rd_cstr s (length s) = Ok 0.
Proof.
  intros. replace s with (s ++ []) at 1 by apply app_nil_r. replace (length s) with (length s + 0)%nat by lia.
  rewrite rd_cstr_pre. reflexivity.
Qed.

(** pass 1 computes the expanded length, or rejects *)
Lemma dec_count_spec : forall n rest pre fuel d, (length rest <= n)%nat -> (length rest < fuel)%nat ->
  no_nul rest ->
  (exists x, dmeans rest x /\
     dec_count fuel (pre ++ rest) (length pre) d = Ok (Some (length (pre ++ rest), (d + length x)%nat)))
  \/ ((forall x, ~ dmeans rest x) /\ dec_count fuel (pre ++ rest) (length pre) d = Ok None).
Proof.
  induction n as [|n IH]; intros rest pre fuel d Hn Hf HN; (destruct fuel as [|fuel]; [lia|]).
  - destruct rest; [|simpl in Hn; lia]. left. exists []. split; [constructor|].
    rewrite app_nil_r. cbn [dec_count]. rewrite rd_cstr_end. simpl. do 3 f_equal. lia.
  - destruct rest as [|c t].
    + left. exists []. split; [constructor|].
      rewrite app_nil_r. cbn [dec_count]. rewrite rd_cstr_end. simpl. do 3 f_equal. lia.
    + inversion HN as [|? ? Hc HN']; subst.
      cbn [dec_count]. rewrite rd_cstr_0. cbn [bind]. unfold chNul, chAt. rewrite (proj2 (Z.eqb_neq c 0) Hc).
      assert (Hsucc : forall d', dec_count fuel (pre ++ c :: t) (length pre + 1) d'
                        = dec_count fuel ((pre ++ [c]) ++ t) (length (pre ++ [c])) d')
        by (intros; rewrite <- app_assoc, app_length; reflexivity).
      destruct (Z.eqb_spec c 64) as [->|Hc64].
      * destruct t as [|e t].
        -- right. split.
           ++ intros x Hx. inversion Hx; subst; congruence.
           ++ replace (rd_cstr (pre ++ [64]) (length pre + 1)) with (Ok 0).
              2:{ rewrite rd_cstr_pre. reflexivity. }
              cbn [bind]. rewrite dec_Nul. reflexivity.
        -- rewrite rd_cstr_1. cbn [bind]. inversion HN' as [|? ? He HN'']; subst.
           destruct (dec_char_total e) as (a & Ea & Ha). rewrite Ea. cbn [bind].
           destruct (Z.eqb_spec a 64) as [->|Ha64].
           ++ right. split; [|reflexivity]. intros x Hx. inversion Hx; subst; congruence.
           ++ assert (He64 : e <> 64) by (intros ->; rewrite dec_At in Ea; congruence).
              rewrite Hsucc.
              destruct fuel as [|fuel]; [simpl in Hf; lia|]. cbn [dec_count].
              rewrite rd_cstr_0. cbn [bind]. unfold chNul, chAt.
              rewrite (proj2 (Z.eqb_neq e 0) He), (proj2 (Z.eqb_neq e 64) He64).
              replace ((pre ++ [64]) ++ e :: t) with ((pre ++ [64; e]) ++ t) by (rewrite <- !app_assoc; reflexivity).
              replace (length (pre ++ [64%Z]) + 1)%nat with (length (pre ++ [64; e])) by (rewrite !app_length; simpl; lia).
              replace (pre ++ 64 :: e :: t) with ((pre ++ [64; e]) ++ t) by (rewrite <- !app_assoc; reflexivity).
              destruct (IH t (pre ++ [64;e]) fuel (d + Z.to_nat a + 2 + 1)%nat) as [(x & Hx & E)|(Hx & E)].
              ** simpl in Hn; lia. ** simpl in Hf; lia. ** auto.
              ** left. exists (repeat 65 (Z.to_nat a + 3) ++ x). split; [eapply dmeans_run; eauto|].
                 rewrite E. do 3 f_equal. rewrite app_length, repeat_length. lia.
              ** right. split; auto. intros y Hy. inversion Hy; subst; [congruence|eapply Hx; eauto].
      * rewrite Hsucc.
        replace (pre ++ c :: t) with ((pre ++ [c]) ++ t) by (rewrite <- app_assoc; reflexivity).
        destruct (IH t (pre ++ [c]) fuel (d+1)%nat) as [(x & Hx & E)|(Hx & E)].
        -- simpl in Hn; lia. -- simpl in Hf; lia. -- auto.
        -- left. exists (c :: x). split; [constructor; auto|]. rewrite E. do 3 f_equal. simpl. lia.
        -- right. split; auto. intros y Hy. inversion Hy; subst; [eapply Hx; eauto|congruence].
Qed.

(** the decoder at (i, consecutiveAs) still has to deliver [rem] *)
Definition dec_pos (s : list Z) (i cas : nat) (rem : list Z) : Prop :=
  exists pre rest x, s = pre ++ rest /\ i = length pre /\ dmeans rest x /\ rem = repeat 65 cas ++ x.

Lemma dec_fetch_spec : forall s i cas c rem, dec_pos s i cas (c :: rem) ->
  exists i' cas', dec_fetch s i cas = Ok (c, i', cas') /\ dec_pos s i' cas' rem.
Proof.
  intros s i cas c rem (pre & rest & x & -> & -> & Hd & Hrem). unfold dec_fetch.
  destruct cas as [|cas].
  - cbn [repeat app] in Hrem. change (0 <? 0)%nat with false. cbv iota. rewrite <- Hrem in Hd.
    inversion Hd as [|c1 s1 x1 Hc1 Hd1 E1 E2|c1 a s1 x1 Hc1 Ha Ha64 Hd1 E1 E2]; subst.
    + rewrite rd_cstr_0. cbn [bind]. unfold chAt.
      rewrite (proj2 (Z.eqb_neq _ 64) Hc1). eexists; eexists; split; [reflexivity|].
      exists (pre ++ [c]), s1, rem. split; [rewrite <- app_assoc; reflexivity|].
      split; [rewrite app_length; simpl; lia|]. auto.
    + rewrite rd_cstr_0. cbn [bind]. unfold chAt. change (64 =? 64) with true. cbv iota.
      rewrite rd_cstr_1. cbn [bind]. rewrite Ha. cbn [bind].
      replace (Z.to_nat a + 3)%nat with (S (Z.to_nat a + 2)) in E2 by lia. simpl in E2. injection E2; intros; subst.
      eexists; eexists; split; [reflexivity|].
      exists (pre ++ [64; c1]), s1, x1. split; [rewrite <- app_assoc; reflexivity|].
      split; [rewrite app_length; simpl; lia|]. auto.
  - simpl in Hrem. injection Hrem; intros; subst. change (0 <? S cas)%nat with true. cbv iota.
    eexists; eexists; split; [reflexivity|]. exists pre, rest, x. replace (S cas - 1)%nat with cas by lia. auto.
Qed.

(** three bytes of four characters *)
Definition quad (c0 c1 c2 c3 : Z) : list Z :=
  match dec_char c0, dec_char c1, dec_char c2, dec_char c3 with
  | Ok a, Ok b, Ok c, Ok d =>
     let triple := u32 (u32 (Z.shiftl a (3*6)) + u32 (Z.shiftl b (2*6)) + u32 (Z.shiftl c (1*6)) + u32 (Z.shiftl d (0*6))) in
     [Z.land (Z.shiftr triple (2*8)) 255; Z.land (Z.shiftr triple (1*8)) 255; Z.land (Z.shiftr triple (0*8)) 255]
  | _, _, _, _ => []
  end.

Fixpoint quads (x : list Z) : list Z :=
  match x with
  | c0 :: c1 :: c2 :: c3 :: t => quad c0 c1 c2 c3 ++ quads t
  | _ => []
  end.

Lemma put_spec : forall dn n b, (length dn <= n)%nat ->
  put (dn ++ repeat 0 (n - length dn)) (length dn) n b
  = Ok (firstn n (dn ++ [b]) ++ repeat 0 (n - length (firstn n (dn ++ [b]))), length (firstn n (dn ++ [b]))).
Proof.
  intros. unfold put. destruct (Nat.ltb_spec (length dn) n).
  - replace (n - length dn)%nat with (S (n - length dn - 1)) by lia. simpl repeat.
    rewrite wr_mid by reflexivity. cbn [bind].
    rewrite firstn_all2 by (rewrite app_length; simpl; lia).
    rewrite <- app_assoc. simpl. rewrite app_length. simpl. do 4 f_equal. f_equal. lia.
  - assert (length dn = n) by lia. subst n. rewrite Nat.sub_diag. simpl repeat. rewrite app_nil_r.
    rewrite firstn_app, Nat.sub_diag, firstn_all, firstn_O, app_nil_r. rewrite Nat.sub_diag, app_nil_r. reflexivity.
Qed.

Lemma dec_loop_spec : forall n rem s i cas fuel outLen dn,
  (length rem <= n)%nat -> (length rem < fuel)%nat -> (length rem mod 4 = 0)%nat -> dec_pos s i cas rem -> (length dn <= outLen)%nat ->
  dec_loop fuel s (length s) outLen i (length dn) cas (dn ++ repeat 0 (outLen - length dn))
  = Ok (firstn outLen (dn ++ quads rem) ++ repeat 0 (outLen - length (firstn outLen (dn ++ quads rem)))).
Proof.
  induction n as [|n IH]; intros rem s i cas fuel outLen dn Hn Hf Hmod Hpos Hdn; (destruct fuel as [|fuel]; [lia|]).
  1: assert (rem = []) by (destruct rem; [auto|simpl in Hn; lia]); subst rem.
  2: destruct rem as [|c0 rem].
  1,2: (destruct Hpos as (pre & rest & x & -> & -> & Hd & Hrem); symmetry in Hrem; apply app_eq_nil in Hrem;
    destruct Hrem as [Hc ->]; destruct cas; [|discriminate]; inversion Hd; subst; [|destruct (Z.to_nat a + 3)%nat eqn:E; [lia|discriminate]];
    cbn [dec_loop]; rewrite app_nil_r, Nat.ltb_irrefl; simpl orb; cbv iota; simpl quads; rewrite app_nil_r;
    rewrite firstn_all2 by lia; reflexivity).
  destruct rem as [|c1 [|c2 [|c3 rem]]]; try (simpl in Hmod; discriminate).
  cbn [dec_loop].
  assert (Hcond : (i <? length s)%nat || (0 <? cas)%nat = true).
  { destruct Hpos as (pre & rest & x & -> & -> & Hd & Hrem). destruct cas; [|simpl; apply orb_true_r].
    simpl in Hrem. subst x. inversion Hd; subst; rewrite app_length; simpl; rewrite orb_false_r; apply Nat.ltb_lt; lia. }
  rewrite Hcond.
  destruct (dec_fetch_spec _ _ _ _ _ Hpos) as (i1 & k1 & -> & P1). cbn [bind].
  destruct (dec_fetch_spec _ _ _ _ _ P1) as (i2 & k2 & -> & P2). cbn [bind].
  destruct (dec_fetch_spec _ _ _ _ _ P2) as (i3 & k3 & -> & P3). cbn [bind].
  destruct (dec_fetch_spec _ _ _ _ _ P3) as (i4 & k4 & -> & P4). cbn [bind].
  cbn [quads]. unfold quad.
  destruct (dec_char_total c0) as (a & -> & _). destruct (dec_char_total c1) as (b & -> & _).
  destruct (dec_char_total c2) as (c & -> & _). destruct (dec_char_total c3) as (d & -> & _). cbn [bind].
  set (triple := u32 _).
  rewrite put_spec by assumption. cbn [bind].
  rewrite put_spec by (rewrite firstn_length; lia). cbn [bind].
  rewrite put_spec by (rewrite firstn_length; lia). cbn [bind].
  set (b0 := Z.land (Z.shiftr triple (2*8)) 255). set (b1 := Z.land (Z.shiftr triple (1*8)) 255).
  set (b2 := Z.land (Z.shiftr triple (0*8)) 255).
  assert (Hff : forall (l : list Z) y, firstn outLen (firstn outLen l ++ y) = firstn outLen (l ++ y)).
  { intros l y. rewrite !firstn_app. rewrite firstn_firstn, Nat.min_id. f_equal. rewrite firstn_length.
    destruct (Nat.le_gt_cases outLen (length l)).
    - rewrite !Nat.min_l by lia. rewrite !(proj2 (Nat.sub_0_le _ _)) by lia. reflexivity.
    - rewrite Nat.min_r by lia. reflexivity. }
  repeat (rewrite !Hff; rewrite <- !app_assoc; cbn [app]).
  rewrite (IH rem s i4 k4); auto.
  - rewrite !Hff. rewrite <- !app_assoc. reflexivity.
  - simpl in Hn. lia.
  - simpl in Hf. lia.
  - replace (length (c0 :: c1 :: c2 :: c3 :: rem)) with (length rem + 1 * 4)%nat in Hmod by (simpl; lia).
    rewrite Nat.mod_add in Hmod by lia. auto.
  - rewrite firstn_length. lia.
Qed.

Lemma dmeans_length : forall s x, dmeans s x -> (length s <= length x)%nat.
Proof. induction 1; simpl; auto; [lia|]. rewrite app_length, repeat_length. lia. Qed.

Lemma quads_length : forall n x, (length x <= n)%nat -> (length x mod 4 = 0)%nat -> length (quads x) = (length x / 4 * 3)%nat.
Proof.
  induction n as [|n IH]; intros x Hn Hm; (destruct x as [|c0 x]; [reflexivity|]); [simpl in Hn; lia|].
  destruct x as [|c1 [|c2 [|c3 x]]]; try (simpl in Hm; discriminate).
  replace (length (c0 :: c1 :: c2 :: c3 :: x)) with (length x + 1 * 4)%nat in * by (simpl; lia).
  rewrite Nat.mod_add in Hm by lia. rewrite Nat.div_add by lia.
  cbn [quads]. rewrite app_length, IH; auto; [|lia]. unfold quad.
  destruct (dec_char_total c0) as (a & -> & _). destruct (dec_char_total c1) as (b & -> & _).
  destruct (dec_char_total c2) as (c & -> & _). destruct (dec_char_total c3) as (d & -> & _). cbn [length]. lia.
Qed.

(** number of padding characters the decoder sees at the end of the text *)
Definition pad_count (s : list Z) : nat :=
  if nth (length s - 1) s 0 =? 61 then (if nth (length s - 2) s 0 =? 61 then 2%nat else 1%nat) else 0%nat.

Lemma rd_cstr_nth : forall s i, (i < length s)%nat -> rd_cstr s i = Ok (nth i s 0).
Proof.
  intros. unfold rd_cstr. rewrite rd_app_l by assumption. apply rd_Ok. apply nth_error_nth'. assumption.
Qed.

(** complete functional description of [decode] *)
Theorem decode_spec : forall s, no_nul s ->
  (exists x, dmeans s x /\ x <> [] /\ (length x mod 4 = 0)%nat /\
     decode s = Ok (firstn (length x / 4 * 3 - pad_count s) (quads x)))
  \/ (~ (exists x, dmeans s x /\ x <> [] /\ (length x mod 4 = 0)%nat) /\ decode s = Ok []).
Proof.
  intros s HN. unfold decode.
  destruct (dec_count_spec (length s) s [] (S (length s)) 0) as [(x & Hx & E)|(Hx & E)]; auto;
    simpl app in E; simpl length in E; rewrite E; cbn [bind].
  2:{ right. split; [|reflexivity]. intros (x & H & _). eapply Hx; eauto. }
  change (0 + length x)%nat with (length x).
  assert (Huniq : forall y, dmeans s y -> y = x).
  { clear - Hx. intros y Hy. revert x Hx. induction Hy; intros z Hz; inversion Hz; subst; auto; try congruence.
    - f_equal; auto.
    - replace a0 with a by congruence. f_equal. auto. }
  destruct (Nat.eqb_spec (length x / 4 * 3) 0) as [Hz|Hz]; cbn [orb]; cbv iota.
  { right. split; [|reflexivity]. intros (y & Hy & Hy0 & Hy4). rewrite (Huniq y Hy) in *.
    destruct x; [congruence|]. apply Nat.mod_divides in Hy4; [|lia]. destruct Hy4 as (q & Hq).
    rewrite Hq, (Nat.mul_comm 4 q), Nat.div_mul in Hz by lia. simpl in Hq. lia. }
  destruct (Nat.eqb_spec (length x mod 4) 0) as [Hm|Hm]; cbn [negb]; cbv iota.
  2:{ right. split; [|reflexivity]. intros (y & Hy & Hy0 & Hy4). rewrite (Huniq y Hy) in *. congruence. }
  left. exists x. assert (Hx0 : x <> []) by (intros ->; apply Hz; reflexivity).
  split; [auto|]. split; [auto|]. split; [auto|].
  assert (Hs2 : (2 <= length s)%nat).
  { destruct s as [|c0 [|c1 s]]; simpl; try lia; exfalso.
    - inversion Hx; subst. congruence.
    - inversion Hx; subst. inversion H3; subst. simpl in Hm. discriminate. }
  unfold dec_outlen. rewrite rd_cstr_nth by lia. cbn [bind]. rewrite rd_cstr_nth by lia. unfold chEq.
  set (o := (length x / 4 * 3)%nat).
  assert (Hout : (if nth (length s - 1) s 0 =? 61
                  then bind (Ok (nth (length s - 2) s 0)) (fun l2 => if l2 =? 61 then Ok (o - 1 - 1)%nat else Ok (o - 1)%nat)
                  else Ok o) = Ok (o - pad_count s)%nat).
  { unfold pad_count. cbn [bind]. destruct (nth (length s - 1) s 0 =? 61); [|f_equal; lia].
    destruct (nth (length s - 2) s 0 =? 61); f_equal; lia. }
  rewrite Hout. cbn [bind].
  pose proof (dec_loop_spec (length x) x s 0 0 (S (length x)) (o - pad_count s)%nat []) as HL.
  simpl length in HL. simpl app in HL. rewrite Nat.sub_0_r in HL.
  rewrite HL; auto; [|exists [], s, x; auto|lia].
  f_equal. rewrite firstn_length, (quads_length (length x)) by auto. fold o.
  rewrite Nat.min_l by lia. rewrite Nat.sub_diag. simpl. apply app_nil_r.
Qed.

(** ** Round trip *)
Lemma quad_vals : forall c0 c1 c2 c3 v0 v1 v2 v3 a b c,
  dec_char c0 = Ok v0 -> dec_char c1 = Ok v1 -> dec_char c2 = Ok v2 -> dec_char c3 = Ok v3 ->
  is_byte a -> is_byte b -> is_byte c ->
  v0 * 2^18 + v1 * 2^12 + v2 * 2^6 + v3 = a * 65536 + b * 256 + c ->
  0 <= v0 < 64 -> 0 <= v1 < 64 -> 0 <= v2 < 64 -> 0 <= v3 < 64 ->
  quad c0 c1 c2 c3 = [a; b; c].
Proof.
  intros c0 c1 c2 c3 v0 v1 v2 v3 a b c H0 H1 H2 H3 Ha Hb Hc E R0 R1 R2 R3.
  unfold quad. rewrite H0, H1, H2, H3. rewrite !Z.shiftl_mul_pow2 by lia.
  unfold u32. change (3*6) with 18. change (2*6) with 12. change (1*6) with 6. change (0*6) with 0.
  unfold is_byte in *.
  assert (T : ((v0 * 2^18) mod 2^32 + (v1 * 2^12) mod 2^32 + (v2 * 2^6) mod 2^32 + (v3 * 2^0) mod 2^32) mod 2^32
              = a * 65536 + b * 256 + c).
  { rewrite !(Z.mod_small (_ * _)) by lia. rewrite Z.mod_small by lia. lia. }
  rewrite T. change 255 with (Z.ones 8). rewrite !Z.land_ones, !Z.shiftr_div_pow2 by lia.
  change (2 * 8) with 16. change (1 * 8) with 8. change (0*8) with 0. change (2^16) with 65536. change (2^8) with 256. change (2^0) with 1.
  assert (E2 : (a * 65536 + b * 256 + c) / 65536 = a).
  { symmetry. apply Z.div_unique with (b * 256 + c); lia. }
  assert (E1 : (a * 65536 + b * 256 + c) / 256 = a * 256 + b).
  { symmetry. apply Z.div_unique with c; lia. }
  rewrite E2, E1, Z.div_1_r. f_equal; [apply Z.mod_small; lia|f_equal; [|f_equal]].
  - symmetry. apply Z.mod_unique with a; lia.
  - symmetry. apply Z.mod_unique with (a * 256 + b); lia.
Qed.

Definition pad_of (d : list Z) : nat := match (length d mod 3)%nat with 0%nat => 0%nat | 1%nat => 2%nat | _ => 1%nat end.

Lemma quads_text : forall n d, (length d <= n)%nat -> Forall is_byte d ->
  quads (b64_text d) = d ++ repeat 0 (pad_of d).
Proof.
  induction n as [|n IH]; intros d Hn HB; [destruct d; [reflexivity|simpl in Hn; lia]|].
  destruct d as [|a [|b [|c t]]].
  - reflexivity.
  - inversion HB as [|? ? Ha HB1]; subst.
    destruct (bits1 a Ha) as [_ ?]. destruct (bits2' a Ha) as [_ ?].
    cbn [b64_text quads]. rewrite (quad_vals _ _ _ _ (a/4) (a mod 4 * 16) 0 0 a 0 0); auto;
      try apply dec_sym; auto; try apply dec_Eq; try (unfold is_byte; lia).
    pose proof (Z.div_mod a 4). lia.
  - inversion HB as [|? ? Ha HB1]; subst. inversion HB1 as [|? ? Hb HB2]; subst.
    destruct (bits1 a Ha) as [_ ?]. destruct (bits2 a b Ha Hb) as [_ ?]. destruct (bits3' b Hb) as [_ ?].
    cbn [b64_text quads]. rewrite (quad_vals _ _ _ _ (a/4) (a mod 4 * 16 + b/16) (b mod 16 * 4) 0 a b 0); auto;
      try apply dec_sym; auto; try apply dec_Eq; try (unfold is_byte; lia).
    pose proof (Z.div_mod a 4). pose proof (Z.div_mod b 16). lia.
  - inversion HB as [|? ? Ha HB1]; subst. inversion HB1 as [|? ? Hb HB2]; subst. inversion HB2 as [|? ? Hc HB3]; subst.
    destruct (bits1 a Ha) as [_ ?]. destruct (bits2 a b Ha Hb) as [_ ?]. destruct (bits3 b c Hb Hc) as [_ ?]. destruct (bits4 c) as [_ ?].
    cbn [b64_text quads]. rewrite (quad_vals _ _ _ _ (a/4) (a mod 4 * 16 + b/16) (b mod 16 * 4 + c/64) (c mod 64) a b c); auto;
      try apply dec_sym; auto.
    + rewrite IH; auto; [|simpl in Hn; lia]. cbn [app]. do 5 f_equal. unfold pad_of.
      replace (length (a :: b :: c :: t)) with (length t + 1 * 3)%nat by (simpl; lia).
      rewrite Nat.mod_add by lia. reflexivity.
    + pose proof (Z.div_mod a 4). pose proof (Z.div_mod b 16). pose proof (Z.div_mod c 64). lia.
Qed.

(** the padding seen at the end of the plain text *)
Lemma text_pad : forall n d, (length d <= n)%nat -> Forall is_byte d ->
  pad_count (b64_text d) = pad_of d.
Proof.
  induction n as [|n IH]; intros d Hn HB; [destruct d; [reflexivity|simpl in Hn; lia]|].
  destruct d as [|a [|b [|c t]]].
  - reflexivity.
  - inversion HB as [|? ? Ha HB1]; subst. reflexivity.
  - inversion HB as [|? ? Ha HB1]; subst. inversion HB1 as [|? ? Hb HB2]; subst.
    destruct (bits3' b Hb) as [_ ?]. unfold pad_count, pad_of. cbn [b64_text length Nat.sub nth Nat.modulo].
    simpl. destruct (Z.eqb_spec (sym (b mod 16 * 4)) 61) as [E|]; [|reflexivity].
    pose proof (sym_facts (b mod 16 * 4)). lia.
  - inversion HB as [|? ? Ha HB1]; subst. inversion HB1 as [|? ? Hb HB2]; subst. inversion HB2 as [|? ? Hc HB3]; subst.
    destruct (bits3 b c Hb Hc) as [_ ?]. destruct (bits4 c) as [_ ?].
    replace (pad_of (a :: b :: c :: t)) with (pad_of t).
    2:{ unfold pad_of. replace (length (a :: b :: c :: t)) with (length t + 1 * 3)%nat by (simpl; lia).
        rewrite Nat.mod_add by lia. reflexivity. }
    rewrite <- (IH t) by (auto; simpl in Hn; lia).
    destruct (b64_text_facts (length t) t) as (_ & HL & _); auto.
    unfold pad_count. cbn [b64_text length].
    destruct t as [|e t].
    + simpl. destruct (Z.eqb_spec (sym (c mod 64)) 61) as [E|]; [|reflexivity].
      pose proof (sym_facts (c mod 64)). lia.
    + set (L := length (b64_text (e :: t))) in *.
      assert (4 <= L)%nat.
      { rewrite HL. cbn [length]. replace (S (length t) + 2)%nat with (length t + 1 * 3)%nat by lia. rewrite Nat.div_add by lia. lia. }
      replace (S (S (S (S L))) - 1)%nat with (S (S (S (S (L - 1))))) by lia.
      replace (S (S (S (S L))) - 2)%nat with (S (S (S (S (L - 2))))) by lia. cbn [nth]. reflexivity.
Qed.

(** padding of the compressed text is that of the plain one *)
Lemma means_last : forall s x, means s x -> forall l, x = l ++ [61] -> exists s', s = s' ++ [61] /\ means s' l.
Proof.
  induction 1; intros l E.
  - destruct l; discriminate.
  - destruct l as [|y l].
    + injection E; intros; subst. inversion H0; subst; [exists []; split; [reflexivity|constructor]|].
      destruct (Z.to_nat v + 3)%nat eqn:Ev; [lia|discriminate].
    + injection E; intros; subst. destruct (IHmeans l eq_refl) as (s' & -> & Hm).
      exists (y :: s'). split; [reflexivity|]. constructor; auto.
  - assert (exists l2, x = l2 ++ [61] /\ l = repeat 65 (Z.to_nat v + 3) ++ l2) as (l2 & -> & ->).
    { destruct (snoc_cases _ x) as [-> | (x' & z & ->)].
      - exfalso. rewrite app_nil_r in E. replace (Z.to_nat v + 3)%nat with (S (Z.to_nat v + 2)) in E by lia.
        rewrite <- repeat_snoc in E. apply app_inj_tail in E. destruct E; lia.
      - rewrite app_assoc in E. apply app_inj_tail in E. destruct E; subst. eauto. }
    destruct (IHmeans l2 eq_refl) as (s' & -> & Hm). exists (64 :: sym v :: s'). split; [reflexivity|]. constructor; auto.
Qed.

Lemma means_last_rev : forall s x, means s x -> forall s', s = s' ++ [61] -> exists l, x = l ++ [61] /\ means s' l.
Proof.
  induction 1; intros s' E.
  - destruct s'; discriminate.
  - destruct s' as [|y s'].
    + injection E; intros; subst. inversion H0; subst. exists []. split; [reflexivity|constructor].
    + injection E; intros; subst. destruct (IHmeans s' eq_refl) as (l & -> & Hm). exists (y :: l). split; [reflexivity|constructor; auto].
  - destruct s' as [|y [|z s']].
    + injection E; intros; discriminate.
    + injection E; intros. exfalso. pose proof (sym_facts v H). lia.
    + injection E; intros; subst. destruct (IHmeans s' eq_refl) as (l & -> & Hm).
      exists (repeat 65 (Z.to_nat v + 3) ++ l). split; [rewrite app_assoc; reflexivity|constructor; auto].
Qed.

Lemma last_nth : forall (l : list Z) x, nth (length (l ++ [x]) - 1) (l ++ [x]) 0 = x.
Proof. intros. rewrite app_length. simpl. rewrite app_nth2 by lia. replace (length l + 1 - 1 - length l)%nat with 0%nat by lia. reflexivity. Qed.

Lemma last2_nth : forall (l : list Z) x, nth (length (l ++ [x]) - 2) (l ++ [x]) 0 = nth (length l - 1) (l ++ [x]) 0.
Proof. intros. rewrite app_length. simpl. f_equal. lia. Qed.

Lemma ends61 : forall l : list Z, (nth (length l - 1) l 0 =? 61) = true <-> exists l', l = l' ++ [61].
Proof.
  intros. destruct (snoc_cases _ l) as [-> | (l' & z & ->)].
  - simpl. split; [discriminate|]. intros (l' & H). destruct l'; discriminate.
  - rewrite last_nth, Z.eqb_eq. split; [intros ->; eauto|]. intros (l2 & H). apply app_inj_tail in H. tauto.
Qed.

Lemma ends61_false : forall l : list Z, ~ (exists l', l = l' ++ [61]) -> (nth (length l - 1) l 0 =? 61) = false.
Proof. intros. destruct (nth (length l - 1) l 0 =? 61) eqn:E; [|reflexivity]. apply ends61 in E. contradiction. Qed.

Lemma means_pad : forall s x, means s x -> (2 <= length x)%nat -> pad_count s = pad_count x.
Proof.
  intros s x Hm H2. unfold pad_count.
  destruct (nth (length x - 1) x 0 =? 61) eqn:E.
  - apply ends61 in E. destruct E as (l & ->).
    destruct (means_last _ _ Hm l eq_refl) as (s' & -> & Hm'). rewrite last_nth. simpl (61 =? 61). cbv iota.
    rewrite !last2_nth. rewrite app_length in H2. simpl in H2.
    assert (l <> []) by (intros ->; simpl in H2; lia).
    assert (s' <> []) by (intros ->; inversion Hm'; subst; congruence).
    rewrite !app_nth1 by (destruct l, s'; simpl; try congruence; lia).
    destruct (nth (length l - 1) l 0 =? 61) eqn:E2.
    + apply ends61 in E2. destruct E2 as (l2 & ->). destruct (means_last _ _ Hm' l2 eq_refl) as (s2 & -> & _).
      rewrite last_nth. reflexivity.
    + rewrite ends61_false; [reflexivity|]. intros (s2 & ->).
      destruct (means_last_rev _ _ Hm' s2 eq_refl) as (l2 & -> & _). rewrite last_nth in E2. discriminate.
  - rewrite ends61_false; [reflexivity|]. intros (s2 & ->).
    destruct (means_last_rev _ _ Hm s2 eq_refl) as (l2 & -> & _). rewrite last_nth in E. discriminate.
Qed.

Lemma means_no_nul : forall s x, means s x -> no_nul x -> no_nul s.
Proof.
  unfold no_nul. induction 1; intros HN; auto.
  - inversion HN; subst. constructor; auto.
  - constructor; [lia|]. constructor; [pose proof (sym_facts v H); lia|]. apply IHmeans.
    apply Forall_app in HN. tauto.
Qed.

Lemma dmeans_unique : forall s x, dmeans s x -> forall y, dmeans s y -> y = x.
Proof.
  induction 1; intros z Hz; inversion Hz; subst; auto; try congruence.
  - f_equal; auto.
  - replace a0 with a by congruence. f_equal. auto.
Qed.

Lemma has_run_dec : forall l, has_run 65 66 l \/ ~ has_run 65 66 l.
Proof.
  induction l using rev_ind.
  - right. intros (p & q & H). destruct p; discriminate.
  - destruct IHl as [H|H]; [left; apply has_run_app_l; auto|].
    destruct (Z.eq_dec x 65) as [->|Hx].
    + destruct (list_eq_dec Z.eq_dec (skipn (length l - 65) l) (repeat 65 65)) as [E|E].
      * left. exists (firstn (length l - 65) l), []. rewrite app_nil_r. rewrite <- (firstn_skipn (length l - 65) l) at 1.
        rewrite E, <- app_assoc, repeat_snoc. reflexivity.
      * right. intros Hr. apply has_run_snoc in Hr. destruct Hr as [Hr|(_ & p & ->)]; [auto|].
        apply E. rewrite app_length, repeat_length. replace (length p + 65 - 65)%nat with (length p) by lia.
        rewrite skipn_app, skipn_all, Nat.sub_diag. reflexivity.
    + right. intros Hr. apply has_run_snoc in Hr. destruct Hr as [Hr|[? _]]; auto.
Qed.

Lemma div3_pad : forall n, (4 * ((n + 2) / 3) / 4 * 3 - (match (n mod 3)%nat with 0 => 0 | 1 => 2 | _ => 1 end) = n)%nat.
Proof.
  intros n. rewrite (Nat.mul_comm 4), Nat.div_mul by lia.
  pose proof (Nat.div_mod n 3 ltac:(lia)) as E. pose proof (Nat.mod_upper_bound n 3 ltac:(lia)).
  set (q := (n / 3)%nat) in *. set (r := (n mod 3)%nat) in *.
  assert (r = 0 \/ r = 1 \/ r = 2)%nat as [Hr|[Hr|Hr]] by lia; rewrite Hr in *.
  - replace ((n + 2) / 3)%nat with q; [lia|]. apply Nat.div_unique with 2%nat; lia.
  - replace ((n + 2) / 3)%nat with (S q); [lia|]. apply Nat.div_unique with 0%nat; lia.
  - replace ((n + 2) / 3)%nat with (S q); [lia|]. apply Nat.div_unique with 1%nat; lia.
Qed.


(** ** Character set of the encoding *)
Definition okc (c : Z) : Prop := In c alphabet \/ c = 64.

Lemma sym_alphabet : forall v, 0 <= v < 64 -> In (sym v) alphabet.
Proof. intros. unfold sym. apply nth_In. change (length alphabet) with 64%nat. lia. Qed.

Lemma table_alphabet : forall i c, rd kEncodingTable i = Ok c -> In c alphabet.
Proof.
  intros i c H. unfold rd in H. destruct (nth_error kEncodingTable i) eqn:E; [|discriminate].
  injection H; intros; subst. change alphabet with kEncodingTable. eapply nth_error_In; eauto.
Qed.

Lemma wr_Forall : forall (P : Z -> Prop) l i x l', wr l i x = Ok l' -> Forall P l -> P x -> Forall P l' /\ length l' = length l.
Proof.
  intros P l i x l' H HF HP. unfold wr in H. destruct (i <? length l)%nat; [|discriminate]. injection H; intros; subst.
  split; [|apply upd_length]. clear H. revert i. induction HF; intros [|i]; simpl; constructor; auto.
Qed.

Lemma overwrite_okc : forall r k r', overwrite_tail r k = Ok r' -> Forall okc r -> Forall okc r' /\ length r' = length r.
Proof.
  intros r k r' H HF. unfold overwrite_tail in H.
  apply bind_Ok_inv in H. destruct H as (r1 & H1 & H). apply bind_Ok_inv in H. destruct H as (c & H2 & H3).
  destruct (wr_Forall okc _ _ _ _ H1 HF) as [F1 L1]; [right; reflexivity|].
  destruct (wr_Forall okc _ _ _ _ H3 F1) as [F2 L2]; [left; eapply table_alphabet; eauto|].
  split; [auto|lia].
Qed.

Lemma append_char_okc : forall st c st', append_char st c = Ok st' -> Forall okc (e_ret st) ->
  (exists r, Forall okc r /\ length r = length (e_ret st) /\
     (e_ret st' = r ++ [c] \/ e_ret st' = r \/ e_ret st' = r ++ [65])) /\
  (c <> 65 -> exists r, Forall okc r /\ length r = length (e_ret st) /\ e_ret st' = if c =? 0 then r else r ++ [c]).
Proof.
  intros st c st' H HF. unfold append_char, chA, chNul in H.
  destruct (Z.eqb_spec c 65) as [->|Hc].
  - split; [|congruence].
    destruct (e_as st <=? 1).
    + injection H; intros; subst. exists (e_ret st). simpl. auto.
    + destruct (e_as st + 1 >=? 64 + 2).
      * apply bind_Ok_inv in H. destruct H as (r & Hr & H). injection H; intros; subst.
        apply overwrite_okc in Hr; auto. exists r. simpl. tauto.
      * injection H; intros; subst. exists (e_ret st). simpl. auto.
  - apply bind_Ok_inv in H. destruct H as (r & Hr & H). injection H; intros; subst.
    assert (Forall okc r /\ length r = length (e_ret st)) as [F L].
    { destruct (e_as st >=? 3); [apply overwrite_okc in Hr; auto|injection Hr; intros; subst; auto]. }
    simpl. split.
    + exists r. destruct (c =? 0); auto.
    + intros _. exists r. auto.
Qed.

Lemma append_all_okc : forall cs st st', append_all st cs = Ok st' -> Forall (fun c => In c alphabet) cs ->
  Forall okc (e_ret st) -> Forall okc (e_ret st') /\ (length (e_ret st') <= length (e_ret st) + length cs)%nat.
Proof.
  induction cs as [|c cs IH]; intros st st' H HA HF.
  - simpl in H. injection H; intros; subst. split; auto. lia.
  - simpl in H. apply bind_Ok_inv in H. destruct H as (st1 & H1 & H2). inversion HA; subst.
    destruct (append_char_okc _ _ _ H1 HF) as [(r & F & L & D) _].
    assert (Forall okc (e_ret st1) /\ (length (e_ret st1) <= length (e_ret st) + 1)%nat) as [F1 L1].
    { destruct D as [-> | [-> | ->]].
      - split; [apply Forall_app; split; auto; constructor; auto; left; auto|rewrite app_length; simpl; lia].
      - split; [auto|lia].
      - split; [apply Forall_app; split; auto; constructor; auto; left; left; reflexivity|rewrite app_length; simpl; lia]. }
    destruct (IH _ _ H2) as [F2 L2]; auto. split; auto. simpl. lia.
Qed.

Lemma text_body : forall n d, (length d <= n)%nat -> Forall is_byte d ->
  exists body, b64_text d = body ++ repeat 61 (pad_of d) /\ Forall (fun c => In c alphabet) body.
Proof.
  induction n as [|n IH]; intros d Hn HB; [destruct d; [exists []; split; auto|simpl in Hn; lia]|].
  destruct d as [|a [|b [|c t]]].
  - exists []. split; auto.
  - inversion HB as [|? ? Ha HB1]; subst.
    destruct (bits1 a Ha) as [_ ?]. destruct (bits2' a Ha) as [_ ?].
    exists [sym (a/4); sym (a mod 4 * 16)]. split; [reflexivity|]. repeat (apply Forall_cons; [apply sym_alphabet; auto|]); apply Forall_nil.
  - inversion HB as [|? ? Ha HB1]; subst. inversion HB1 as [|? ? Hb HB2]; subst.
    destruct (bits1 a Ha) as [_ ?]. destruct (bits2 a b Ha Hb) as [_ ?]. destruct (bits3' b Hb) as [_ ?].
    exists [sym (a/4); sym (a mod 4 * 16 + b/16); sym (b mod 16 * 4)]. split; [reflexivity|]. repeat (apply Forall_cons; [apply sym_alphabet; auto|]); apply Forall_nil.
  - inversion HB as [|? ? Ha HB1]; subst. inversion HB1 as [|? ? Hb HB2]; subst. inversion HB2 as [|? ? Hc HB3]; subst.
    destruct (bits1 a Ha) as [_ ?]. destruct (bits2 a b Ha Hb) as [_ ?]. destruct (bits3 b c Hb Hc) as [_ ?]. destruct (bits4 c) as [_ ?].
    destruct (IH t) as (body & E & F); auto; [simpl in Hn; lia|].
    exists (sym (a/4) :: sym (a mod 4 * 16 + b/16) :: sym (b mod 16 * 4 + c/64) :: sym (c mod 64) :: body).
    split.
    + cbn [b64_text]. rewrite E. cbn [app]. do 5 f_equal. unfold pad_of.
      replace (length (a :: b :: c :: t)) with (length t + 1 * 3)%nat by (simpl; lia).
      rewrite Nat.mod_add by lia. reflexivity.
    + repeat (apply Forall_cons; [apply sym_alphabet; auto|]). auto.
Qed.

Lemma pads_append : forall k st st', append_all st (repeat 61 k) = Ok st' -> Forall okc (e_ret st) ->
  exists r, Forall okc r /\ length r = length (e_ret st) /\ e_ret st' = r ++ repeat 61 k.
Proof.
  intros k st st' H HF. destruct k as [|k].
  - simpl in H. injection H; intros; subst. exists (e_ret st'). simpl. rewrite app_nil_r. auto.
  - simpl in H. apply bind_Ok_inv in H. destruct H as (st1 & H1 & H2).
    destruct (append_char_okc _ _ _ H1 HF) as [_ D]. destruct D as (r & F & L & E); [lia|]. simpl in E.
    assert (Has : e_as st1 = 0).
    { unfold append_char in H1. simpl in H1. apply bind_Ok_inv in H1. destruct H1 as (? & ? & H1). injection H1; intros; subst. reflexivity. }
    exists r. split; auto. split; auto.
    assert (G : forall k st st', append_all st (repeat 61 k) = Ok st' -> e_as st = 0 -> e_ret st' = e_ret st ++ repeat 61 k).
    { clear. induction k; intros st st' H Ha; simpl in H.
      - injection H; intros; subst. rewrite app_nil_r. reflexivity.
      - apply bind_Ok_inv in H. destruct H as (st1 & H1 & H2). unfold append_char in H1. rewrite Ha in H1. simpl in H1.
        injection H1; intros; subst. apply IHk in H2; auto. rewrite H2. simpl. rewrite <- app_assoc. reflexivity. }
    rewrite (G _ _ _ H2 Has), E, <- app_assoc. reflexivity.
Qed.

Theorem encode_charset : forall data s, (2 <= length data)%nat -> Z.of_nat (length data) < 2^64 -> Forall is_byte data ->
  encode data = Ok s ->
  exists body, s = body ++ repeat 61 (pad_of data) /\ Forall okc body /\ (length s <= length (b64_text data))%nat /\ s <> [].
Proof.
  intros data s H2 H64 HB E.
  assert (Hne : s <> []).
  { destruct (encode_means data) as (s' & xs & E' & Hm & Hno & Hyes); auto. rewrite E in E'. injection E'; intros; subst s'.
    destruct (b64_text_facts (length data) data) as (_ & Hlen & _); auto.
    assert (1 <= (length data + 2) / 3)%nat by (apply Nat.div_le_lower_bound; lia).
    intros ->. inversion Hm; subst.
    destruct (has_run_dec (b64_text data)) as [Hr|Hr]; [specialize (Hyes Hr)|specialize (Hno Hr); rewrite <- Hno in Hlen]; simpl in *; lia. }
  rewrite encode_fold in E by assumption.
  apply bind_Ok_inv in E. destruct E as (st & E & Es). injection Es; intros; subst.
  destruct (text_body (length data) data) as (body & Et & Hb); auto.
  rewrite Et, <- app_assoc in E. rewrite append_all_app in E. apply bind_Ok_inv in E. destruct E as (st1 & E1 & E2).
  destruct (append_all_okc _ _ _ E1) as [F1 L1]; [auto|apply Forall_nil|]. simpl in L1.
  rewrite append_all_app in E2. apply bind_Ok_inv in E2. destruct E2 as (st2 & E2 & E3).
  destruct (pads_append _ _ _ E2 F1) as (r & F2 & L2 & R2).
  unfold final_nul, pad_of in *. destruct (length data mod 3)%nat eqn:Em.
  - simpl in E2. injection E2; intros; subst st2. simpl in E3. apply bind_Ok_inv in E3. destruct E3 as (st3 & E3 & E4).
    injection E4; intros; subst st3.
    destruct (append_char_okc _ _ _ E3 F1) as [_ D]. destruct D as (r' & F3 & L3 & R3); [unfold chNul; lia|]. simpl in R3.
    exists r'. simpl. rewrite app_nil_r, R3. split; auto. split; auto. split; [|rewrite <- R3; auto]. rewrite Et, app_length. lia.
  - simpl in E3. injection E3; intros; subst st2. exists r. split; auto. split; auto. split; [|auto].
    rewrite Et, R2, !app_length. lia.
Qed.

Lemma okc_not : forall c, okc c -> c <> 0 /\ c <> 61 /\ 0 < c < 256.
Proof.
  intros c [H|H]; [|lia].
  assert (forallb (fun c => negb (c =? 61) && (0 <? c) && (c <? 256)) alphabet = true) as HA by reflexivity.
  rewrite forallb_forall in HA. specialize (HA c H). repeat rewrite andb_true_iff in HA.
  destruct HA as [[HA1 HA2] HA3]. destruct (Z.eqb_spec c 61); [discriminate|]. lia.
Qed.

Theorem encode_total : forall data, (2 <= length data)%nat -> Z.of_nat (length data) < 2^64 -> Forall is_byte data ->
  exists s, encode data = Ok s.
Proof. intros data H1 H2 H3. destruct (encode_means data H1 H2 H3) as (s & _ & E & _). eauto. Qed.

Lemma Ok_inj : forall A (a b : A), Ok a = Ok b -> a = b.
Proof. intros. congruence. Qed.

Theorem roundtrip_iff : forall data, (2 <= length data)%nat -> Z.of_nat (length data) < 2^64 -> Forall is_byte data ->
  exists s, encode data = Ok s /\ (decode s = Ok data <-> ~ has_run 65 66 (b64_text data)).
Proof.
  intros data H2 H64 HB.
  destruct (encode_means data) as (s & xs & E & Hm & Hno & Hyes); auto. exists s. split; [auto|].
  destruct (b64_text_facts (length data) data) as (Hc & Hlen & Hpad); auto.
  assert (Hlen4 : (4 <= length (b64_text data))%nat).
  { rewrite Hlen. assert (1 <= (length data + 2) / 3)%nat; [|lia].
    apply Nat.div_le_lower_bound; lia. }
  assert (Hnn : no_nul s).
  { destruct (encode_charset data s) as (body & -> & F & _); auto. apply Forall_app. split.
    - eapply Forall_impl; [|exact F]. intros c Hok. apply okc_not. auto.
    - apply Forall_forall. intros c Hin. apply repeat_spec in Hin. lia. }
  destruct (has_run_dec (b64_text data)) as [Hr|Hr].
  - split; [|tauto]. intros Hdec. exfalso. specialize (Hyes Hr).
    destruct (decode_spec s Hnn) as [(x & Hx & Hx0 & H4 & E2)|(_ & E2)]; rewrite E2 in Hdec; apply Ok_inj in Hdec; rename Hdec into Hd.
    + rewrite (dmeans_unique _ _ (means_dmeans _ _ Hm) _ Hx) in *.
      apply (f_equal (@length Z)) in Hd. rewrite firstn_length, (quads_length (length xs)) in Hd by auto.
      pose proof (div3_pad (length data)) as HP. rewrite <- Hlen in HP.
      assert (Hp2 : (pad_count s <= 2)%nat) by (unfold pad_count; destruct (_ =? _); [destruct (_ =? _)|]; lia).
      apply Nat.mod_divides in H4; [|lia]. destruct H4 as (q & Hq).
      rewrite Hq in Hd. rewrite (Nat.mul_comm 4 q) in Hd. rewrite !Nat.div_mul in Hd by lia.
      rewrite Hlen in HP, Hyes. rewrite (Nat.mul_comm 4), Nat.div_mul in HP by lia.
      set (w := ((length data + 2) / 3)%nat) in *. destruct (length data mod 3)%nat as [|[|?]]; lia.
    + subst data. simpl in H2. lia.
  - split; [auto|]. intros _. specialize (Hno Hr). subst xs.
    destruct (decode_spec s Hnn) as [(x & Hx & _ & H4 & ->)|(Hno' & _)].
    + rewrite (dmeans_unique _ _ (means_dmeans _ _ Hm) _ Hx) in *.
      rewrite (means_pad _ _ Hm) by lia. rewrite (text_pad (length data)) by auto. rewrite (quads_text (length data)) by auto.
      rewrite Hlen. unfold pad_of. rewrite div3_pad. f_equal. rewrite firstn_app, firstn_all, Nat.sub_diag, firstn_O, app_nil_r. reflexivity.
    + exfalso. apply Hno'. exists (b64_text data). split; [apply means_dmeans; auto|]. split; [intros E0; rewrite E0 in Hlen4; simpl in Hlen4; lia|].
      rewrite Hlen. rewrite Nat.mul_comm. apply Nat.mod_mul. lia.
Qed.

(** A run of 66 'A's needs at least 45 consecutive zero bytes in the data. *)
Lemma text_starts_As : forall k d q, Forall is_byte d -> b64_text d = repeat 65 (4 * k) ++ q ->
  exists e, d = repeat 0 (3 * k) ++ e.
Proof.
  induction k as [|k IH]; intros d q HB E; [exists d; reflexivity|].
  replace (4 * S k)%nat with (S (S (S (S (4 * k))))) in E by lia. cbn [repeat app] in E.
  assert (HA : forall v, 0 <= v < 64 -> sym v = 65 -> v = 0) by (intros v Hv; apply sym_facts; auto).
  destruct d as [|a [|b [|c t]]]; try discriminate.
  inversion HB as [|? ? Ha HB1]; subst. inversion HB1 as [|? ? Hb HB2]; subst. inversion HB2 as [|? ? Hc HB3]; subst.
  destruct (bits1 a Ha) as [_ ?]. destruct (bits2 a b Ha Hb) as [_ ?]. destruct (bits3 b c Hb Hc) as [_ ?]. destruct (bits4 c) as [_ ?].
  cbn [b64_text] in E. injection E; intros E4 E3 E2 E1 E0. clear E.
  apply HA in E0; auto. apply HA in E1; auto. apply HA in E2; auto. apply HA in E3; auto.
  destruct (IH t q HB3 E4) as (e & ->). exists e.
  replace (3 * S k)%nat with (S (S (S (3 * k)))) by lia. cbn [repeat app].
  unfold is_byte in *.
  assert (a = 0 /\ b = 0 /\ c = 0) as (-> & -> & ->); [|reflexivity].
  pose proof (Z.div_mod a 4). pose proof (Z.div_mod b 16). pose proof (Z.div_mod c 64).
  pose proof (Z.mod_pos_bound a 4). pose proof (Z.mod_pos_bound b 16). pose proof (Z.div_pos b 16). pose proof (Z.div_pos c 64). lia.
Qed.

Lemma run_zero_bytes : forall n d, (length d <= n)%nat -> Forall is_byte d -> has_run 65 66 (b64_text d) -> has_run 0 45 d.
Proof.
  induction n as [|n IH]; intros d Hn HB (p & q & E).
  - destruct d; [|simpl in Hn; lia]. destruct p; discriminate.
  - assert (Hshort : (length (b64_text d) <= 4)%nat -> False).
    { intros H. rewrite E, !app_length, repeat_length in H. lia. }
    destruct d as [|a [|b [|c t]]]; try (exfalso; apply Hshort; simpl; lia).
    inversion HB as [|? ? Ha HB1]; subst. inversion HB1 as [|? ? Hb HB2]; subst. inversion HB2 as [|? ? Hc HB3]; subst.
    assert (Hext : has_run 0 45 t -> has_run 0 45 (a :: b :: c :: t)).
    { intros (p' & q' & ->). exists (a :: b :: c :: p'), q'. reflexivity. }
    apply Hext. cbn [b64_text] in E.
    destruct (Nat.le_gt_cases 4 (length p)).
    + destruct p as [|p0 [|p1 [|p2 [|p3 p]]]]; try (simpl in H; lia). cbn [app] in E. injection E; intros E4 _ _ _ _.
      apply IH; auto; [simpl in Hn; lia|]. exists p, q. exact E4.
    + assert (exists q', b64_text t = repeat 65 (4 * 15) ++ q') as (q' & E').
      { exists (repeat 65 (length p + 2) ++ q). rewrite app_assoc, <- repeat_app.
        apply (f_equal (skipn 4)) in E. cbn [skipn] in E. rewrite E.
        destruct p as [|p0 [|p1 [|p2 [|]]]]; try (simpl in H; lia); reflexivity. }
      destruct (text_starts_As 15 t q' HB3 E') as (e & ->). exists [], e. reflexivity.
Qed.

Theorem roundtrip_no_zero_run : forall data, (2 <= length data)%nat -> Z.of_nat (length data) < 2^64 -> Forall is_byte data ->
  ~ has_run 0 45 data -> exists s, encode data = Ok s /\ decode s = Ok data.
Proof.
  intros data H2 H64 HB Hz. destruct (roundtrip_iff data H2 H64 HB) as (s & E & HI). exists s. split; auto.
  apply HI. intros Hr. apply Hz. eapply run_zero_bytes; eauto.
Qed.

Theorem decode_total : forall s, no_nul s -> exists out, decode s = Ok out /\ Forall is_byte out /\ (length out <= 3 * 17 * length s)%nat.
Proof.
  assert (HB : forall n x, (length x <= n)%nat -> Forall is_byte (quads x)).
  { induction n; intros x Hn; (destruct x as [|c0 [|c1 [|c2 [|c3 x]]]]; simpl; auto); simpl in Hn; try lia.
    apply Forall_app. split; [|apply IHn; lia]. unfold quad.
    destruct (dec_char_total c0) as (a & -> & _). destruct (dec_char_total c1) as (b & -> & _).
    destruct (dec_char_total c2) as (c & -> & _). destruct (dec_char_total c3) as (d & -> & _).
    assert (forall z, is_byte (Z.land z 255)).
    { intros. change 255 with (Z.ones 8). rewrite Z.land_ones by lia. apply Z.mod_pos_bound. lia. }
    repeat constructor; apply H. }
  assert (HL : forall s x, dmeans s x -> (length x <= 67 * length s)%nat).
  { induction 1; simpl; auto; try lia. rewrite app_length, repeat_length.
    destruct (dec_char_total c) as (a' & Ha' & Hr). assert (a = a') by congruence. subst. lia. }
  intros s HN. destruct (decode_spec s HN) as [(x & Hx & _ & H4 & ->)|(_ & ->)].
  - eexists; split; [reflexivity|]. split.
    + pose proof (HB (length x) x (le_n _)) as HF. rewrite <- (firstn_skipn (length x / 4 * 3 - pad_count s) (quads x)) in HF.
      apply Forall_app in HF. tauto.
    + rewrite firstn_length, (quads_length (length x)) by auto. specialize (HL _ _ Hx).
      apply Nat.mod_divides in H4; [|lia]. destruct H4 as (q & Hq). rewrite Hq, (Nat.mul_comm 4 q), Nat.div_mul by lia. lia.
  - exists []. split; [reflexivity|]. split; [constructor|simpl; lia].
Qed.
