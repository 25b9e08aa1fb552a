(** Token view of the byte stream with its run-length coded node ends. *)
From Coq Require Import ZArith List Bool Lia ZifyBool ZifyNat.
From Verif Require Import Prelude Registry_Model Base64_Model NodeTree_Model.
Import ListNotations.
Open Scope Z_scope.
Ltac Zify.zify_post_hook ::= Z.div_mod_to_equations.

Global Arguments Z.add : simpl never.
Global Arguments Z.mul : simpl never.
Global Arguments Z.div : simpl never.
Global Arguments Z.modulo : simpl never.
Global Arguments Z.of_nat : simpl never.
Global Arguments Z.to_nat : simpl never.

Inductive tok := TB (bs : list Z) | TEnd.

Definition flush (k : nat) : list Z := match k with O => [] | S k' => [4 + 8 * Z.of_nat k'] end.

(** bytes of a token list, with [k] node ends pending *)
Fixpoint enc (k : nat) (ts : list tok) : list Z :=
  match ts with
  | [] => flush k
  | TB bs :: ts' => flush k ++ bs ++ enc 0 ts'
  | TEnd :: ts' => if Nat.eqb (S k) 32 then flush 32 ++ enc 0 ts' else enc (S k) ts'
  end.

(** writer state [w] has emitted the tokens [T] *)
Definition WS (w : wstream) (T : list tok) : Prop :=
  exists k, w_end w = Z.of_nat k /\ (k < 32)%nat /\ forall ts, enc 0 (T ++ ts) = w_bytes w ++ enc k ts.

Lemma WS_init : WS {| w_bytes := []; w_end := 0 |} [].
Proof. exists 0%nat. repeat split; auto; lia. Qed.

Lemma member_byte_end : forall k, (k < 32)%nat -> member_byte NodeEnd (u8 (Z.of_nat (S k)) - 1) = 4 + 8 * Z.of_nat k.
Proof.
  intros. unfold member_byte, NodeEnd, u8. change (4 mod 8) with 4.
  rewrite (Z.mod_small (Z.of_nat (S k))) by lia.
  rewrite Z.mod_small by lia. lia.
Qed.

Lemma check_bytes : forall w k, w_end w = Z.of_nat k -> (k <= 32)%nat ->
  check_node_end w = {| w_bytes := w_bytes w ++ flush k; w_end := 0 |}.
Proof.
  intros [b e] k H Hk. simpl in H. subst e. unfold check_node_end. simpl w_end. simpl w_bytes.
  destruct k as [|k].
  - simpl. rewrite app_nil_r. reflexivity.
  - replace (0 <? Z.of_nat (S k)) with true by lia.
    rewrite member_byte_end by lia. reflexivity.
Qed.

Lemma WS_add_bytes : forall w T bs, WS w T -> WS (add_bytes w bs) (T ++ [TB bs]).
Proof.
  intros w T bs (k & E & Hk & H). exists 0%nat. unfold add_bytes. rewrite (check_bytes w k) by (auto; lia).
  simpl. repeat split; [lia|]. intros ts. rewrite <- app_assoc. simpl. rewrite H. simpl.
  rewrite <- !app_assoc. reflexivity.
Qed.

Lemma WS_add_end : forall w T, WS w T -> WS (add_node_end w) (T ++ [TEnd]).
Proof.
  intros w T (k & E & Hk & H). unfold add_node_end. simpl w_end. rewrite E.
  destruct (Z.of_nat k + 1 <? 32) eqn:L.
  - exists (S k). simpl. split; [lia|]. split; [lia|]. intros ts. rewrite <- app_assoc. simpl. rewrite H.
    cbn [enc]. replace (Nat.eqb (S k) 32) with false; [reflexivity|]. symmetry. apply Nat.eqb_neq. lia.
  - assert (k = 31%nat) by lia. subst k.
    rewrite (check_bytes _ 32); [|reflexivity|lia].
    exists 0%nat. split; [reflexivity|]. split; [lia|]. intros ts. rewrite <- app_assoc. simpl app at 1. rewrite H.
    cbn [enc Nat.eqb w_bytes]. rewrite <- app_assoc. reflexivity.
Qed.

Lemma WS_final : forall w T, WS w T -> w_bytes (check_node_end w) = enc 0 T.
Proof.
  intros w T (k & E & Hk & H). rewrite (check_bytes w k) by (auto; lia).
  specialize (H []). rewrite app_nil_r in H. rewrite H. reflexivity.
Qed.

(** reader state [r] on bytes [d] is about to read the tokens [ts] *)
Definition RS (d : list Z) (r : rstream) (ts : list tok) : Prop :=
  exists e ts', ts = repeat TEnd e ++ ts' /\ r_end r = Z.of_nat e /\
    (r_pos r <= length d)%nat /\ skipn (r_pos r) d = enc 0 ts'.

Lemma RS_init : forall ts, RS (enc 0 ts) {| r_pos := 0; r_end := 0 |} ts.
Proof. intros. exists 0%nat, ts. simpl. repeat split; auto; lia. Qed.

Lemma skipn_add : forall A (d : list A) p n, skipn (p + n) d = skipn n (skipn p d).
Proof. intros A d p n. revert d. induction p; intros d; simpl; auto. destruct d; simpl; auto. rewrite skipn_nil. reflexivity. Qed.

Lemma skipn_app_pos : forall A (d : list A) p a b, skipn p d = a ++ b -> (p <= length d)%nat ->
  skipn (p + length a) d = b /\ (p + length a <= length d)%nat.
Proof.
  intros A d p a b H Hp. split.
  - rewrite skipn_add, H. rewrite skipn_app, skipn_all, Nat.sub_diag. reflexivity.
  - apply (f_equal (@length A)) in H. rewrite skipn_length, app_length in H. lia.
Qed.

Lemma rd_skipn : forall A (d : list A) p x l, skipn p d = x :: l -> rd d p = Ok x.
Proof.
  intros A d p x l H. unfold rd. revert d H. induction p; intros [|y d] H; simpl in *; try discriminate.
  - injection H; intros; subst; reflexivity.
  - apply IHp. assumption.
Qed.

Fixpoint le_val (bs : list Z) : Z := match bs with [] => 0 | b :: t => b + 256 * le_val t end.

Lemma read_le_ok : forall bs d p l, skipn p d = bs ++ l -> (p <= length d)%nat -> read_le d p (length bs) = Ok (le_val bs).
Proof.
  induction bs as [|b bs IH]; intros d p l H Hp; simpl; [reflexivity|].
  rewrite (rd_skipn _ _ _ _ _ H). simpl.
  destruct (skipn_app_pos _ d p [b] (bs ++ l) H Hp) as [H1 H2]. simpl in H1, H2.
  rewrite (IH d (S p) l); [reflexivity| |lia]. rewrite <- H1. f_equal. lia.
Qed.

Lemma RS_value : forall d r bs ts, bs <> [] -> RS d r (TB bs :: ts) ->
  exists r', get_value d (length bs) r = Ok (Some (le_val bs), r') /\ RS d r' ts /\ r_pos r' = (r_pos r + length bs)%nat.
Proof.
  intros d r bs ts Hn (e & ts' & E & Er & Hp & Hs).
  destruct e as [|e]; [|simpl in E; discriminate]. simpl in E. subst ts'.
  unfold get_value. rewrite Er. simpl (0 <? Z.of_nat 0).
  simpl in Hs. destruct (skipn_app_pos _ _ _ _ _ Hs Hp) as [H1 H2].
  replace (length d <? r_pos r + length bs)%nat with false by lia.
  rewrite (read_le_ok _ _ _ _ Hs Hp). simpl. eexists. split; [reflexivity|]. split; [|reflexivity].
  exists 0%nat, ts. simpl. repeat split; auto.
Qed.

Lemma RS_member : forall d r b ts, RS d r (TB [b] :: ts) -> b mod 8 <> 4 ->
  exists r', get_member d r = Ok (Some (member_type b, Z.to_nat (member_index b)), r') /\ RS d r' ts /\ r_pos r' = S (r_pos r).
Proof.
  intros d r b ts (e & ts' & E & Er & Hp & Hs) Hb.
  destruct e as [|e]; [|simpl in E; discriminate]. simpl in E. subst ts'.
  unfold get_member. rewrite Er. simpl (0 <? Z.of_nat 0).
  cbn [enc] in Hs. simpl flush in Hs. simpl app in Hs at 1.
  destruct (skipn_app_pos _ _ _ [b] _ Hs Hp) as [H1 H2]. simpl length in H1, H2.
  replace (length d <? r_pos r + 1)%nat with false by lia.
  simpl in Hs. rewrite (rd_skipn _ _ _ _ _ Hs). simpl.
  unfold member_type, NodeEnd. replace (b mod 8 =? 4) with false by lia.
  eexists. split; [reflexivity|]. split; [|simpl; lia].
  exists 0%nat, ts. simpl. repeat split; auto.
Qed.

Lemma enc_pending : forall ts k, (k < 32)%nat -> (1 <= k)%nat -> exists j ts', ts = repeat TEnd j ++ ts' /\ (k + j <= 32)%nat /\
   enc k ts = flush (k + j) ++ enc 0 ts'.
Proof.
  induction ts as [|[bs|] ts IH]; intros k Hk H1.
  - exists 0%nat, []. rewrite Nat.add_0_r. simpl. rewrite app_nil_r. repeat split; auto; lia.
  - exists 0%nat, (TB bs :: ts). rewrite Nat.add_0_r. repeat split; auto; lia.
  - cbn [enc]. destruct (Nat.eqb (S k) 32) eqn:E.
    + apply Nat.eqb_eq in E. exists 1%nat, ts. simpl repeat. rewrite Nat.add_1_r, E. repeat split; auto; lia.
    + apply Nat.eqb_neq in E. destruct (IH (S k)) as (j & ts' & -> & Hj & He); [lia|lia|].
      exists (S j), ts'. rewrite He. replace (k + S j)%nat with (S k + j)%nat by lia. repeat split; auto.
Qed.

Lemma RS_end : forall d r ts, RS d r (TEnd :: ts) ->
  exists ix r', get_member d r = Ok (Some (NodeEnd, ix), r') /\ RS d r' ts /\ (r_pos r <= r_pos r')%nat.
Proof.
  intros d r ts (e & ts' & E & Er & Hp & Hs). unfold get_member. rewrite Er. destruct e as [|e].
  - simpl in E. subst ts'. simpl (0 <? Z.of_nat 0).
    cbn [enc Nat.eqb] in Hs.
    destruct (enc_pending ts 1) as (j & ts' & -> & Hj & He); [lia|lia|]. rewrite He in Hs. simpl in Hs.
    destruct (skipn_app_pos _ _ _ [4 + 8 * Z.of_nat j] _ Hs Hp) as [H1 H2]. simpl length in H1, H2.
    replace (length d <? r_pos r + 1)%nat with false by lia.
    rewrite (rd_skipn _ _ _ _ _ Hs). cbn [bind].
    assert (M : member_type (4 + 8 * Z.of_nat j) = 4) by (unfold member_type; lia).
    assert (I : member_index (4 + 8 * Z.of_nat j) = Z.of_nat j) by (unfold member_index; lia).
    rewrite M, I. do 2 eexists. split; [reflexivity|]. split; [|simpl; lia].
    exists j, ts'. repeat split; auto.
  - replace (0 <? Z.of_nat (S e)) with true by lia.
    simpl in E. injection E as ->. do 2 eexists. split; [reflexivity|]. split; [|simpl; lia].
    exists e, ts'. cbn [r_pos r_end]. repeat split; auto. lia.
Qed.

Lemma le_bytes_length : forall n v, length (le_bytes n v) = n.
Proof. induction n; simpl; auto. Qed.

Lemma le_val_bytes : forall n v, 0 <= v < 256 ^ Z.of_nat n -> le_val (le_bytes n v) = v.
Proof.
  induction n; intros v H.
  - simpl in *. lia.
  - cbn [le_bytes le_val]. rewrite IHn.
    + rewrite (Z.div_mod v 256) at 3 by lia. lia.
    + rewrite Nat2Z.inj_succ, Z.pow_succ_r in H by lia. split; [apply Z.div_pos; lia|].
      apply Z.div_lt_upper_bound; lia.
Qed.

Lemma le_bytes_byte : forall n v, Forall is_byte (le_bytes n v).
Proof. induction n; intros; simpl; constructor; auto. unfold is_byte. pose proof (Z.mod_pos_bound v 256). lia. Qed.

Lemma le_bytes_1 : forall v, 0 <= v < 256 -> le_bytes 1 v = [v].
Proof. intros. simpl. rewrite Z.mod_small by lia. reflexivity. Qed.
