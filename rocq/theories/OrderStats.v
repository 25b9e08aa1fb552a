(** Order statistics of a list of reals with payloads, and bounded insertion into a sorted window. *)
From Coq Require Import Reals List Lra Lia Permutation Sorting.Sorted Arith.
From Verif Require Import Simd_R.
Import ListNotations.
Open Scope R_scope.

Definition count_lt (v : R) (l : list R) : nat := length (filter (fun x => Rltb x v) l).
Definition count_le (v : R) (l : list R) : nat := length (filter (fun x => Rleb x v) l).
(** [v] is the k-th smallest value of [l], counting from 0: at most k elements are smaller, more than
    k are not larger. *)
Definition kth_smallest (k : nat) (l : list R) (v : R) : Prop :=
  In v l /\ (count_lt v l <= k < count_le v l)%nat.

Lemma Rleb_le : forall x y, Rleb x y = true <-> x <= y.
Proof. intros. unfold Rleb. destruct (Rle_dec x y); split; intros; auto; try discriminate; contradiction. Qed.

Lemma count_mono : forall u v l, u < v -> (count_le u l <= count_lt v l)%nat.
Proof.
  intros u v l H. unfold count_le, count_lt. induction l as [|x l IH]; cbn; [lia|].
  destruct (Rleb x u) eqn:A; destruct (Rltb x v) eqn:B; cbn; try lia.
  exfalso. apply Rleb_le in A. apply Rltb_ge in B. lra.
Qed.
Lemma kth_smallest_unique : forall k l u v, kth_smallest k l u -> kth_smallest k l v -> u = v.
Proof.
  intros k l u v (_ & A) (_ & B). destruct (Rtotal_order u v) as [H|[H|H]]; auto.
  - pose proof (count_mono _ _ l H). lia.
  - pose proof (count_mono _ _ l H). lia.
Qed.

Lemma filter_perm : forall (A : Type) (f : A -> bool) l l', Permutation l l' -> length (filter f l) = length (filter f l').
Proof.
  induction 1; cbn; auto.
  - destruct (f x); cbn; auto.
  - destruct (f x), (f y); reflexivity.
  - congruence.
Qed.
Lemma kth_smallest_perm : forall k l l' v, Permutation l l' -> kth_smallest k l v -> kth_smallest k l' v.
Proof.
  intros k l l' v H (A & B). split; [eapply Permutation_in; eauto|].
  unfold count_lt, count_le in *. rewrite <- !(filter_perm _ _ _ _ H). exact B.
Qed.

Section Window.
Context {A : Type}.
Notation item := (R * A)%type.
Notation le_item := (fun a b : item => fst a <= fst b).
(** [window] holds the smallest elements of [all], in order *)
Definition windowed (all window : list item) : Prop :=
  exists rest, Permutation all (window ++ rest) /\ StronglySorted le_item window /\
    forall a b, In a window -> In b rest -> fst a <= fst b.

Lemma sorted_app_lt : forall (l : list item) k x, StronglySorted le_item l -> nth_error l k = Some x ->
  (length (filter (fun y => Rltb (fst y) (fst x)) l) <= k)%nat /\ (k < length (filter (fun y => Rleb (fst y) (fst x)) l))%nat.
Proof.
  induction l as [|y l IH]; intros k x HS Hk; [destruct k; discriminate|].
  inversion HS as [|? ? HS' HF]; subst. rewrite Forall_forall in HF.
  destruct k as [|k]; cbn in Hk.
  - inversion Hk; subst. split.
    + assert (forall l' : list item, (forall z, In z l' -> fst x <= fst z) -> length (filter (fun y => Rltb (fst y) (fst x)) l') = 0%nat) as G.
      { induction l' as [|z l' IH']; intros Hz; cbn; auto.
        replace (Rltb (fst z) (fst x)) with false by (symmetry; apply Rltb_ge; apply Hz; left; reflexivity).
        apply IH'. intros; apply Hz; right; assumption. }
      rewrite G; [lia|]. intros z [<-|Hz]; [lra|auto].
    + cbn. replace (Rleb (fst x) (fst x)) with true by (symmetry; apply Rleb_le; lra). cbn. lia.
  - specialize (IH k x HS' Hk). destruct IH as [P Q]. cbn.
    replace (Rleb (fst y) (fst x)) with true.
    2:{ symmetry. apply Rleb_le. apply HF. eapply nth_error_In; eauto. }
    cbn. split; [|lia]. destruct (Rltb _ _); cbn; lia.
Qed.

Lemma map_filter_len : forall (f : R -> bool) (l : list item), length (filter f (map fst l)) = length (filter (fun y => f (fst y)) l).
Proof. induction l as [|y l IH]; cbn; auto. destruct (f (fst y)); cbn; auto. Qed.

Lemma windowed_kth : forall all window k x, windowed all window -> nth_error window k = Some x ->
  In x all /\ kth_smallest k (map fst all) (fst x).
Proof.
  intros all window k x (rest & HP & HS & HR) Hk.
  assert (In x all) as Hx.
  { eapply Permutation_in; [symmetry; exact HP|]. apply in_or_app. left. eapply nth_error_In; eauto. }
  split; auto. split; [apply in_map; assumption|].
  destruct (sorted_app_lt window k x HS Hk) as [P Q].
  unfold count_lt, count_le. rewrite !map_filter_len.
  rewrite !(filter_perm _ _ _ _ HP). rewrite !filter_app, !app_length.
  assert (length (filter (fun y : item => Rltb (fst y) (fst x)) rest) = 0%nat) as ->; [|lia].
  assert (forall b, In b rest -> fst x <= fst b) as HR' by (intros; apply HR; auto; eapply nth_error_In; eauto).
  clear - HR'. induction rest as [|z rest IH]; cbn; auto.
  replace (Rltb (fst z) (fst x)) with false by (symmetry; apply Rltb_ge; apply HR'; left; reflexivity).
  apply IH. intros; apply HR'; right; assumption.
Qed.

(** one bounded insertion step *)
Definition inserts (x : item) (window window' : list item) : Prop :=
  exists e, Permutation (x :: window) (window' ++ [e]) /\ StronglySorted le_item window' /\ forall a, In a window' -> fst a <= fst e.
Lemma windowed_step : forall all window window' x, windowed all window -> inserts x window window' -> windowed (x :: all) window'.
Proof.
  intros all w w' x (rest & HP & HS & HR) (e & HE & HS' & HM).
  assert (forall b, In b rest -> forall a, In a w' -> fst a <= fst b) as HN.
  { intros b Hb a Ha.
    assert (In a (x :: w)) as Ia. { eapply Permutation_in; [symmetry; exact HE|]. apply in_or_app; left; exact Ha. }
    destruct Ia as [<-|Ia]; [|apply HR; assumption].
    assert (In e (x :: w)) as Ie. { eapply Permutation_in; [symmetry; exact HE|]. apply in_or_app; right; left; reflexivity. }
    destruct Ie as [<-|Ie].
    - (* the new element appears twice, or the window does not change *)
      destruct w as [|y w0].
      + apply Permutation_length in HE. rewrite app_length in HE. destruct w'; [contradiction|cbn in HE; lia].
      + destruct (Rle_dec (fst x) (fst b)) as [L|L]; auto. exfalso.
        assert (forall c, In c w' -> In c (y :: w0) \/ c = x) as K.
        { intros c Hc. assert (In c (x :: y :: w0)) as [->|?] by (eapply Permutation_in; [symmetry; exact HE|apply in_or_app; left; exact Hc]); auto. }
        (* x :: w ~ w' ++ [x] gives w ~ w' *)
        assert (Permutation (y :: w0) w') as PW.
        { apply (Permutation_cons_inv (a:=x)). rewrite HE. rewrite Permutation_app_comm. reflexivity. }
        assert (In x (y :: w0)) as Ix by (eapply Permutation_in; [symmetry; exact PW|exact Ha]).
        apply L. apply (HR x b Ix Hb).
    - apply Rle_trans with (fst e); [apply HM; exact Ha|apply HR; assumption]. }
  exists (e :: rest). split; [|split; [exact HS'|]].
  - rewrite HP. change (x :: w ++ rest) with ((x :: w) ++ rest). rewrite HE. rewrite <- app_assoc. reflexivity.
  - intros a b Ha [<-|Hb]; [apply HM; exact Ha|apply HN; assumption].
Qed.

(** the elements that fill the window initially drop out of the count *)
Lemma kth_drop_inf : forall k l inits v inf, (forall x, In x l -> x < inf) -> (forall x, In x inits -> x = inf) ->
  (k < length l)%nat -> kth_smallest k (l ++ inits) v -> kth_smallest k l v /\ v < inf.
Proof.
  intros k l inits v inf Hl Hi Hk (HI & HC).
  assert (In v l) as Hv.
  { apply in_app_or in HI. destruct HI as [|HI]; auto. exfalso.
    apply Hi in HI. subst v. destruct HC as [HC _]. unfold count_lt in HC. rewrite filter_app, app_length in HC.
    assert (length (filter (fun x => Rltb x inf) l) = length l) as E.
    { clear - Hl. induction l as [|x l IH]; cbn; auto.
      replace (Rltb x inf) with true by (symmetry; apply Rltb_lt; apply Hl; left; reflexivity). cbn. f_equal. apply IH. intros; apply Hl; right; assumption. }
    lia. }
  split; [|apply Hl; exact Hv]. split; auto.
  unfold count_lt, count_le in *. rewrite !filter_app, !app_length in HC.
  assert (length (filter (fun x => Rleb x v) inits) = 0%nat) as E.
  { assert (v < inf) by (apply Hl; exact Hv). clear - Hi H. induction inits as [|x l IH]; cbn; auto.
    replace (Rleb x v) with false.
    2:{ symmetry. unfold Rleb. destruct (Rle_dec x v); auto. specialize (Hi x (or_introl eq_refl)). lra. }
    apply IH. intros; apply Hi; right; assumption. }
  lia.
Qed.
End Window.
