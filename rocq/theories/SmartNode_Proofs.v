(** Invariant of the handle machine of SmartNode_Model. *)
From Coq Require Import ZArith List Bool Lia.
From Verif Require Import Prelude SmartNode_Model.
Import ListNotations.
Open Scope Z_scope.

(** number of handles to [o] in a list of handles *)
Definition occ (o : nat) (l : list (option nat)) : Z :=
  fold_right (fun p n => (if ptr_eqb p (Some o) then 1 else 0) + n) 0 l.

Fixpoint totf (f : nat -> option obj -> Z) (i : nat) (H : nheap) : Z :=
  match H with [] => 0 | c :: t => f i c + totf f (S i) t end.

Definition inb (i : nat) (D : list nat) : bool := existsb (Nat.eqb i) D.
(** handles to [o] inside cell [i]; nodes in [D] are being destroyed and do not count *)
Definition own (D : list nat) (o i : nat) (c : option obj) : Z :=
  match c with Some ob => if inb i D then 0 else occ o (o_mem ob) | None => 0 end.
Definition alive1 (D : list nat) (i : nat) (c : option obj) : Z :=
  match c with Some _ => if inb i D then 0 else 1 | None => 0 end.
Definition lives (D : list nat) (H : nheap) : Z := totf (alive1 D) 0 H.

Lemma inb_In : forall i D, inb i D = true <-> In i D.
Proof. intros. unfold inb. rewrite existsb_exists. split; [intros (x & A & B); apply Nat.eqb_eq in B; subst; auto|intros; exists i; split; auto; apply Nat.eqb_refl]. Qed.
Lemma inb_false : forall i D, inb i D = false <-> ~ In i D.
Proof. intros. rewrite <- inb_In. destruct (inb i D); split; congruence. Qed.

Lemma ptr_eqb_eq : forall a b, ptr_eqb a b = true <-> a = b.
Proof. intros [a|] [b|]; simpl; split; intros H; try discriminate; try reflexivity; [apply Nat.eqb_eq in H; congruence|injection H as ->; apply Nat.eqb_refl]. Qed.
Lemma ptr_eqb_neq : forall a b, ptr_eqb a b = false <-> a <> b.
Proof. intros. rewrite <- ptr_eqb_eq. destruct (ptr_eqb a b); split; congruence. Qed.

Lemma occ_nonneg : forall o l, 0 <= occ o l.
Proof. induction l as [|p l IH]; simpl; [lia|]. destruct (ptr_eqb p (Some o)); lia. Qed.
Lemma occ_app : forall o a b, occ o (a ++ b) = occ o a + occ o b.
Proof. induction a; intros; simpl; [lia|]. rewrite IHa. lia. Qed.
Lemma occ_pos : forall o l, In (Some o) l <-> 0 < occ o l.
Proof.
  induction l as [|p l IH]; simpl; [split; [tauto|lia]|]. pose proof (occ_nonneg o l). destruct (ptr_eqb p (Some o)) eqn:E.
  - apply ptr_eqb_eq in E. subst. split; [lia|auto].
  - apply ptr_eqb_neq in E. rewrite IH. split; [intros [?|?]; [congruence|lia]|lia].
Qed.
Definition one (p : option nat) (o : nat) : Z := if ptr_eqb p (Some o) then 1 else 0.
Lemma occ_upd : forall o l j p q, nth_error l j = Some p -> occ o (upd l j q) = occ o l - one p o + one q o.
Proof.
  unfold one. induction l as [|x l IH]; intros [|j] p q E; simpl in *; try discriminate.
  - injection E as ->. lia.
  - rewrite (IH j p q E). lia.
Qed.
Lemma occ_repeat : forall o k, occ o (repeat None k) = 0.
Proof. induction k; simpl; auto. Qed.

Lemma totf_upd : forall f H i k c c', nth_error H k = Some c -> totf f i (upd H k c') = totf f i H - f (i + k)%nat c + f (i + k)%nat c'.
Proof.
  induction H as [|x H IH]; intros i [|k] c c' E; simpl in *; try discriminate.
  - injection E as ->. rewrite Nat.add_0_r. lia.
  - rewrite (IH (S i) k c c' E). replace (S i + k)%nat with (i + S k)%nat by lia. lia.
Qed.
Lemma totf_app : forall f a b i, totf f i (a ++ b) = totf f i a + totf f (i + length a)%nat b.
Proof.
  induction a; intros b i; simpl; [rewrite Nat.add_0_r; lia|]. rewrite IHa. replace (S i + length a0)%nat with (i + S (length a0))%nat by lia. lia.
Qed.
Lemma totf_nonneg : forall f H i, (forall i c, 0 <= f i c) -> 0 <= totf f i H.
Proof. induction H; intros i F; simpl; [lia|]. specialize (IHlist (S i) F). specialize (F i a). lia. Qed.
Lemma totf_ge : forall f H i k c, (forall i c, 0 <= f i c) -> nth_error H k = Some c -> f (i + k)%nat c <= totf f i H.
Proof.
  induction H as [|x H IH]; intros i [|k] c F E; simpl in *; try discriminate.
  - injection E as ->. rewrite Nat.add_0_r. pose proof (totf_nonneg f H (S i) F). lia.
  - specialize (IH (S i) k c F E). replace (S i + k)%nat with (i + S k)%nat in IH by lia. specialize (F i x). lia.
Qed.
Lemma totf_ext : forall f g H i, (forall k c, nth_error H k = Some c -> f (i + k)%nat c = g (i + k)%nat c) -> totf f i H = totf g i H.
Proof.
  induction H as [|x H IH]; intros i E; simpl; [reflexivity|]. rewrite (IH (S i)).
  - specialize (E 0%nat x eq_refl). rewrite Nat.add_0_r in E. lia.
  - intros k c Ek. specialize (E (S k) c Ek). replace (S i + k)%nat with (i + S k)%nat by lia. exact E.
Qed.
(** two cell functions that differ at index [k] only *)
Lemma totf_diff : forall f g H i k c, nth_error H k = Some c -> (forall j d, nth_error H j = Some d -> j <> k -> f (i + j)%nat d = g (i + j)%nat d) ->
  totf f i H = totf g i H + f (i + k)%nat c - g (i + k)%nat c.
Proof.
  induction H as [|x H IH]; intros i [|k] c E D; simpl in *; try discriminate.
  - injection E as ->. rewrite !Nat.add_0_r. rewrite (totf_ext f g H (S i)); [lia|]. intros j d Ej. specialize (D (S j) d Ej). replace (S i + j)%nat with (i + S j)%nat by lia. apply D. lia.
  - rewrite (IH (S i) k c E).
    + specialize (D 0%nat x eq_refl). rewrite Nat.add_0_r in D. rewrite D by lia. replace (S i + k)%nat with (i + S k)%nat by lia. lia.
    + intros j d Ej Nj. specialize (D (S j) d Ej). replace (S i + j)%nat with (i + S j)%nat by lia. apply D. lia.
Qed.
Lemma own_nonneg : forall D o i c, 0 <= own D o i c.
Proof. intros. unfold own. destruct c; [|lia]. destruct (inb i D); [lia|]. apply occ_nonneg. Qed.
Lemma alive1_nonneg : forall D i c, 0 <= alive1 D i c.
Proof. intros. unfold alive1. destruct c; [|lia]. destruct (inb i D); lia. Qed.
Lemma lives_bound : forall D H i, totf (alive1 D) i H <= Z.of_nat (length H).
Proof. induction H as [|c H IH]; intros i; cbn [totf length]; [lia|]. specialize (IH (S i)). unfold alive1 at 1. destruct c; [destruct (inb i D)|]; lia. Qed.

Definition cell (H : nheap) (D : list nat) (o : nat) (ob : obj) : Prop := nth_error H o = Some (Some ob) /\ ~ In o D.

Record Inv (H : nheap) (ext : nat -> Z) (D L : list nat) : Prop := {
  i_rc : forall o ob, cell H D o ob -> o_rc ob = totf (own D o) 0 H + ext o;
  i_pos : forall o ob, cell H D o ob -> ~ In o L -> 0 < o_rc ob;
  i_nn : forall o, 0 <= ext o;
  i_ext : forall o, 0 < ext o -> exists ob, cell H D o ob;
  i_mem : forall i ob o, cell H D i ob -> In (Some o) (o_mem ob) -> exists ob', cell H D o ob'
}.

Lemma Inv_ext_eq : forall H e e' D L, (forall o, e o = e' o) -> Inv H e D L -> Inv H e' D L.
Proof.
  intros H e e' D L E [A B C F G]. constructor; auto.
  - intros. rewrite (A o ob), E; auto.
  - intros. rewrite <- E. auto.
  - intros o Ho. apply F. rewrite E. auto.
Qed.

(** what a release leaves alone *)
Record frame (H H' : nheap) (D : list nat) : Prop := {
  fr_len : length H' = length H;
  fr_D : forall i, In i D -> nth_error H' i = nth_error H i;
  fr_mem : forall i ob', nth_error H' i = Some (Some ob') -> exists ob, nth_error H i = Some (Some ob) /\ (~ In i D -> o_mem ob' = o_mem ob);
  fr_live : lives D H' <= lives D H
}.
Lemma frame_refl : forall H D, frame H H D.
Proof. constructor; auto; [|lia]. intros. eauto. Qed.
Lemma frame_trans : forall a b c D, frame a b D -> frame b c D -> frame a c D.
Proof.
  intros a b c D [A1 A2 A3 A4] [B1 B2 B3 B4]. constructor; try lia.
  - intros. rewrite B2, A2; auto.
  - intros i ob E. destruct (B3 i ob E) as (o1 & E1 & M1). destruct (A3 i o1 E1) as (o2 & E2 & M2). exists o2. split; auto. intros. rewrite M1, M2; auto.
Qed.

Lemma nth_lt : forall A (l : list A) i x, nth_error l i = Some x -> (i < length l)%nat.
Proof. intros. apply nth_error_Some. congruence. Qed.

Lemma cell_upd_other : forall H D o i ob c, i <> o -> (cell (upd H i c) D o ob <-> cell H D o ob).
Proof. intros. unfold cell. rewrite nth_error_upd_neq by auto. tauto. Qed.
Lemma cell_upd_same : forall H D o ob x, (o < length H)%nat -> (cell (upd H o (Some x)) D o ob <-> ob = x /\ ~ In o D).
Proof. intros. unfold cell. rewrite nth_error_upd_eq by auto. split; [intros (A & B); split; congruence|intros (-> & B); auto]. Qed.

(** changing only the counter of a cell *)
Lemma set_rc_tot : forall H D o ob x r, nth_error H o = Some (Some ob) ->
  totf (own D x) 0 (upd H o (Some {| o_rc := r; o_mem := o_mem ob |})) = totf (own D x) 0 H.
Proof. intros. rewrite (totf_upd _ _ _ _ _ _ H0). unfold own. simpl. lia. Qed.
Lemma set_rc_frame : forall H D o ob r, cell H D o ob -> frame H (upd H o (Some {| o_rc := r; o_mem := o_mem ob |})) D.
Proof.
  intros H D o ob r (E & ND). constructor.
  - apply upd_length.
  - intros i Hi. apply nth_error_upd_neq. intros ->. auto.
  - intros i ob' E'. destruct (Nat.eq_dec o i) as [->|N].
    + rewrite nth_error_upd_eq in E' by (eapply nth_lt; eauto). injection E' as <-. eauto.
    + rewrite nth_error_upd_neq in E' by auto. eauto.
  - unfold lives. rewrite (totf_upd _ _ _ _ _ _ E). unfold alive1. simpl. lia.
Qed.

Lemma rc_change_inv : forall H ext ext' D L o ob d, Inv H ext D L -> cell H D o ob ->
  (forall x, ext' x = ext x + (if Nat.eqb x o then d else 0)) -> 0 <= ext' o -> 0 < o_rc ob + d ->
  Inv (upd H o (Some {| o_rc := o_rc ob + d; o_mem := o_mem ob |})) ext' D L.
Proof.
  intros H ext ext' D L o ob d HI HC HE Hn Hp. pose proof HI as [A B C F G]. destruct HC as (E & ND).
  assert (LT : (o < length H)%nat) by (eapply nth_lt; eauto).
  assert (CE : forall x, (exists ob0, cell H D x ob0) -> exists ob1, cell (upd H o (Some {| o_rc := o_rc ob + d; o_mem := o_mem ob |})) D x ob1).
  { intros x (ob0 & C0). destruct (Nat.eq_dec o x) as [<-|N]; [eexists; apply cell_upd_same; eauto|exists ob0; apply cell_upd_other; auto]. }
  constructor.
  - intros x ob' HC'. rewrite set_rc_tot by auto. rewrite HE. destruct (Nat.eqb_spec x o) as [->|N].
    + apply cell_upd_same in HC'; auto. destruct HC' as (-> & _). simpl. rewrite (A o ob); [lia|split; auto].
    + apply cell_upd_other in HC'; auto. rewrite (A x ob' HC'). lia.
  - intros x ob' HC' HL. destruct (Nat.eq_dec o x) as [<-|N].
    + apply cell_upd_same in HC'; auto. destruct HC' as (-> & _). simpl. lia.
    + apply cell_upd_other in HC'; auto. eapply B; eauto.
  - intros x. rewrite HE. destruct (Nat.eqb_spec x o) as [->|N]; [rewrite HE, Nat.eqb_refl in Hn; lia|]. specialize (C x). lia.
  - intros x Hx. apply CE. rewrite HE in Hx. destruct (Nat.eqb_spec x o) as [e|N]; [rewrite e; exists ob; split; auto|apply F; lia].
  - intros i obi x HC' Hin. apply CE. destruct (Nat.eq_dec o i) as [<-|N].
    + apply cell_upd_same in HC'; auto. destruct HC' as (-> & _). apply (G o ob); auto. split; auto.
    + apply cell_upd_other in HC'; auto. eapply G; eauto.
Qed.

Lemma own_sub : forall H D o x ob, cell H D o ob -> totf (own (o :: D) x) 0 H = totf (own D x) 0 H - occ x (o_mem ob).
Proof.
  intros H D o x ob (E & ND). rewrite (totf_diff (own (o :: D) x) (own D x) H 0 o (Some ob) E).
  - unfold own. cbn [Nat.add]. replace (inb o (o :: D)) with true by (symmetry; apply inb_In; left; auto).
    replace (inb o D) with false by (symmetry; apply inb_false; auto). lia.
  - intros j d Ej Nj. unfold own. cbn [Nat.add]. destruct d; auto. replace (inb j (o :: D)) with (inb j D); auto. simpl. destruct (Nat.eqb_spec j o); [congruence|auto].
Qed.
Lemma lives_sub : forall H D o ob, cell H D o ob -> lives (o :: D) H = lives D H - 1.
Proof.
  intros H D o ob (E & ND). unfold lives. rewrite (totf_diff (alive1 (o :: D)) (alive1 D) H 0 o (Some ob) E).
  - unfold alive1. cbn [Nat.add]. replace (inb o (o :: D)) with true by (symmetry; apply inb_In; left; auto).
    replace (inb o D) with false by (symmetry; apply inb_false; auto). lia.
  - intros j d Ej Nj. unfold alive1. cbn [Nat.add]. destruct d; auto. replace (inb j (o :: D)) with (inb j D); auto. simpl. destruct (Nat.eqb_spec j o); [congruence|auto].
Qed.

(** the last owner of [o] disappears: [o] is being destroyed and its member handles
    become owners on the side *)
Lemma start_destroy : forall H ext D L o ob, Inv H ext D L -> cell H D o ob -> o_rc ob = 1 -> 1 <= ext o ->
  Inv (upd H o (Some {| o_rc := o_rc ob + -1; o_mem := o_mem ob |})) (fun x => ext x - one (Some o) x + occ x (o_mem ob)) (o :: D) L.
Proof.
  intros H ext D L o ob [A B C F G] HC H1 HX. pose proof (A o ob HC) as R. rewrite H1 in R.
  pose proof (totf_nonneg (own D o) H 0 (own_nonneg D o)) as NN.
  assert (Eo : ext o = 1) by lia. assert (T0 : totf (own D o) 0 H = 0) by lia.
  assert (NM : forall i obi, cell H D i obi -> ~ In (Some o) (o_mem obi)).
  { intros i obi (E & ND) Hin. pose proof (totf_ge (own D o) H 0 i _ (own_nonneg D o) E) as GE. unfold own in GE at 1. cbn [Nat.add] in GE.
    replace (inb i D) with false in GE by (symmetry; apply inb_false; auto). apply occ_pos in Hin. lia. }
  pose proof HC as (E & ND). assert (LT : (o < length H)%nat) by (eapply nth_lt; eauto).
  set (H1' := upd H o _).
  assert (CC : forall x obx, cell H1' (o :: D) x obx <-> (cell H D x obx /\ x <> o)).
  { intros x obx. unfold cell, H1'. destruct (Nat.eq_dec o x) as [<-|N].
    - rewrite nth_error_upd_eq by auto. simpl. split; [intros (_ & X); tauto|intros (_ & X); congruence].
    - rewrite nth_error_upd_neq by auto. simpl. split; [intros (X & Y); split; [split; auto|]; auto|intros ((X & Y) & Z); split; auto; intros [->|?]; auto]. }
  constructor.
  - intros x obx HX'. apply CC in HX'. destruct HX' as (HX' & Nx). unfold H1'. rewrite set_rc_tot by auto. rewrite (own_sub H D o x ob HC).
    rewrite (A x obx HX'). unfold one, ptr_eqb. destruct (Nat.eqb_spec o x); [congruence|]. lia.
  - intros x obx HX' HL. apply CC in HX'. eapply B; eauto. tauto.
  - intros x. unfold one, ptr_eqb. pose proof (occ_nonneg x (o_mem ob)). specialize (C x). destruct (Nat.eqb_spec o x); subst; lia.
  - intros x Hx. unfold one, ptr_eqb in Hx. destruct (Nat.eqb_spec o x) as [->|N].
    + exfalso. assert (0 < occ x (o_mem ob)) by lia. apply occ_pos in H0. apply (NM x ob); auto.
    + assert (M : exists ob', cell H D x ob').
      { destruct (Z.eq_dec (ext x) 0) as [Z0|Z0]; [apply (G o ob x HC); apply occ_pos; lia|apply F; specialize (C x); lia]. }
      destruct M as (ob' & M). exists ob'. apply CC. split; auto.
  - intros i obi x HX' Hin. apply CC in HX'. destruct HX' as (HX' & Nx). destruct (G i obi x HX' Hin) as (ob' & M). exists ob'. apply CC. split; auto.
    intros ->. apply (NM i obi); auto.
Qed.

(** cells in [D] may change freely *)
Lemma set_D_inv : forall H ext D L o c c', Inv H ext D L -> In o D -> nth_error H o = Some (Some c) -> Inv (upd H o (Some c')) ext D L.
Proof.
  intros H ext D L o c c' [A B C F G] HD E. assert (LT : (o < length H)%nat) by (eapply nth_lt; eauto).
  assert (CC : forall x obx, cell (upd H o (Some c')) D x obx <-> cell H D x obx).
  { intros x obx. destruct (Nat.eq_dec o x) as [<-|N]; [unfold cell; tauto|apply cell_upd_other; auto]. }
  assert (TT : forall x, totf (own D x) 0 (upd H o (Some c')) = totf (own D x) 0 H).
  { intros x. rewrite (totf_upd _ _ _ _ _ _ E). unfold own. cbn [Nat.add]. replace (inb o D) with true by (symmetry; apply inb_In; auto). lia. }
  constructor.
  - intros x obx HX. rewrite TT. apply A, CC, HX.
  - intros x obx HX HL. apply CC in HX. eauto.
  - auto.
  - intros x HX. destruct (F x HX) as (ob & Q). exists ob. apply CC. auto.
  - intros i obi x HX Hin. apply CC in HX. destruct (G i obi x HX Hin) as (ob & Q). exists ob. apply CC. auto.
Qed.

(** the destroyed node's memory is returned *)
Lemma finish_destroy : forall H ext D L o c, Inv H ext (o :: D) L -> ~ In o D -> nth_error H o = Some (Some c) -> Inv (upd H o None) ext D L.
Proof.
  intros H ext D L o c [A B C F G] HD E. assert (LT : (o < length H)%nat) by (eapply nth_lt; eauto).
  assert (CC : forall x obx, cell (upd H o None) D x obx <-> cell H (o :: D) x obx).
  { intros x obx. unfold cell. destruct (Nat.eq_dec o x) as [<-|N].
    - rewrite nth_error_upd_eq by auto. simpl. split; [intros (X & _); discriminate|intros (_ & X); tauto].
    - rewrite nth_error_upd_neq by auto. simpl. split; intros (X & Y); split; auto; intros [?|?]; auto. }
  assert (TT : forall x, totf (own D x) 0 (upd H o None) = totf (own (o :: D) x) 0 H).
  { intros x. rewrite (totf_upd _ _ _ _ _ _ E). rewrite (own_sub H D o x c) by (split; auto). unfold own at 2 3. cbn [Nat.add].
    replace (inb o D) with false by (symmetry; apply inb_false; auto). lia. }
  constructor.
  - intros x obx HX. rewrite TT. apply A, CC, HX.
  - intros x obx HX HL. apply CC in HX. eauto.
  - auto.
  - intros x HX. destruct (F x HX) as (ob & Q). exists ob. apply CC. auto.
  - intros i obi x HX Hin. apply CC in HX. destruct (G i obi x HX Hin) as (ob & Q). exists ob. apply CC. auto.
Qed.

Definition dec (ext : nat -> Z) (p : option nat) : nat -> Z := fun x => ext x - one p x.

Definition good_rel (f : nat) : Prop := forall H ext D L p, Inv H ext D L -> (forall o, p = Some o -> 1 <= ext o) -> lives D H <= Z.of_nat f ->
  exists H', release f H p = Ok H' /\ Inv H' (dec ext p) D L /\ frame H H' D.

Lemma destroy_loop : forall f o D L, good_rel f -> ~ In o D -> forall k H ext ob, Inv H (fun x => ext x + occ x (firstn k (o_mem ob))) (o :: D) L ->
  (forall x, 0 <= ext x) -> nth_error H o = Some (Some ob) -> (k <= length (o_mem ob))%nat -> lives (o :: D) H <= Z.of_nat f ->
  exists H', destroy_members (release f) o k H = Ok H' /\ Inv H' ext (o :: D) L /\ length H' = length H /\
    (exists ob', nth_error H' o = Some (Some ob')) /\ (forall i, In i D -> nth_error H' i = nth_error H i) /\
    (forall i ob', i <> o -> nth_error H' i = Some (Some ob') -> exists ob0, nth_error H i = Some (Some ob0) /\ (~ In i D -> o_mem ob' = o_mem ob0)) /\
    lives (o :: D) H' <= lives (o :: D) H.
Proof.
  intros f o D L GR HD. induction k as [|k IH]; intros H ext ob HI HN HE HK HL.
  - exists H. split; [reflexivity|]. split; [eapply Inv_ext_eq; [|exact HI]; intros; simpl; lia|]. repeat split; eauto; lia.
  - cbn [destroy_members]. assert (KL : (k < length (o_mem ob))%nat) by lia. destruct (nth_error (o_mem ob) k) as [p|] eqn:EP; [|apply nth_error_None in EP; lia].
    unfold read_slot, deref, rd. rewrite HE. cbn [bind]. rewrite EP. cbn [bind].
    assert (FN : firstn (S k) (o_mem ob) = firstn k (o_mem ob) ++ [p]).
    { clear -EP. revert k EP. generalize (o_mem ob). induction l as [|x l IH]; intros [|k] E; simpl in *; try discriminate; [congruence|]. rewrite (IH k E). reflexivity. }
    rewrite FN in HI.
    destruct (GR H _ (o :: D) L p HI) as (H1 & E1 & I1 & FR1); auto.
    { intros q ->. rewrite occ_app. simpl. rewrite Nat.eqb_refl. pose proof (occ_nonneg q (firstn k (o_mem ob))). specialize (HN q). lia. }
    rewrite E1. cbn [bind]. destruct FR1 as [F1 F2 F3 F4]. unfold write_slot, deref, wr. rewrite F2 by (left; auto). rewrite HE. cbn [bind].
    destruct (Nat.ltb_spec k (length (o_mem ob))); [|lia]. cbn [bind].
    set (ob1 := {| o_rc := o_rc ob; o_mem := upd (o_mem ob) k None |}).
    assert (E1o : nth_error H1 o = Some (Some ob)) by (rewrite F2 by (left; auto); auto).
    assert (FU : firstn k (o_mem ob1) = firstn k (o_mem ob)).
    { clear. simpl. generalize (o_mem ob). clear ob1. revert k. induction k; intros [|x l]; simpl; auto. rewrite IHk. reflexivity. }
    destruct (IH (upd H1 o (Some ob1)) ext ob1) as (H2 & E2 & I2 & L2 & (ob2 & O2) & D2 & M2 & V2); auto.
    + rewrite FU. eapply Inv_ext_eq; [|eapply set_D_inv; [exact I1|left; auto|exact E1o]]. intros x. unfold dec, one. rewrite occ_app. simpl.
      unfold ptr_eqb. destruct p as [q|]; [destruct (Nat.eqb_spec q x)|]; lia.
    + apply nth_error_upd_eq. rewrite F1. eapply nth_lt; eauto.
    + simpl. rewrite upd_length. lia.
    + unfold lives in *. rewrite (totf_upd _ _ _ _ _ _ E1o). unfold alive1 at 2 3. cbn [Nat.add]. lia.
    + exists H2. split; auto. split; auto. split; [rewrite L2, upd_length; auto|]. split; [eauto|]. split; [|split].
      * intros i Hi. rewrite D2 by auto. rewrite nth_error_upd_neq by (intros <-; auto). apply F2. right. auto.
      * intros i ob' Hi Ei. destruct (M2 i ob' Hi Ei) as (ob0 & A & B). rewrite nth_error_upd_neq in A by auto.
        destruct (F3 i ob0 A) as (ob3 & A3 & B3). exists ob3. split; auto. intros NI. rewrite B, B3; auto. intros [?|?]; [congruence|auto].
      * unfold lives in *. rewrite (totf_upd _ _ _ _ _ _ E1o) in V2. unfold alive1 at 3 4 in V2. cbn [Nat.add] in V2. lia.
Qed.

Lemma release_ok : forall f, good_rel f.
Proof.
  induction f as [|f IH]; intros H ext D L p HI HP HL.
  - destruct p as [o|]; [|exists H; split; [reflexivity|]; split; [eapply Inv_ext_eq; [|exact HI]; intros; unfold dec, one; simpl; lia|apply frame_refl]].
    exfalso. specialize (HP o eq_refl). destruct (i_ext _ _ _ _ HI o) as (ob & E & ND); [lia|].
    pose proof (totf_ge (alive1 D) H 0 o _ (alive1_nonneg D) E) as GE. unfold alive1 in GE at 1. cbn [Nat.add] in GE.
    replace (inb o D) with false in GE by (symmetry; apply inb_false; auto). unfold lives in HL. lia.
  - destruct p as [o|]; [|exists H; split; [reflexivity|]; split; [eapply Inv_ext_eq; [|exact HI]; intros; unfold dec, one; simpl; lia|apply frame_refl]].
    specialize (HP o eq_refl). destruct (i_ext _ _ _ _ HI o) as (ob & HC); [lia|]. pose proof HC as (E & ND).
    cbn [release]. unfold fetch_add, deref. rewrite E. cbn [bind].
    pose proof (i_rc _ _ _ _ HI o ob HC) as R. pose proof (totf_nonneg (own D o) H 0 (own_nonneg D o)) as NN.
    destruct (Z.eqb_spec (o_rc ob) 1) as [R1|R1].
    + assert (LT : (o < length H)%nat) by (eapply nth_lt; eauto). rewrite nth_error_upd_eq by auto. cbn [bind o_mem].
      set (ob1 := {| o_rc := o_rc ob + -1; o_mem := o_mem ob |}). set (H1 := upd H o (Some ob1)).
      assert (E1 : nth_error H1 o = Some (Some ob1)) by (apply nth_error_upd_eq; auto).
      destruct (destroy_loop f o D L IH ND (length (o_mem ob)) H1 (dec ext (Some o)) ob1) as (H2 & E2 & I2 & L2 & (ob2 & O2) & D2 & M2 & V2); auto.
      * eapply Inv_ext_eq; [|apply start_destroy; eauto]. intros x. simpl o_mem. rewrite firstn_all. reflexivity.
      * intros x. unfold dec, one, ptr_eqb. pose proof (i_nn _ _ _ _ HI x). destruct (Nat.eqb_spec o x); subst; lia.
      * assert (lives (o :: D) H1 = lives (o :: D) H).
        { unfold lives, H1. rewrite (totf_upd _ _ _ _ _ _ E). unfold alive1. lia. }
        rewrite H0. rewrite (lives_sub H D o ob HC). lia.
      * rewrite E2. cbn [bind]. unfold free_cell, deref. rewrite O2. cbn [bind]. eexists. split; [reflexivity|]. split; [eapply finish_destroy; eauto|].
        constructor.
        -- rewrite upd_length, L2. apply upd_length.
        -- intros i Hi. rewrite nth_error_upd_neq by (intros <-; auto). rewrite D2 by auto. apply nth_error_upd_neq. intros <-; auto.
        -- intros i ob' Ei. destruct (Nat.eq_dec o i) as [<-|N]; [rewrite nth_error_upd_eq in Ei by (eapply nth_lt; eauto); discriminate|].
           rewrite nth_error_upd_neq in Ei by auto. destruct (M2 i ob' (not_eq_sym N) Ei) as (ob0 & A & B). unfold H1 in A. rewrite nth_error_upd_neq in A by auto. eauto.
        -- assert (X : lives D (upd H2 o None) = lives (o :: D) H2).
           { unfold lives. rewrite (totf_upd _ _ _ _ _ _ O2). fold (lives D H2) (lives (o :: D) H2). rewrite (lives_sub H2 D o ob2) by (split; auto).
             unfold alive1. cbn [Nat.add]. replace (inb o D) with false by (symmetry; apply inb_false; auto). lia. }
           rewrite X. assert (Y : lives (o :: D) H1 = lives (o :: D) H).
           { unfold lives, H1. rewrite (totf_upd _ _ _ _ _ _ E). unfold alive1. lia. }
           rewrite Y, (lives_sub H D o ob HC) in V2. lia.
    + assert (RL : 1 < o_rc ob) by lia.
      eexists. split; [reflexivity|]. split; [|apply set_rc_frame; auto].
      apply (rc_change_inv H ext (dec ext (Some o)) D L o ob (-1)); auto; [| |lia].
      * intros x. unfold dec, one, ptr_eqb. rewrite (Nat.eqb_sym o x). destruct (Nat.eqb x o); lia.
      * unfold dec, one, ptr_eqb. rewrite Nat.eqb_refl. lia.
Qed.

(** ** Commuting a release with a write to a slot of a node that survives *)
Definition alloc (H : nheap) (o : nat) : Prop := exists ob, nth_error H o = Some (Some ob).

Definition mono_rel (rel : nheap -> option nat -> res nheap) : Prop :=
  forall H p H' o, rel H p = Ok H' -> alloc H' o -> alloc H o.
Lemma alloc_upd : forall H i c o, alloc (upd H i c) o -> alloc H o \/ (i = o /\ (i < length H)%nat).
Proof.
  intros H i c o (ob & E). destruct (Nat.eq_dec i o) as [->|N]; [right|left].
  - split; auto. apply nth_lt in E. rewrite upd_length in E. auto.
  - rewrite nth_error_upd_neq in E by auto. eexists; eauto.
Qed.
Lemma fetch_add_alloc : forall H o d pr H' x, fetch_add H o d = Ok (pr, H') -> alloc H' x -> alloc H x.
Proof.
  intros H o d pr H' x E A. unfold fetch_add, deref in E. destruct (nth_error H o) as [[ob|]|] eqn:EO; try discriminate. cbn in E. injection E as <- <-.
  apply alloc_upd in A. destruct A as [A|(<- & _)]; auto. exists ob; auto.
Qed.
Lemma write_slot_alloc : forall H o j p H' x, write_slot H o j p = Ok H' -> alloc H' x -> alloc H x.
Proof.
  intros H o j p H' x E A. unfold write_slot, deref in E. destruct (nth_error H o) as [[ob|]|] eqn:EO; try discriminate. cbn in E.
  apply bind_Ok_inv in E. destruct E as (m & E1 & E2). injection E2 as <-. apply alloc_upd in A. destruct A as [A|(<- & _)]; auto. exists ob; auto.
Qed.
Lemma destroy_mono : forall rel o k H H' x, mono_rel rel -> destroy_members rel o k H = Ok H' -> alloc H' x -> alloc H x.
Proof.
  induction k as [|k IH]; intros H H' x M E A; cbn in E; [injection E as <-; auto|].
  apply bind_Ok_inv in E. destruct E as (p & E1 & E). apply bind_Ok_inv in E. destruct E as (H1 & E2 & E). apply bind_Ok_inv in E. destruct E as (H2 & E3 & E).
  eapply M; [exact E2|]. eapply write_slot_alloc; [exact E3|]. eapply IH; eauto.
Qed.
Lemma release_mono : forall f, mono_rel (release f).
Proof.
  induction f as [|f IH]; intros H [q|] H' o E A; cbn [release] in E; try (injection E as <-; auto; fail).
  - apply bind_Ok_inv in E. destruct E as ((pr, H1) & E1 & E). destruct (pr =? 1); [discriminate|]. injection E as <-. eapply fetch_add_alloc; eauto.
  - apply bind_Ok_inv in E. destruct E as ((pr, H1) & E1 & E). destruct (pr =? 1); [|injection E as <-; eapply fetch_add_alloc; eauto].
    apply bind_Ok_inv in E. destruct E as (ob & E2 & E). apply bind_Ok_inv in E. destruct E as (H2 & E3 & E).
    unfold free_cell in E. apply bind_Ok_inv in E. destruct E as (ob2 & E4 & E). injection E as <-.
    eapply fetch_add_alloc; [exact E1|]. eapply destroy_mono; [exact IH|exact E3|]. apply alloc_upd in A. destruct A as [A|(<- & _)]; auto.
    unfold deref in E4. destruct (nth_error H2 q) as [[x|]|] eqn:Q; try discriminate. exists x. auto.
Qed.

(** [H] and [K] agree except for what slot [j] of the live node [o] holds *)
Record sim (o j : nat) (H K : nheap) : Prop := {
  sm_len : length H = length K;
  sm_other : forall i, i <> o -> nth_error H i = nth_error K i;
  sm_o : exists a b, nth_error H o = Some (Some a) /\ nth_error K o = Some (Some b) /\ o_rc a = o_rc b /\ exists q, o_mem a = upd (o_mem b) j q
}.
Lemma sim_fetch : forall o j H K q d pr K1, sim o j H K -> fetch_add K q d = Ok (pr, K1) -> exists H1, fetch_add H q d = Ok (pr, H1) /\ sim o j H1 K1.
Proof.
  intros o j H K q d pr K1 [S1 S2 (a & b & A & B & R & (z & M))] E. unfold fetch_add, deref in *. destruct (Nat.eq_dec q o) as [->|N].
  - rewrite A. rewrite B in E. cbn in E |- *. injection E as <- <-. rewrite R. eexists. split; [reflexivity|]. constructor.
    + rewrite !upd_length. auto.
    + intros i Hi. rewrite !nth_error_upd_neq by auto. auto.
    + do 2 eexists. rewrite !nth_error_upd_eq by (eapply nth_lt; eauto). split; [reflexivity|]. split; [reflexivity|]. cbn. split; [reflexivity|]. eauto.
  - rewrite S2 by auto. destruct (nth_error K q) as [[ob|]|] eqn:EK; try discriminate. cbn in *. injection E as <- <-. eexists. split; [reflexivity|]. constructor.
    + rewrite !upd_length. auto.
    + intros i Hi. destruct (Nat.eq_dec q i) as [->|N']; [|rewrite !nth_error_upd_neq by auto; auto].
      rewrite !nth_error_upd_eq; auto; [eapply nth_lt; eauto|]. rewrite S1. eapply nth_lt; eauto.
    + exists a, b. rewrite !nth_error_upd_neq by auto. eauto.
Qed.
Lemma sim_read : forall o j H K q i p, sim o j H K -> q <> o -> read_slot K q i = Ok p -> read_slot H q i = Ok p.
Proof. intros o j H K q i p [S1 S2 S3] N E. unfold read_slot, deref in *. rewrite S2; auto. Qed.
Lemma sim_upd : forall o j H K q c, sim o j H K -> q <> o -> sim o j (upd H q c) (upd K q c).
Proof.
  intros o j H K q c [S1 S2 (a & b & A & B & R & M)] N. constructor.
  - rewrite !upd_length. auto.
  - intros i Hi. destruct (Nat.eq_dec q i) as [->|N']; [|rewrite !nth_error_upd_neq by auto; auto].
    destruct (Nat.lt_ge_cases i (length K)).
    + rewrite !nth_error_upd_eq; auto; lia.
    + assert (X : forall H : nheap, (length H <= i)%nat -> nth_error H i = None) by (intros; apply nth_error_None; auto).
      rewrite !X; auto; rewrite upd_length; lia.
  - exists a, b. rewrite !nth_error_upd_neq by auto. auto.
Qed.
Lemma sim_write : forall o j H K q i p K', sim o j H K -> q <> o -> write_slot K q i p = Ok K' -> exists H', write_slot H q i p = Ok H' /\ sim o j H' K'.
Proof.
  intros o j H K q i p K' SM N E. unfold write_slot, deref in *. rewrite (sm_other _ _ _ _ SM) by auto. destruct (nth_error K q) as [[ob|]|]; try discriminate. cbn in *.
  apply bind_Ok_inv in E. destruct E as (m & E1 & E2). injection E2 as <-. rewrite E1. cbn. eexists. split; [reflexivity|]. apply sim_upd; auto.
Qed.
Lemma sim_destroy : forall o j rel q, (forall H K p K', sim o j H K -> rel K p = Ok K' -> alloc K' o -> exists H', rel H p = Ok H' /\ sim o j H' K') -> mono_rel rel ->
  q <> o -> forall k H K K', sim o j H K -> destroy_members rel q k K = Ok K' -> alloc K' o -> exists H', destroy_members rel q k H = Ok H' /\ sim o j H' K'.
Proof.
  intros o j rel q RS MR N. induction k as [|k IH]; intros H K K' SM E A; cbn in *; [injection E as <-; eauto|].
  apply bind_Ok_inv in E. destruct E as (p & E1 & E). apply bind_Ok_inv in E. destruct E as (K1 & E2 & E). apply bind_Ok_inv in E. destruct E as (K2 & E3 & E).
  rewrite (sim_read _ _ _ _ _ _ _ SM N E1). cbn [bind].
  assert (A2 : alloc K2 o) by (eapply destroy_mono; eauto). assert (A1 : alloc K1 o) by (eapply write_slot_alloc; eauto).
  destruct (RS H K p K1 SM E2 A1) as (H1 & F1 & S1). rewrite F1. cbn [bind].
  destruct (sim_write _ _ _ _ _ _ _ _ S1 N E3) as (H2 & F2 & S2). rewrite F2. cbn [bind]. eauto.
Qed.
Lemma sim_release : forall o j f H K p K', sim o j H K -> release f K p = Ok K' -> alloc K' o -> exists H', release f H p = Ok H' /\ sim o j H' K'.
Proof.
  intros o j. induction f as [|f IH]; intros H K [q|] K' SM E A; cbn [release] in *; try (injection E as <-; eauto; fail).
  - apply bind_Ok_inv in E. destruct E as ((pr, K1) & E1 & E). destruct (sim_fetch _ _ _ _ _ _ _ _ SM E1) as (H1 & F1 & S1). rewrite F1. cbn [bind].
    destruct (pr =? 1); [discriminate|]. injection E as <-. eauto.
  - apply bind_Ok_inv in E. destruct E as ((pr, K1) & E1 & E). destruct (sim_fetch _ _ _ _ _ _ _ _ SM E1) as (H1 & F1 & S1). rewrite F1. cbn [bind].
    destruct (pr =? 1); [|injection E as <-; eauto].
    apply bind_Ok_inv in E. destruct E as (ob & E2 & E). apply bind_Ok_inv in E. destruct E as (K2 & E3 & E).
    unfold free_cell in *. apply bind_Ok_inv in E. destruct E as (ob2 & E4 & E). injection E as <-.
    destruct (Nat.eq_dec q o) as [->|N].
    + exfalso. destruct A as (x & A). rewrite nth_error_upd_eq in A; [discriminate|]. unfold deref in E4. destruct (nth_error K2 o) eqn:Q; [|discriminate]. eapply nth_lt; eauto.
    + unfold deref in E2 |- *. rewrite (sm_other _ _ _ _ S1) by auto. destruct (nth_error K1 q) as [[ob'|]|] eqn:EK; try discriminate. injection E2 as ->. cbn [bind].
      assert (A2 : alloc K2 o). { destruct A as (x & A). rewrite nth_error_upd_neq in A by auto. exists x; auto. }
      destruct (sim_destroy o j (release f) q IH (release_mono f) N _ _ _ _ S1 E3 A2) as (H2 & F2 & S2). rewrite F2. cbn [bind].
      unfold deref in *. rewrite (sm_other _ _ _ _ S2) by auto. destruct (nth_error K2 q) as [[x|]|]; try discriminate. cbn [bind]. eexists. split; [reflexivity|]. apply sim_upd; auto.
Qed.

(** ** Single operations *)
Definition inc (ext : nat -> Z) (p : option nat) : nat -> Z := fun x => ext x + one p x.
Definition has (H : nheap) (D : list nat) (p : option nat) : Prop := forall o, p = Some o -> exists ob, cell H D o ob.

Lemma try_inc_ok : forall H ext D L p, Inv H ext D L -> has H D p -> exists H', try_inc H p = Ok H' /\ Inv H' (inc ext p) D L /\ frame H H' D.
Proof.
  intros H ext D L [o|] HI HP; cbn [try_inc].
  - destruct (HP o eq_refl) as (ob & HC). pose proof HC as (E & _). unfold fetch_add, deref. rewrite E. cbn [bind]. eexists. split; [reflexivity|].
    split; [|apply set_rc_frame; auto]. pose proof (i_nn _ _ _ _ HI o). pose proof (i_rc _ _ _ _ HI o ob HC). pose proof (totf_nonneg (own D o) H 0 (own_nonneg D o)).
    apply (rc_change_inv H ext); auto; [|unfold inc, one, ptr_eqb; rewrite Nat.eqb_refl; lia|lia].
    intros x. unfold inc, one, ptr_eqb. rewrite Nat.eqb_sym. reflexivity.
  - exists H. split; [reflexivity|]. split; [|apply frame_refl]. eapply Inv_ext_eq; [|exact HI]. intros. unfold inc, one. simpl. lia.
Qed.

Lemma has_ext : forall H ext D L p, Inv H ext D L -> (forall o, p = Some o -> 1 <= ext o) -> has H D p.
Proof. intros H ext D L p HI HP o ->. apply (i_ext _ _ _ _ HI). specialize (HP o eq_refl). lia. Qed.

Lemma lives_le : forall D H f, (length H <= f)%nat -> lives D H <= Z.of_nat f.
Proof. intros. pose proof (lives_bound D H 0). unfold lives. lia. Qed.

Lemma release_top : forall f H ext D L p, Inv H ext D L -> (forall o, p = Some o -> 1 <= ext o) -> (length H <= f)%nat ->
  exists H', release f H p = Ok H' /\ Inv H' (dec ext p) D L /\ frame H H' D.
Proof. intros. apply release_ok; auto. apply lives_le. auto. Qed.

Lemma assign_ok : forall f H ext D L cur new, Inv H ext D L -> (forall o, cur = Some o -> 1 <= ext o) -> has H D new -> (length H <= f)%nat ->
  exists H', assign_from f H cur new = Ok H' /\ Inv H' (dec (inc ext new) cur) D L /\ frame H H' D.
Proof.
  intros f H ext D L cur new HI HC HN HL. unfold assign_from. destruct (ptr_eqb cur new) eqn:E.
  - apply ptr_eqb_eq in E. subst. exists H. split; [reflexivity|]. split; [|apply frame_refl]. eapply Inv_ext_eq; [|exact HI]. intros. unfold dec, inc. lia.
  - destruct (try_inc_ok H ext D L new HI HN) as (H1 & E1 & I1 & F1). rewrite E1. cbn [bind].
    destruct (release_top f H1 (inc ext new) D L cur I1) as (H2 & E2 & I2 & F2).
    + intros o Ho. unfold inc, one. specialize (HC o Ho). destruct (ptr_eqb new (Some o)); lia.
    + rewrite (fr_len _ _ _ F1). auto.
    + exists H2. split; auto. split; auto. eapply frame_trans; eauto.
Qed.

(** a slot of a live node is overwritten: references move between the slot and outside *)
Lemma slot_write_inv : forall H ext D L o j ob cur new, Inv H ext D L -> ~ In o D -> nth_error H o = Some (Some ob) -> nth_error (o_mem ob) j = Some cur ->
  (forall x, new = Some x -> 1 <= ext x) ->
  exists H', write_slot H o j new = Ok H' /\ H' = upd H o (Some {| o_rc := o_rc ob; o_mem := upd (o_mem ob) j new |}) /\ Inv H' (dec (inc ext cur) new) D L.
Proof.
  intros H ext D L o j ob cur new HI ND EO EJ HN. pose proof HI as [A B C F G]. unfold write_slot, deref, wr. rewrite EO. cbn [bind].
  assert (JL : (j < length (o_mem ob))%nat) by (eapply nth_lt; eauto). destruct (Nat.ltb_spec j (length (o_mem ob))); [|lia]. cbn [bind].
  eexists. split; [reflexivity|]. split; [reflexivity|]. assert (LT : (o < length H)%nat) by (eapply nth_lt; eauto).
  set (H' := upd H o _).
  assert (TT : forall x, totf (own D x) 0 H' = totf (own D x) 0 H - one cur x + one new x).
  { intros x. unfold H'. rewrite (totf_upd _ _ _ _ _ _ EO). unfold own at 2 3. cbn [Nat.add o_mem]. replace (inb o D) with false by (symmetry; apply inb_false; auto). rewrite (occ_upd x _ _ _ new EJ). lia. }
  assert (CE : forall x, (exists ob0, cell H D x ob0) -> exists ob1, cell H' D x ob1).
  { intros x (ob0 & C0). destruct (Nat.eq_dec o x) as [<-|N]; [eexists; apply cell_upd_same; eauto|exists ob0; apply cell_upd_other; auto]. }
  assert (CR : forall x obx, cell H' D x obx -> exists ob0, cell H D x ob0 /\ o_rc ob0 = o_rc obx /\ (forall z, In (Some z) (o_mem obx) -> In (Some z) (o_mem ob0) \/ new = Some z)).
  { intros x obx HX. destruct (Nat.eq_dec o x) as [<-|N].
    - apply cell_upd_same in HX; auto. destruct HX as (-> & _). exists ob. split; [split; auto|]. split; [reflexivity|]. cbn [o_mem]. intros z Hz.
      apply occ_pos in Hz. rewrite (occ_upd z _ _ _ new EJ) in Hz. unfold one in Hz. destruct (ptr_eqb new (Some z)) eqn:Q; [right; apply ptr_eqb_eq; auto|left].
      apply occ_pos. destruct (ptr_eqb cur (Some z)); lia.
    - apply cell_upd_other in HX; auto. exists obx. auto. }
  constructor.
  - intros x obx HX. destruct (CR x obx HX) as (ob0 & C0 & R0 & _). rewrite <- R0, TT, (A x ob0 C0). unfold dec, inc. lia.
  - intros x obx HX HL. destruct (CR x obx HX) as (ob0 & C0 & R0 & _). rewrite <- R0. eapply B; eauto.
  - intros x. unfold dec, inc, one. specialize (C x). destruct (ptr_eqb new (Some x)) eqn:Q; [apply ptr_eqb_eq in Q; specialize (HN x Q)|]; destruct (ptr_eqb cur (Some x)); lia.
  - intros x HX. apply CE. unfold dec, inc, one in HX. destruct (ptr_eqb cur (Some x)) eqn:Q.
    + apply ptr_eqb_eq in Q. subst cur. apply (G o ob); [split; auto|]. eapply nth_error_In; eauto.
    + apply F. destruct (ptr_eqb new (Some x)); lia.
  - intros i obi x HX Hin. apply CE. destruct (CR i obi HX) as (ob0 & C0 & _ & M0). destruct (M0 x Hin) as [M1|M1]; [eapply G; eauto|].
    apply F. specialize (HN x M1). lia.
Qed.

(** d->member = new, for a node [o] kept alive from outside *)
Lemma slot_assign_ok : forall f H ext D L o j ob cur new, Inv H ext D L -> ~ In o D -> nth_error H o = Some (Some ob) -> nth_error (o_mem ob) j = Some cur ->
  1 <= ext o -> has H D new -> (length H <= f)%nat ->
  exists H1 H', assign_from f H cur new = Ok H1 /\ write_slot H1 o j new = Ok H' /\ Inv H' ext D L /\ length H' = length H /\ (forall i, In i D -> nth_error H' i = nth_error H i).
Proof.
  intros f H ext D L o j ob cur new HI ND EO EJ HX HN HL.
  destruct (slot_write_inv H ext D L o j ob cur None HI ND EO EJ) as (K & EK & DK & IK); [discriminate|].
  assert (LT : (o < length H)%nat) by (eapply nth_lt; eauto).
  assert (SK : sim o j H K).
  { rewrite DK. constructor; [rewrite upd_length; auto|intros; rewrite nth_error_upd_neq; auto|]. exists ob. eexists. rewrite nth_error_upd_eq by auto. split; auto. split; [reflexivity|].
    cbn. split; auto. exists cur. clear -EJ. revert j EJ. generalize (o_mem ob). induction l as [|x l IH]; intros [|j] E; simpl in *; try discriminate; [congruence|]. rewrite <- IH; auto. }
  assert (HNK : has K D new).
  { intros x Ex. destruct (HN x Ex) as (ox & C0). rewrite DK. destruct (Nat.eq_dec o x) as [<-|N]; [eexists; apply cell_upd_same; eauto|exists ox; apply cell_upd_other; auto]. }
  assert (LK : length K = length H) by (rewrite DK; apply upd_length).
  destruct (assign_ok f K (dec (inc ext cur) None) D L cur new IK) as (K' & E1 & I1 & F1); auto; [|lia|].
  { intros x ->. unfold dec, inc, one. simpl. rewrite Nat.eqb_refl. pose proof (i_nn _ _ _ _ HI x). lia. }
  assert (AO : exists ob', cell K' D o ob').
  { apply (i_ext _ _ _ _ I1). unfold dec, inc, one. simpl. destruct (ptr_eqb cur (Some o)), (ptr_eqb new (Some o)); lia. }
  destruct AO as (ob' & CO). pose proof CO as (EO' & _).
  destruct (fr_mem _ _ _ F1 o ob' EO') as (ob1 & EO1 & M1). rewrite DK, nth_error_upd_eq in EO1 by auto. injection EO1 as <-. cbn [o_mem] in M1. specialize (M1 ND).
  destruct (slot_write_inv K' _ D L o j ob' None new I1 ND EO') as (K2 & EK2 & DK2 & IK2).
  { rewrite M1. apply nth_error_upd_eq. eapply nth_lt; eauto. }
  { intros x ->. unfold dec, inc, one. simpl. rewrite Nat.eqb_refl. pose proof (i_nn _ _ _ _ HI x). destruct (ptr_eqb cur (Some x)); lia. }
  (* transport to the real heap *)
  assert (TR : exists H1, assign_from f H cur new = Ok H1 /\ sim o j H1 K').
  { unfold assign_from in *. destruct (ptr_eqb cur new); [injection E1 as <-; eauto|]. apply bind_Ok_inv in E1. destruct E1 as (K1 & T1 & T2).
    assert (X : exists H0, try_inc H new = Ok H0 /\ sim o j H0 K1).
    { destruct new as [q|]; cbn [try_inc] in *; [|injection T1 as <-; eauto]. apply bind_Ok_inv in T1. destruct T1 as ((pr, Kx) & T1 & T3). injection T3 as <-.
      destruct (sim_fetch _ _ _ _ _ _ _ _ SK T1) as (Hx & -> & Sx). cbn. eauto. }
    destruct X as (H0 & -> & S0). cbn [bind]. eapply sim_release; eauto. exists ob'; auto. }
  destruct TR as (H1 & EH1 & S1). exists H1, K2. split; auto. destruct S1 as [S1 S2 (a & b & A & B & R & (z & M))].
  assert (b = ob') by congruence. subst b.
  assert (EQ : write_slot H1 o j new = Ok K2).
  { unfold write_slot, deref, wr. rewrite A. cbn [bind]. rewrite M, upd_length, M1, upd_length.
    destruct (Nat.ltb_spec j (length (o_mem ob))); [|apply nth_lt in EJ; lia]. cbn [bind]. f_equal. rewrite DK2, <- M1.
    assert (UU : forall A (l : list A) j x y, upd (upd l j x) j y = upd l j y) by (clear; induction l; intros [|j] x y; simpl; auto; rewrite IHl; auto).
    rewrite UU, R. clear -S1 S2. revert H1 K' o S1 S2. induction H1 as [|h H1 IH]; intros [|k K] [|o] S1 S2; simpl in *; try discriminate; auto.
    - f_equal. clear -S1 S2. injection S1 as S1. assert (X : forall i, nth_error H1 i = nth_error K i) by (intros i; apply (S2 (S i)); lia).
      clear S2. revert K S1 X. induction H1 as [|x H1 IH]; intros [|y K] S1 X; simpl in *; try discriminate; auto. f_equal; [specialize (X 0%nat); simpl in X; congruence|]. apply IH; [lia|]. intros i. apply (X (S i)).
    - f_equal; [specialize (S2 0%nat); simpl in S2; injection S2; auto; lia|]. apply IH; [lia|]. intros i Hi. apply (S2 (S i)). lia. }
  rewrite EQ. split; auto. split.
  - eapply Inv_ext_eq; [|exact IK2]. intros x. unfold dec, inc, one. simpl. lia.
  - split.
    + rewrite DK2, upd_length. rewrite (fr_len _ _ _ F1). auto.
    + intros i Hi. assert (o <> i) by (intros <-; auto). rewrite DK2, nth_error_upd_neq by auto. rewrite (fr_D _ _ _ F1) by auto. rewrite DK, nth_error_upd_neq by auto. reflexivity.
Qed.

(** ** All operations *)
Definition extv (V : list (option nat)) (cref : nat -> Z) : nat -> Z := fun o => occ o V + cref o.
Definition SInv (cref : nat -> Z) (L : list nat) (st : hstate) : Prop := Inv (hs_heap st) (extv (hs_vars st) cref) [] L.

Definition op_ok (st : hstate) (c : op) : Prop :=
  let n := length (hs_vars st) in
  match c with
  | ONew _ => True
  | OCopy s | OMove s => (s < n)%nat
  | OAssign d s | OMoveAssign d s | OMoveConv d s | OSwap d s | OResetTo d s => (d < n)%nat /\ (s < n)%nat
  | OReset d | ODestroy d => (d < n)%nat
  | OSetSource d j s | OSetSourceConv d j s =>
      (s < n)%nat /\ exists o ob, nth_error (hs_vars st) d = Some (Some o) /\ nth_error (hs_heap st) o = Some (Some ob) /\ (j < length (o_mem ob))%nat
  | OSetValue d j => exists o ob, nth_error (hs_vars st) d = Some (Some o) /\ nth_error (hs_heap st) o = Some (Some ob) /\ (j < length (o_mem ob))%nat
  end.

Lemma rd_ok : forall A (l : list A) i, (i < length l)%nat -> exists x, rd l i = Ok x /\ nth_error l i = Some x.
Proof. intros A l i H. unfold rd. destruct (nth_error l i) eqn:E; [eauto|apply nth_error_None in E; lia]. Qed.
Lemma wr_ok : forall A (l : list A) i x, (i < length l)%nat -> wr l i x = Ok (upd l i x).
Proof. intros A l i x H. unfold wr. destruct (Nat.ltb_spec i (length l)); auto; lia. Qed.
Lemma occ_in : forall V i o, nth_error V i = Some (Some o) -> 1 <= occ o V.
Proof. intros V i o E. apply nth_error_In in E. apply occ_pos in E. lia. Qed.
Lemma occ_one : forall o p, occ o [p] = one p o.
Proof. intros. unfold one. simpl. lia. Qed.
Lemma upd_upd_swap : forall o V d s a b, nth_error V d = Some a -> nth_error V s = Some b -> occ o (upd (upd V d b) s a) = occ o V.
Proof.
  intros o V d s a b A B. destruct (Nat.eq_dec d s) as [->|N].
  - assert (a = b) by congruence. subst b. rewrite (occ_upd o (upd V s a) s a a); [rewrite (occ_upd o V s a a A); lia|]. apply nth_error_upd_eq. eapply nth_lt; eauto.
  - rewrite (occ_upd o (upd V d b) s b a) by (rewrite nth_error_upd_neq; auto). rewrite (occ_upd o V d a b A). lia.
Qed.

Section Steps.
  Variable cref : nat -> Z.
  Variable L : list nat.
  Hypothesis CN : forall o, 0 <= cref o.

  Lemma ext_of_var : forall V i o, nth_error V i = Some (Some o) -> 1 <= extv V cref o.
  Proof. intros V i o E. unfold extv. apply occ_in in E. specialize (CN o). lia. Qed.
  Lemma has_var : forall st i p, SInv cref L st -> nth_error (hs_vars st) i = Some p -> has (hs_heap st) [] p.
  Proof. intros st i p HI E o ->. apply (i_ext _ _ _ _ HI). apply ext_of_var in E. lia. Qed.

  Lemma new_inv : forall H ext k, Inv H ext [] L -> (forall o, In o L -> (o < length H)%nat) ->
    Inv (H ++ [Some {| o_rc := 1; o_mem := repeat None k |}]) (inc ext (Some (length H))) [] L.
  Proof.
    intros H ext k HI HLL. pose proof HI as [A B C F G]. set (c := Some _). set (o := length H).
    assert (NO : nth_error H o = None) by (apply nth_error_None; unfold o; lia).
    assert (E0 : ext o = 0). { pose proof (C o). destruct (Z.eq_dec (ext o) 0); auto. destruct (F o) as (x & X & _); [lia|congruence]. }
    assert (NX : forall i, i <> o -> nth_error (H ++ [c]) i = nth_error H i).
    { intros i Hi. destruct (Nat.lt_ge_cases i (length H)); [apply nth_error_app1; auto|]. unfold o in Hi. rewrite nth_error_app2 by lia. destruct (i - length H)%nat eqn:Q; [lia|].
      simpl. rewrite (proj2 (nth_error_None H i)) by lia. destruct n; auto. }
    assert (NE : nth_error (H ++ [c]) o = Some c). { unfold o. rewrite nth_error_app2 by lia. rewrite Nat.sub_diag. reflexivity. }
    assert (TT : forall x, totf (own [] x) 0 (H ++ [c]) = totf (own [] x) 0 H).
    { intros x. rewrite totf_app. simpl. rewrite occ_repeat. lia. }
    assert (T0 : totf (own [] o) 0 H = 0).
    { pose proof (totf_nonneg (own [] o) H 0 (own_nonneg [] o)). destruct (Z.eq_dec (totf (own [] o) 0 H) 0); auto. exfalso.
      assert (X : exists i ob, nth_error H i = Some (Some ob) /\ In (Some o) (o_mem ob)).
      { assert (GEN : forall K i, (totf (own [] o) i K <> 0) -> exists j ob, nth_error K j = Some (Some ob) /\ In (Some o) (o_mem ob)).
        { clear. induction K as [|x K IH]; intros i Hn; simpl in Hn; [congruence|]. destruct (Z.eq_dec (own [] o i x) 0) as [Z0|Z0].
          - destruct (IH (S i)) as (j & ob & P); [lia|]. exists (S j), ob. auto.
          - destruct x as [ob|]; simpl in Z0; [|lia]. exists 0%nat, ob. split; auto. apply occ_pos. pose proof (occ_nonneg o (o_mem ob)). lia. }
        eauto. }
      destruct X as (i & ob & Ei & Hi). destruct (G i ob o) as (x & X & _); [split; auto|auto|congruence]. }
    assert (CE : forall x, (exists ob0, cell H [] x ob0) -> exists ob1, cell (H ++ [c]) [] x ob1).
    { intros x (ob0 & C0 & _). exists ob0. split; auto. rewrite nth_error_app1; auto. eapply nth_lt; eauto. }
    constructor.
    - intros x obx (E & _). rewrite TT. unfold inc, one, ptr_eqb. destruct (Nat.eqb_spec o x) as [<-|N].
      + rewrite NE in E. injection E as <-. cbn [o_rc]. lia.
      + rewrite NX in E by auto. rewrite (A x obx); [lia|split; auto].
    - intros x obx (E & _) HL. destruct (Nat.eq_dec x o) as [->|N]; [rewrite NE in E; injection E as <-; simpl; lia|]. rewrite NX in E by auto. eapply B; eauto. split; auto.
    - intros x. unfold inc, one. specialize (C x). destruct (ptr_eqb (Some o) (Some x)); lia.
    - intros x HX. unfold inc, one, ptr_eqb in HX. destruct (Nat.eqb_spec o x) as [e|N]; [rewrite <- e; exists {| o_rc := 1; o_mem := repeat None k |}; split; auto|]. apply CE, F. lia.
    - intros i obi x (E & _) Hin. apply CE. destruct (Nat.eq_dec i o) as [->|N].
      + rewrite NE in E. injection E as <-. cbn in Hin. apply repeat_spec in Hin. discriminate.
      + rewrite NX in E by auto. apply (G i obi x); auto. split; auto.
  Qed.

  Lemma step_ok : forall st c, SInv cref L st -> (forall o, In o L -> (o < length (hs_heap st))%nat) -> op_ok st c ->
    exists st', exec1 st c = Ok st' /\ SInv cref L st' /\ (length (hs_heap st) <= length (hs_heap st'))%nat.
  Proof.
    intros [H V] c HI HLL HO. unfold exec1. set (f := S (length (hs_heap {| hs_heap := H; hs_vars := V |}))). cbn [hs_heap hs_vars] in *.
    assert (FL : (length H <= f)%nat) by (unfold f; simpl; lia). unfold SInv in *. cbn [hs_heap hs_vars] in *.
    assert (HV := has_var {| hs_heap := H; hs_vars := V |}). cbn [hs_heap hs_vars] in HV.
    assert (XV : forall i p, nth_error V i = Some p -> forall o, p = Some o -> 1 <= extv V cref o) by (intros i p E o ->; eapply ext_of_var; eauto).
    destruct c; cbn [step op_ok hs_heap hs_vars] in *.
    - (* New *)
      cbn [try_inc]. unfold fetch_add, deref. rewrite nth_error_app2 by lia. rewrite Nat.sub_diag. cbn [nth_error bind o_rc o_mem].
      rewrite upd_mid by auto. eexists. split; [reflexivity|]. cbn [hs_heap hs_vars]. split; [|rewrite app_length; lia].
      eapply Inv_ext_eq; [|apply new_inv; eauto]. intros o. unfold inc, extv. rewrite occ_app, occ_one. lia.
    - (* Copy *)
      destruct (rd_ok _ V s HO) as (p & -> & EP). cbn [bind]. destruct (try_inc_ok H _ [] L p HI) as (H1 & -> & I1 & F1); [eapply HV; eauto|].
      cbn [bind]. eexists. split; [reflexivity|]. cbn [hs_heap hs_vars]. split; [|rewrite (fr_len _ _ _ F1); lia].
      eapply Inv_ext_eq; [|exact I1]. intros o. unfold inc, extv. rewrite occ_app, occ_one. lia.
    - (* Move *)
      destruct (rd_ok _ V s HO) as (p & -> & EP). cbn [bind]. rewrite wr_ok by auto. cbn [bind]. eexists. split; [reflexivity|]. cbn [hs_heap hs_vars]. split; [|lia].
      eapply Inv_ext_eq; [|exact HI]. intros o. unfold extv. rewrite occ_app, occ_one, (occ_upd o V s p None EP). unfold one. simpl. lia.
    - (* Assign *)
      destruct HO as (Hd & Hs). destruct (rd_ok _ V d Hd) as (cur & -> & EC). destruct (rd_ok _ V s Hs) as (new & -> & EN). cbn [bind].
      destruct (assign_ok f H _ [] L cur new HI) as (H1 & -> & I1 & F1); eauto.
      cbn [bind]. rewrite wr_ok by auto. cbn [bind]. eexists. split; [reflexivity|]. cbn [hs_heap hs_vars]. split; [|rewrite (fr_len _ _ _ F1); lia].
      eapply Inv_ext_eq; [|exact I1]. intros o. unfold dec, inc, extv. rewrite (occ_upd o V d cur new EC). lia.
    - (* MoveAssign *)
      destruct HO as (Hd & Hs). destruct (rd_ok _ V d Hd) as (a & -> & EA). destruct (rd_ok _ V s Hs) as (b & -> & EB). cbn [bind].
      rewrite wr_ok by auto. cbn [bind]. rewrite wr_ok by (rewrite upd_length; auto). cbn [bind]. eexists. split; [reflexivity|]. cbn [hs_heap hs_vars]. split; [|lia].
      eapply Inv_ext_eq; [|exact HI]. intros o. unfold extv. rewrite (upd_upd_swap o V d s a b); auto.
    - (* MoveConv *)
      destruct HO as (Hd & Hs). destruct (rd_ok _ V d Hd) as (cur & -> & EC). destruct (rd_ok _ V s Hs) as (new & -> & EN). cbn [bind].
      destruct (ptr_eqb cur new) eqn:EQ; [eexists; split; [reflexivity|]; split; auto|]. apply ptr_eqb_neq in EQ.
      destruct (release_top f H _ [] L cur HI) as (H1 & -> & I1 & F1); eauto. cbn [bind]. rewrite wr_ok by auto. cbn [bind]. rewrite wr_ok by (rewrite upd_length; auto). cbn [bind].
      eexists. split; [reflexivity|]. cbn [hs_heap hs_vars]. split; [|rewrite (fr_len _ _ _ F1); lia].
      assert (d <> s) by congruence. eapply Inv_ext_eq; [|exact I1]. intros o. unfold dec, extv.
      rewrite (occ_upd o (upd V d new) s new None) by (rewrite nth_error_upd_neq; auto). rewrite (occ_upd o V d cur new EC). unfold one. simpl. lia.
    - (* Swap *)
      destruct HO as (Hd & Hs). destruct (rd_ok _ V d Hd) as (a & -> & EA). destruct (rd_ok _ V s Hs) as (b & -> & EB). cbn [bind].
      rewrite wr_ok by auto. cbn [bind]. rewrite wr_ok by (rewrite upd_length; auto). cbn [bind]. eexists. split; [reflexivity|]. cbn [hs_heap hs_vars]. split; [|lia].
      eapply Inv_ext_eq; [|exact HI]. intros o. unfold extv. rewrite (upd_upd_swap o V d s a b); auto.
    - (* Reset *)
      destruct (rd_ok _ V d HO) as (cur & -> & EC). cbn [bind]. rewrite wr_ok by auto. cbn [bind].
      destruct (release_top f H _ [] L cur HI) as (H1 & -> & I1 & F1); eauto. cbn [bind]. eexists. split; [reflexivity|]. cbn [hs_heap hs_vars]. split; [|rewrite (fr_len _ _ _ F1); lia].
      eapply Inv_ext_eq; [|exact I1]. intros o. unfold dec, extv. rewrite (occ_upd o V d cur None EC). unfold one. simpl. lia.
    - (* ResetTo *)
      destruct HO as (Hd & Hs). destruct (rd_ok _ V s Hs) as (p & -> & EP). cbn [bind]. destruct (try_inc_ok H _ [] L p HI) as (H1 & -> & I1 & F1); [eapply HV; eauto|].
      cbn [bind]. destruct (rd_ok _ V d Hd) as (cur & -> & EC). cbn [bind]. rewrite wr_ok by auto. cbn [bind].
      destruct (release_top f H1 _ [] L cur I1) as (H2 & -> & I2 & F2); [|rewrite (fr_len _ _ _ F1); auto|].
      { intros o Ho. unfold inc, one. pose proof (XV d cur EC o Ho). destruct (ptr_eqb p (Some o)); lia. }
      cbn [bind]. eexists. split; [reflexivity|]. cbn [hs_heap hs_vars]. split; [|rewrite (fr_len _ _ _ F2), (fr_len _ _ _ F1); lia].
      eapply Inv_ext_eq; [|exact I2]. intros o. unfold dec, inc, extv. rewrite (occ_upd o V d cur p EC). lia.
    - (* Destroy *)
      destruct (rd_ok _ V d HO) as (cur & -> & EC). cbn [bind].
      destruct (release_top f H _ [] L cur HI) as (H1 & -> & I1 & F1); eauto. cbn [bind]. rewrite wr_ok by auto. cbn [bind]. eexists. split; [reflexivity|]. cbn [hs_heap hs_vars]. split; [|rewrite (fr_len _ _ _ F1); lia].
      eapply Inv_ext_eq; [|exact I1]. intros o. unfold dec, extv. rewrite (occ_upd o V d cur None EC). unfold one. simpl. lia.
    - (* SetSource *)
      destruct HO as (Hs & o & ob & EV & EO & HJ). rewrite (rd_Ok _ V d _ EV). cbn [bind]. unfold read_slot, deref. rewrite EO. cbn [bind].
      destruct (rd_ok _ (o_mem ob) j HJ) as (cur & -> & EJ). cbn [bind]. destruct (rd_ok _ V s Hs) as (new & -> & EN). cbn [bind].
      destruct (slot_assign_ok f H _ [] L o j ob cur new HI (fun x => x) EO EJ) as (H1 & H2 & -> & E2 & I2 & L2 & _); auto; [eapply ext_of_var; eauto|eapply HV; eauto|].
      cbn [bind]. rewrite E2. cbn [bind]. eexists. split; [reflexivity|]. cbn [hs_heap hs_vars]. split; auto. lia.
    - (* SetSourceConv *)
      destruct HO as (Hs & o & ob & EV & EO & HJ). rewrite (rd_Ok _ V d _ EV). cbn [bind]. destruct (rd_ok _ V s Hs) as (new & -> & EN). cbn [bind].
      destruct (try_inc_ok H _ [] L new HI) as (H1 & -> & I1 & F1); [eapply HV; eauto|]. cbn [bind].
      assert (ob1E : exists ob1, nth_error H1 o = Some (Some ob1)).
      { destruct (i_ext _ _ _ _ I1 o) as (x & X & _); eauto. unfold inc, one. pose proof (ext_of_var V d o EV). destruct (ptr_eqb new (Some o)); lia. }
      destruct ob1E as (ob1 & EO1). destruct (fr_mem _ _ _ F1 o ob1 EO1) as (ob0 & EO0 & M1). rewrite EO in EO0. injection EO0 as <-. specialize (M1 (fun x => x)).
      unfold read_slot, deref. rewrite EO1. cbn [bind]. destruct (rd_ok _ (o_mem ob1) j) as (cur & -> & EJ); [rewrite M1; auto|]. cbn [bind].
      destruct (slot_assign_ok f H1 _ [] L o j ob1 cur new I1 (fun x => x) EO1 EJ) as (H2 & H3 & -> & E3 & I3 & L3 & _).
      { unfold inc, one. pose proof (ext_of_var V d o EV). destruct (ptr_eqb new (Some o)); lia. }
      { eapply has_ext; [exact I1|]. intros x ->. unfold inc. pose proof (ext_of_var V s x EN). unfold one. destruct (ptr_eqb (Some x) (Some x)); lia. }
      { rewrite (fr_len _ _ _ F1). auto. }
      cbn [bind]. rewrite E3. cbn [bind]. destruct (release_top f H3 _ [] L new I3) as (H4 & -> & I4 & F4).
      { intros x ->. unfold inc. pose proof (ext_of_var V s x EN). unfold one. destruct (ptr_eqb (Some x) (Some x)); lia. }
      { rewrite L3, (fr_len _ _ _ F1). auto. }
      cbn [bind]. eexists. split; [reflexivity|]. cbn [hs_heap hs_vars]. split; [|rewrite (fr_len _ _ _ F4), L3, (fr_len _ _ _ F1); lia].
      eapply Inv_ext_eq; [|exact I4]. intros x. unfold dec, inc. lia.
    - (* SetValue *)
      destruct HO as (o & ob & EV & EO & HJ). rewrite (rd_Ok _ V d _ EV). cbn [bind]. unfold read_slot, deref. rewrite EO. cbn [bind].
      destruct (rd_ok _ (o_mem ob) j HJ) as (cur & -> & EJ). cbn [bind].
      destruct (slot_write_inv H _ [] L o j ob cur None HI (fun x => x) EO EJ) as (H1 & -> & D1 & I1); [discriminate|]. cbn [bind].
      assert (LH1 : length H1 = length H) by (rewrite D1; apply upd_length).
      destruct (release_top f H1 _ [] L cur I1) as (H2 & -> & I2 & F2); [|lia|].
      { intros x ->. unfold dec, inc, one. simpl. rewrite Nat.eqb_refl. pose proof (i_nn _ _ _ _ HI x). lia. }
      cbn [bind]. eexists. split; [reflexivity|]. cbn [hs_heap hs_vars]. split; [|rewrite (fr_len _ _ _ F2); lia].
      eapply Inv_ext_eq; [|exact I2]. intros x. unfold dec, inc, one. simpl. lia.
  Qed.
End Steps.
