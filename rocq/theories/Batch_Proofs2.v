(** Proofs about Batch_Model: stores, minimum and maximum, the main loops. *)
From Coq Require Import ZArith List Bool Lia.
From Coq Require Import ZifyBool ZifyNat.
From Verif Require Import Prelude Batch_Model Batch_Proofs.
Import ListNotations.
Open Scope Z_scope.
Ltac Zify.zify_post_hook ::= Z.div_mod_to_equations.

(** ** Stores and loads *)
Lemma store_spec : forall V (v : nat -> V) k l out at_, 0 <= at_ -> at_ + Z.of_nat l + Z.of_nat k <= Z.of_nat (length out) ->
  exists out', store V k l out at_ v = Ok out' /\ length out' = length out /\
    forall i, nth_error out' i = if (at_ + Z.of_nat l <=? Z.of_nat i) && (Z.of_nat i <? at_ + Z.of_nat l + Z.of_nat k)
                                 then Some (v (i - Z.to_nat at_)%nat) else nth_error out i.
Proof.
  intros V v k. induction k as [|k IH]; intros l out at_ A B.
  - exists out. split; auto. split; auto. intros i. replace ((at_ + Z.of_nat l <=? Z.of_nat i) && (Z.of_nat i <? at_ + Z.of_nat l + Z.of_nat 0)) with false by lia. auto.
  - cbn [store]. replace (at_ + Z.of_nat l <? 0) with false by lia.
    assert (W : exists o1, wr out (Z.to_nat (at_ + Z.of_nat l)) (v l) = Ok o1 /\ o1 = upd out (Z.to_nat (at_ + Z.of_nat l)) (v l)).
    { unfold wr. replace (Nat.ltb (Z.to_nat (at_ + Z.of_nat l)) (length out)) with true by (symmetry; apply PeanoNat.Nat.ltb_lt; lia). eauto. }
    destruct W as (o1 & -> & ->). cbn [bind].
    destruct (IH (S l) (upd out (Z.to_nat (at_ + Z.of_nat l)) (v l)) at_ A) as (out' & E1 & E2 & E3). { rewrite upd_length. lia. }
    exists out'. split; auto. rewrite upd_length in E2. split; auto. intros i. rewrite E3.
    destruct (Z.eqb (Z.of_nat i) (at_ + Z.of_nat l)) eqn:Q.
    + replace ((at_ + Z.of_nat (S l) <=? Z.of_nat i) && (Z.of_nat i <? at_ + Z.of_nat (S l) + Z.of_nat k)) with false by lia.
      replace ((at_ + Z.of_nat l <=? Z.of_nat i) && (Z.of_nat i <? at_ + Z.of_nat l + Z.of_nat (S k))) with true by lia.
      replace i with (Z.to_nat (at_ + Z.of_nat l)) by lia. rewrite nth_error_upd_eq by lia. do 2 f_equal. lia.
    + rewrite nth_error_upd_neq by lia.
      replace ((at_ + Z.of_nat (S l) <=? Z.of_nat i) && (Z.of_nat i <? at_ + Z.of_nat (S l) + Z.of_nat k))
        with ((at_ + Z.of_nat l <=? Z.of_nat i) && (Z.of_nat i <? at_ + Z.of_nat l + Z.of_nat (S k))) by lia. reflexivity.
Qed.

Lemma load_spec : forall V k l (p : list V) at_ v, 0 <= at_ -> at_ + Z.of_nat l + Z.of_nat k <= Z.of_nat (length p) ->
  exists v', load V k l p at_ v = Ok v' /\ forall j, (l <= j < l + k)%nat -> nth_error p (Z.to_nat at_ + j) = Some (v' j).
Proof.
  intros V k. induction k as [|k IH]; intros l p at_ v A B.
  - exists v. split; auto. intros j H. lia.
  - cbn [load]. replace (at_ + Z.of_nat l <? 0) with false by lia.
    destruct (nth_error p (Z.to_nat (at_ + Z.of_nat l))) as [x|] eqn:E; [|apply nth_error_None in E; lia].
    unfold rd. rewrite E. cbn [bind].
    assert (K : forall k l v, exists v', load V k l p at_ v = Ok v' -> True) by (intros; exists v; auto).
    assert (FR : forall k l v v', load V k l p at_ v = Ok v' -> forall j, (j < l)%nat -> v' j = v j).
    { clear. induction k as [|k IH]; cbn [load]; intros l v v' H j J; [injection H as <-; auto|]. destruct (at_ + Z.of_nat l <? 0); [discriminate|].
      apply bind_Ok_inv in H. destruct H as (x & _ & H). apply IH with (j := j) in H; [|lia]. rewrite H. destruct (Nat.eqb_spec j l); [lia|auto]. }
    destruct (IH (S l) p at_ (fun j => if Nat.eqb j l then x else v j)) as (v' & E1 & E2); try lia.
    exists v'. split; auto. intros j J. destruct (PeanoNat.Nat.eq_dec j l) as [->|NE].
    + rewrite (FR _ _ _ _ E1 l) by lia. rewrite PeanoNat.Nat.eqb_refl. rewrite <- E. f_equal. lia.
    + apply E2. lia.
Qed.

(** ** Running minimum (and, with the order reversed, maximum) *)
Section Extreme.
  Variable V : Type.
  Variable num : V -> Prop.            (* not a NaN *)
  Variable le : V -> V -> Prop.
  Variable top : V.
  Hypothesis le_refl : forall a, num a -> le a a.
  Hypothesis le_trans : forall a b c, num a -> num b -> num c -> le a b -> le b c -> le a c.
  Definition op_ok (op : V -> V -> V) : Prop :=
    forall a b, num a -> num b -> (op a b = a \/ op a b = b) /\ le (op a b) a /\ le (op a b) b.

  Variable val : Z -> V.
  Definition extreme (m : V) (S : Z -> Prop) : Prop :=
    (m = top \/ exists p, S p /\ m = val p) /\ (forall p, S p -> le m (val p)) /\ le m top.

  Variable dom : Z -> Prop.
  Hypothesis val_num : forall p, dom p -> num (val p).
  Hypothesis top_num : num top.
  Hypothesis top_le : forall p, dom p -> le (val p) top.

  Lemma extreme_num : forall m (S : Z -> Prop), (forall p, S p -> dom p) -> extreme m S -> num m.
  Proof. intros m S D ([->|(p & H & ->)] & _); auto. Qed.
  Lemma extreme_top : forall S : Z -> Prop, (forall p, ~ S p) -> extreme top S.
  Proof. intros S H. repeat split; auto. intros p X. destruct (H p X). Qed.
  Lemma extreme_one : forall p, dom p -> extreme (val p) (fun q => q = p).
  Proof. intros p H. repeat split; eauto. intros q ->. auto. Qed.
  Lemma extreme_op : forall op m1 m2 (S1 S2 S : Z -> Prop), op_ok op -> (forall p, S1 p -> dom p) -> (forall p, S2 p -> dom p) ->
    extreme m1 S1 -> extreme m2 S2 -> (forall p, S p <-> S1 p \/ S2 p) -> extreme (op m1 m2) S.
  Proof.
    intros op m1 m2 S1 S2 S O D1 D2 E1 E2 U. pose proof (extreme_num _ _ D1 E1) as N1. pose proof (extreme_num _ _ D2 E2) as N2.
    destruct (O m1 m2 N1 N2) as (C & L1 & L2). destruct E1 as (A1 & B1 & T1), E2 as (A2 & B2 & T2).
    assert (NO : num (op m1 m2)) by (destruct C as [->| ->]; auto). repeat split.
    - destruct C as [-> | ->].
      + destruct A1 as [|(p & X & Y)]; auto. right. exists p. split; auto. apply U. auto.
      + destruct A2 as [|(p & X & Y)]; auto. right. exists p. split; auto. apply U. auto.
    - intros p X. apply U in X. destruct X; [apply le_trans with m1|apply le_trans with m2]; auto.
    - apply le_trans with m1; auto.
  Qed.
  Lemma extreme_ext : forall m (S S' : Z -> Prop), (forall p, S p <-> S' p) -> extreme m S -> extreme m S'.
  Proof. intros m S S' U (A & B & T). repeat split; auto; [|intros p X; apply B, U, X]. destruct A as [|(p & X & Y)]; auto. right. exists p. split; auto. apply U, X. Qed.
  (** a non-empty set: the result is attained, up to equivalence *)
  Lemma extreme_attained : forall m (S : Z -> Prop), (forall p, S p -> dom p) -> (exists p, S p) -> extreme m S -> exists p, S p /\ le m (val p) /\ le (val p) m.
  Proof.
    intros m S D (q & Q) ([->|(p & H & ->)] & B & T); [exists q; auto|exists p; auto].
  Qed.
End Extreme.

(** ** The loops *)
Section Loops.
  Variable N : nat.
  Hypothesis Npos : (0 < N)%nat.
  Hypothesis Nsmall : nz N < 2^16.
  Local Notation n := (nz N).
  Variable V : Type.
  Variable num : V -> Prop.
  Variable le : V -> V -> Prop.
  Definition ge a b := le b a.
  Variables vmin vmax smin smax : V -> V -> V.
  Variables inf ninf : V.
  Variable junk : nat -> V.
  (** what the claim about minimum and maximum needs of the arithmetic *)
  Record order_ok : Prop := {
    le_refl : forall a, num a -> le a a;
    le_trans : forall a b c, num a -> num b -> num c -> le a b -> le b c -> le a c;
    vmin_ok : op_ok V num le vmin;
    smin_ok : op_ok V num le smin;
    vmax_ok : op_ok V num ge vmax;
    smax_ok : op_ok V num ge smax;
    num_inf : num inf;
    num_ninf : num ninf;
    inf_top : forall a, num a -> le a inf;
    ninf_bot : forall a, num a -> le ninf a }.
  Lemma ge_refl : order_ok -> forall a, num a -> ge a a.
  Proof. intros O a H. apply (le_refl O); auto. Qed.
  Lemma ge_trans : order_ok -> forall a b c, num a -> num b -> num c -> ge a b -> ge b c -> ge a c.
  Proof. unfold ge; intros O a b c A B C H1 H2. apply (le_trans O) with b; auto. Qed.

  Variable val : Z -> V.                   (* the value that belongs at each index *)
  Variable total : Z.
  Hypothesis tpos : 1 <= total.
  Definition in_total (p : Z) := 0 <= p < total.

  Definition lo (m : V) (S : Z -> Prop) := extreme V le inf val m S.
  Definition hi (m : V) (S : Z -> Prop) := extreme V ge ninf val m S.
  (** both hold when the written values are numbers *)
  Definition mmx (a b : V) (S : Z -> Prop) := order_ok -> (forall p, in_total p -> num (val p)) -> lo a S /\ hi b S.

  Lemma mmx_op : forall fmin fmax a1 b1 a2 b2 (S1 S2 S : Z -> Prop), (order_ok -> op_ok V num le fmin) -> (order_ok -> op_ok V num ge fmax) ->
    (forall p, S1 p -> in_total p) -> (forall p, S2 p -> in_total p) -> (forall p, S p <-> S1 p \/ S2 p) ->
    mmx a1 b1 S1 -> mmx a2 b2 S2 -> mmx (fmin a1 a2) (fmax b1 b2) S.
  Proof.
    intros fmin fmax a1 b1 a2 b2 S1 S2 S O1 O2 D1 D2 U M1 M2 O NV. destruct (M1 O NV) as [L1 H1], (M2 O NV) as [L2 H2]. split.
    - apply (extreme_op V num le inf) with (dom := in_total) (S1 := S1) (S2 := S2); auto; apply O.
    - apply (extreme_op V num ge ninf) with (dom := in_total) (S1 := S1) (S2 := S2); auto; [exact (ge_trans O)|apply O].
  Qed.
  Lemma mmx_one : forall p, in_total p -> mmx (val p) (val p) (fun q => q = p).
  Proof.
    intros p H O NV. split; [apply (extreme_one V num le inf) with (dom := in_total)|apply (extreme_one V num ge ninf (ge_refl O)) with (dom := in_total)]; auto; try (apply O).
    - intros q Q. apply O. auto.
    - intros q Q. apply (ninf_bot O). auto.
  Qed.
  Lemma mmx_top : forall S : Z -> Prop, (forall p, ~ S p) -> mmx inf ninf S.
  Proof. intros S H O NV. split; [apply (extreme_top V num le inf (le_refl O))|apply (extreme_top V num ge ninf (ge_refl O))]; auto; apply O. Qed.
  Lemma mmx_ext : forall a b (S S' : Z -> Prop), (forall p, S p <-> S' p) -> mmx a b S -> mmx a b S'.
  Proof. intros a b S S' U M O NV. destruct (M O NV). split; eapply extreme_ext; eauto. Qed.

  (** what has been written and what has not *)
  Definition done (upto : Z) (out0 out : list V) : Prop :=
    length out = length out0 /\
    forall i, nth_error out i = if Z.of_nat i <? upto then Some (val (Z.of_nat i)) else nth_error out0 i.

  Lemma mm_scan_spec : forall out0 fuel out index m (S : Z -> Prop), done total out0 out -> total <= Z.of_nat (length out0) -> 0 <= index < total ->
    (Z.to_nat (total - index) < fuel)%nat -> (forall p, S p -> in_total p) -> mmx (mn V m) (mx V m) S ->
    exists m', mm_scan V smin smax fuel out index total m = Ok m' /\ mmx (mn V m') (mx V m') (fun p => S p \/ index <= p < total).
  Proof.
    intros out0. induction fuel as [|fuel IH]; intros out index m S D L I F SD M; [lia|]. cbn [mm_scan]. replace (index <? 0) with false by lia.
    destruct D as [DL DN]. assert (R : rd out (Z.to_nat index) = Ok (val index)). { unfold rd. rewrite DN. replace (Z.of_nat (Z.to_nat index) <? total) with true by lia. rewrite Z2Nat.id by lia. auto. }
    rewrite R. cbn [bind].
    assert (M1 : mmx (mn V (mm_value V smin smax m (val index))) (mx V (mm_value V smin smax m (val index))) (fun p => S p \/ p = index)).
    { cbn [mm_value mn mx]. apply mmx_op with (S1 := S) (S2 := fun q => q = index); auto; [apply smin_ok|apply smax_ok|intros p ->; split; lia|tauto|apply mmx_one; split; lia]. }
    destruct (index + 1 <? total) eqn:E.
    - destruct (IH out (index + 1) (mm_value V smin smax m (val index)) (fun p => S p \/ p = index)) as (m' & E1 & E2); auto; try lia; [split; auto|intros p [H| ->]; auto; split; lia|].
      exists m'. split; auto. eapply mmx_ext; [|exact E2]. cbn. intros p. assert ((p = index \/ index + 1 <= p < total) <-> index <= p < total) by lia. tauto.
    - exists (mm_value V smin smax m (val index)). split; auto. eapply mmx_ext; [|exact M1]. cbn. intros p. assert (p = index <-> index <= p < total) by lia. tauto.
  Qed.

  Lemma mm_lanes_spec : forall (P : nat -> Z -> Prop) vmn vmx k l m (S : Z -> Prop), (forall j, (l <= j < l + k)%nat -> mmx (vmn j) (vmx j) (P j)) -> (forall j p, P j p -> in_total p) ->
    (forall p, S p -> in_total p) -> mmx (mn V m) (mx V m) S ->
    let m' := mm_lanes V smin smax k l vmn vmx m in
    mmx (mn V m') (mx V m') (fun p => S p \/ exists j, (l <= j < l + k)%nat /\ P j p).
  Proof.
    intros P vmn vmx. induction k as [|k IH]; intros l m S HV PD SD M; cbn [mm_lanes].
    - eapply mmx_ext; [|exact M]. cbn. intros p. split; [auto|]. intros [H|(j & H & _)]; auto. lia.
    - cbn zeta. eapply mmx_ext; [|apply (IH (Datatypes.S l) _ (fun p => S p \/ P l p)); auto].
      + cbn. intros p. split.
        * intros [[H|H]|(j & J & H)]; auto; right; [exists l|exists j]; split; auto; lia.
        * intros [H|(j & J & H)]; auto. destruct (PeanoNat.Nat.eq_dec j l) as [->|NE]; auto. right. exists j. split; auto. lia.
      + intros j J. apply HV. lia.
      + intros p [H|H]; auto. eapply PD; eauto.
      + cbn [mm_merge mn mx]. apply mmx_op with (S1 := S) (S2 := P l); auto; [apply smin_ok|apply smax_ok|apply PD|tauto|apply HV; lia].
  Qed.

  (** the positions a lane has covered after [index] elements *)
  Definition lane_cov (index : Z) (l : nat) (p : Z) : Prop := (l < N)%nat /\ 0 <= p < index /\ p mod n = Z.of_nat l.

  Lemma store_remaining_spec : forall fuel (loadrem : bool) out0 out index vmn vmx gen base, total <= Z.of_nat (length out0) ->
    (Z.to_nat n < fuel)%nat -> 0 <= index < total -> total - n <= index -> index mod n = 0 ->
    (forall l, (l < N)%nat -> mmx (vmn l) (vmx l) (lane_cov index l)) -> done index out0 out ->
    base = (if loadrem then (if index =? 0 then 0 else total - n) else index) ->
    (forall l, (l < N)%nat -> base + Z.of_nat l < total -> gen l = val (base + Z.of_nat l)) ->
    exists m out', store_remaining N V vmin vmax smin smax inf ninf fuel loadrem out total index vmn vmx gen = Ok (m, out') /\
      done total out0 out' /\ mmx (mn V m) (mx V m) in_total.
  Proof.
    intros fuel loadrem out0 out index vmn vmx gen base L F I R Q MV D B G. unfold store_remaining. assert (n1 : 1 <= n) by (unfold nz; lia).
    assert (NE : n = Z.of_nat N) by reflexivity.
    assert (CV : forall j p, lane_cov index j p -> in_total p) by (intros j p (A1 & A2 & A3); split; lia).
    assert (C : (if loadrem then index =? 0 else negb (total - index =? n)) = true \/ (if loadrem then index =? 0 else negb (total - index =? n)) = false) by (destruct (if loadrem then index =? 0 else negb (total - index =? n)); auto).
    destruct C as [C|C]; rewrite C.
    - assert (BI : base = index) by (destruct loadrem; rewrite B; [rewrite C; lia|auto]).
      replace ((total - index <? 0) || (n <? total - index)) with false by lia.
      destruct (store_spec V gen (Z.to_nat (total - index)) 0 out index) as (o1 & E1 & E2 & E3); [lia|destruct D; lia|]. rewrite E1. cbn [bind].
      assert (D1 : done total out0 o1).
      { destruct D as [DL DN]. split; [congruence|]. intros i. rewrite E3. destruct ((index + Z.of_nat 0 <=? Z.of_nat i) && (Z.of_nat i <? index + Z.of_nat 0 + Z.of_nat (Z.to_nat (total - index)))) eqn:X.
        - replace (Z.of_nat i <? total) with true by lia. f_equal. rewrite G by lia. f_equal. lia.
        - rewrite DN. destruct (Z.of_nat i <? index) eqn:Y; [replace (Z.of_nat i <? total) with true by lia; auto|replace (Z.of_nat i <? total) with false by lia; auto]. }
      destruct (mm_scan_spec out0 fuel o1 index (mm0 V inf ninf) (fun _ => False)) as (m & M1 & M2); auto; [lia|tauto|apply mmx_top; tauto|].
      rewrite M1. cbn [bind]. eexists _, o1. split; [reflexivity|]. split; auto.
      eapply mmx_ext; [|apply (mm_lanes_spec (lane_cov index) vmn vmx N 0 m (fun p => False \/ index <= p < total)); auto].
      + cbn. intros p. unfold in_total, lane_cov. split; [intros [[[]|H]|(j & J & K)]; lia|]. intros H. destruct (Z_lt_ge_dec p index); [|lia]. right. exists (Z.to_nat (p mod n)). pose proof (Z.mod_pos_bound p n). lia.
      + intros j J. apply MV. lia.
      + intros p [[]|H]. split; lia.
    - assert (BI : base = total - n) by (destruct loadrem; rewrite B; [rewrite C; lia|lia]).
      assert (TN : 0 <= total - n). { destruct loadrem; [|lia]. assert (X : index <> 0) by lia. assert (index / n <> 0) by lia. nia. }
      destruct (store_spec V gen N 0 out (total - n)) as (o1 & E1 & E2 & E3); [lia|destruct D; lia|]. rewrite E1. cbn [bind].
      eexists _, o1. split; [reflexivity|]. split.
      + destruct D as [DL DN]. split; [congruence|]. intros i. rewrite E3.
        destruct ((total - n + Z.of_nat 0 <=? Z.of_nat i) && (Z.of_nat i <? total - n + Z.of_nat 0 + Z.of_nat N)) eqn:X.
        * replace (Z.of_nat i <? total) with true by lia. f_equal. rewrite G by lia. f_equal. lia.
        * rewrite DN. destruct (Z.of_nat i <? index) eqn:Y; [replace (Z.of_nat i <? total) with true by lia; auto|replace (Z.of_nat i <? total) with false by lia; auto].
      + set (P := fun (l : nat) (p : Z) => lane_cov index l p \/ ((l < N)%nat /\ p = total - n + Z.of_nat l)).
        eapply mmx_ext; [|apply (mm_lanes_spec (fun l p => (l < N)%nat /\ P l p) (fun l => vmin (vmn l) (gen l)) (fun l => vmax (vmx l) (gen l)) N 0 (mm0 V inf ninf) (fun _ => False)); auto].
        * cbn. intros p. unfold in_total, P, lane_cov. split.
          -- intros [[]|(j & J & _ & [H|H])]; lia.
          -- intros H. right. destruct (Z_lt_ge_dec p (total - n)).
             ++ exists (Z.to_nat (p mod n)). pose proof (Z.mod_pos_bound p n). split; [lia|]. split; [lia|]. left. lia.
             ++ exists (Z.to_nat (p - (total - n))). split; [lia|]. split; [lia|]. right. lia.
        * intros j J. apply mmx_op with (S1 := lane_cov index j) (S2 := fun q => q = total - n + Z.of_nat j); auto.
          -- apply vmin_ok.
          -- apply vmax_ok.
          -- apply CV.
          -- intros p ->. split; lia.
          -- unfold P, lane_cov. intros p. lia.
          -- apply MV. lia.
          -- rewrite G by lia. rewrite BI. apply mmx_one. split; lia.
        * unfold P. intros j p (J & [H|H]); [eauto|split; lia].
        * tauto.
        * apply mmx_top. tauto.
  Qed.

  Lemma lane_cov_next : forall index l, 0 <= index -> index mod n = 0 -> (l < N)%nat ->
    forall p, lane_cov (index + n) l p <-> lane_cov index l p \/ p = index + Z.of_nat l.
  Proof.
    intros index l I Q L p. assert (n1 : n = Z.of_nat N) by reflexivity. unfold lane_cov. split.
    - intros (A & B & C). destruct (Z_lt_ge_dec p index); [left; auto with zarith|]. right.
      assert (X : p mod n = p - index). { assert (index = n * (index / n)) by lia. assert (p / n = index / n). { symmetry. apply Z.div_unique with (p - index); lia. } lia. } lia.
    - intros [(A & B & C)| ->]; [repeat split; auto; lia|]. repeat split; auto; try lia.
      rewrite <- Z.add_mod_idemp_l by lia. rewrite Q, Z.add_0_l. apply Z.mod_small. lia.
  Qed.

  (** one full batch *)
  Lemma batch_step : forall out0 out index vmn vmx gen, total <= Z.of_nat (length out0) -> 0 <= index -> index + n <= total -> index mod n = 0 ->
    (forall l, (l < N)%nat -> mmx (vmn l) (vmx l) (lane_cov index l)) -> done index out0 out ->
    (forall l, (l < N)%nat -> gen l = val (index + Z.of_nat l)) ->
    exists out', store V N 0 out index gen = Ok out' /\ done (index + n) out0 out' /\
      forall l, (l < N)%nat -> mmx (vmin (vmn l) (gen l)) (vmax (vmx l) (gen l)) (lane_cov (index + n) l).
  Proof.
    intros out0 out index vmn vmx gen L I T Q MV D G. assert (NE : n = Z.of_nat N) by reflexivity.
    destruct (store_spec V gen N 0 out index) as (o1 & E1 & E2 & E3); [lia|destruct D; lia|]. exists o1. split; auto. split.
    - destruct D as [DL DN]. split; [congruence|]. intros i. rewrite E3.
      destruct ((index + Z.of_nat 0 <=? Z.of_nat i) && (Z.of_nat i <? index + Z.of_nat 0 + Z.of_nat N)) eqn:X.
      + replace (Z.of_nat i <? index + n) with true by lia. rewrite G by lia. do 2 f_equal. lia.
      + rewrite DN. destruct (Z.of_nat i <? index) eqn:Y; [replace (Z.of_nat i <? index + n) with true by lia; auto|replace (Z.of_nat i <? index + n) with false by lia; auto].
    - intros l HL. apply mmx_op with (S1 := lane_cov index l) (S2 := fun q => q = index + Z.of_nat l); auto.
      + apply vmin_ok.
      + apply vmax_ok.
      + intros p (A & B & C). split; lia.
      + intros p ->. split; lia.
      + apply lane_cov_next; auto.
      + rewrite G by auto. apply mmx_one. split; lia.
  Qed.


  (** ** Position arrays *)
  Section Positions.
    Variable value : list (nat -> V) -> nat -> V.
    Variable g : list V -> V.
    Hypothesis lanewise : forall vs l, (l < N)%nat -> value vs l = g (map (fun f => f l) vs).
    Variable ps : list (list V).
    Hypothesis ps_len : forall p, In p ps -> Z.of_nat (length p) = total.
    Hypothesis val_def : forall i, 0 <= i < total -> val i = g (map (fun p => nth (Z.to_nat i) p (junk 0)) ps).

    Lemma load_all_spec : forall (ld : list V -> res (nat -> V)) base k qs, (forall p, In p qs -> exists v, ld p = Ok v /\ forall j, (j < k)%nat -> nth_error p (Z.to_nat (base + Z.of_nat j)) = Some (v j)) ->
      exists vs, load_all V ld qs = Ok vs /\ forall j, (j < k)%nat -> map (fun f => f j) vs = map (fun p => nth (Z.to_nat (base + Z.of_nat j)) p (junk 0)) qs.
    Proof.
      intros ld base k. induction qs as [|q qs IH]; intros H; cbn [load_all]; [exists []; auto|].
      destruct (H q (or_introl eq_refl)) as (v & -> & E). cbn [bind]. destruct (IH (fun p X => H p (or_intror X))) as (vs & -> & F). cbn [bind].
      exists (v :: vs). split; auto. intros j J. cbn [map]. rewrite F by auto. rewrite (nth_error_nth _ _ _ (E j J)). reflexivity.
    Qed.

    Lemma pos_loop_spec : forall out0, total <= Z.of_nat (length out0) -> forall fuel index vmn vmx out, (Z.to_nat (total - index) < fuel)%nat ->
      0 <= index < total -> index mod n = 0 -> (forall l, (l < N)%nat -> mmx (vmn l) (vmx l) (lane_cov index l)) -> done index out0 out ->
      exists index' vmn' vmx' out', pos_loop N V vmin vmax junk value fuel ps total index vmn vmx out = Ok (index', vmn', vmx', out') /\
        0 <= index' < total /\ total - n <= index' /\ index' mod n = 0 /\ (forall l, (l < N)%nat -> mmx (vmn' l) (vmx' l) (lane_cov index' l)) /\ done index' out0 out'.
    Proof.
      intros out0 L. assert (NE : n = Z.of_nat N) by reflexivity. induction fuel as [|fuel IH]; intros index vmn vmx out F I Q MV D; [lia|]. cbn [pos_loop].
      destruct (index <? total - n) eqn:C.
      - destruct (load_all_spec (fun p => load V N 0 p index junk) index N ps) as (vs & -> & LV).
        { intros p P. destruct (load_spec V N 0 p index junk) as (v & E1 & E2); [lia|rewrite (ps_len p P); lia|]. exists v. split; auto. intros j J. rewrite <- E2 by lia. f_equal. lia. }
        cbn [bind]. assert (G : forall l, (l < N)%nat -> value vs l = val (index + Z.of_nat l)).
        { intros l HL. rewrite lanewise by auto. rewrite val_def by lia. rewrite LV by auto. reflexivity. }
        destruct (batch_step out0 out index vmn vmx (value vs)) as (o1 & E1 & D1 & M1); auto; [lia|lia|]. rewrite E1. cbn [bind].
        destruct (IH (index + n) (fun l => vmin (vmn l) (value vs l)) (fun l => vmax (vmx l) (value vs l)) o1) as (i' & a' & b' & o' & R); auto; try lia.
        { rewrite <- Z.add_mod_idemp_r, Z_mod_same_full, Z.add_0_r by lia. auto. }
        exists i', a', b', o'. exact R.
      - exists index, vmn, vmx, out. split; [auto|]. split; [lia|]. split; [lia|]. auto.
    Qed.

    Theorem gen_positions_spec : forall fuel out, total <= Z.of_nat (length out) -> (Z.to_nat total + N < fuel)%nat ->
      exists m out', gen_positions N V vmin vmax smin smax inf ninf junk value fuel ps total out = Ok (m, out') /\ done total out out' /\ mmx (mn V m) (mx V m) in_total.
    Proof.
      intros fuel out L F. unfold gen_positions. assert (NE : n = Z.of_nat N) by reflexivity.
      destruct (pos_loop_spec out L fuel 0 (fun _ => inf) (fun _ => ninf) out) as (i & a & b & o & E & I1 & I2 & Q & MV & D); auto; try lia.
      { intros l _. apply mmx_top. intros p (_ & H & _). lia. }
      { split; auto. intros j. replace (Z.of_nat j <? 0) with false by lia. auto. }
      rewrite E. cbn [bind]. set (base := if i =? 0 then 0 else total - n).
      assert (B0 : i <> 0 -> 0 <= total - n). { intros X. assert (i / n <> 0) by lia. nia. }
      destruct (load_all_spec (fun p => load_remaining N V junk p total i) base (Z.to_nat (if i =? 0 then total else n)) ps) as (vs & -> & LV).
      { intros p P. unfold load_remaining. pose proof (ps_len p P) as PL. unfold base. destruct (i =? 0) eqn:Z0.
        - replace ((total - i <? 0) || (n <? total - i)) with false by lia.
          destruct (load_spec V (Z.to_nat (total - i)) 0 p 0 junk) as (v & E1 & E2); [lia|lia|]. exists v. split; auto. intros j J. rewrite <- E2 by lia. f_equal. lia.
        - destruct (load_spec V N 0 p (total - n) junk) as (v & E1 & E2); [lia|lia|]. exists v. split; auto. intros j J. rewrite <- E2 by lia. f_equal. lia. }
      cbn [bind]. apply (store_remaining_spec fuel true out o i a b (value vs) base); auto; try lia.
      intros l HL HT. rewrite lanewise by auto. rewrite val_def by (unfold base in *; destruct (i =? 0) eqn:Z0; lia). rewrite LV; auto. unfold base in *. destruct (i =? 0) eqn:Z0; lia.
    Qed.
  End Positions.

  (** ** Grids *)
  Section Grid.
    Variable counts : list Z.
    Hypothesis counts_ne : counts <> [].
    Hypothesis counts_pos : forall c, In c counts -> 1 <= c.
    Hypothesis counts_total : total_of counts = total.
    Hypothesis total_small : total < 2^31.
    Variable value : list ivec -> nat -> V.
    Variable g : list Z -> V.
    Hypothesis lanewise : forall idx l, (l < N)%nat -> length idx = length counts -> value idx l = g (map (fun f => f l) idx).
    Hypothesis val_def : forall i, 0 <= i < total -> val i = g (unflat counts i).

    Definition idx_ok (index : Z) (idx : list ivec) : Prop :=
      length idx = length counts /\ forall l, (l < N)%nat -> index + Z.of_nat l < total -> map (fun f => f l) idx = unflat counts (index + Z.of_nat l).

    Lemma counts_split : exists c cs, counts = c :: cs.
    Proof. destruct counts as [|c cs]; [congruence|eauto]. Qed.

    Lemma idx_next : forall ffuel index (idx : list ivec), (N < ffuel)%nat -> 0 <= index -> idx_ok index idx ->
      exists idx', reset_axes N ffuel false 1 counts (advance N idx) = Ok idx' /\ idx_ok (index + n) idx'.
    Proof.
      intros ffuel index idx F I (L & H). assert (NE : n = Z.of_nat N) by reflexivity. destruct counts_split as (c & cs & EC).
      destruct idx as [|a r]; [rewrite EC in L; discriminate|].
      destruct (reset_axes_spec N Npos Nsmall ffuel false counts ((fun l => s32 (a l + n)) :: r) 1) as (idx' & E1 & E2 & E3); auto; try lia.
      exists idx'. split; auto. split; auto. intros l HL HT. specialize (E3 l). rewrite EC in E3. cbn [map] in E3. rewrite <- EC in E3.
      specialize (H l HL ltac:(lia)). cbn [map] in H.
      pose proof (unflat_range counts (index + Z.of_nat l) counts_pos ltac:(lia)) as R. rewrite <- H, EC in R.
      assert (R1 : 0 <= a l < c /\ Forall2 (fun v c : Z => 0 <= v < c) (map (fun f : nat -> Z => f l) r) cs) by (inversion R; auto). destruct R1 as [H3 H6].
      assert (FL : flat counts (a l :: map (fun f => f l) r) = index + Z.of_nat l). { rewrite H. apply flat_unflat; auto. }
      assert (FN : 0 <= flat cs (map (fun f => f l) r)).
      { apply flat_nonneg; [intros x X; apply counts_pos; rewrite EC; right; auto|]. clear - H6. revert H6. generalize (map (fun f : nat -> Z => f l) r). induction cs; intros l0 X; inversion X; subst; constructor; auto. lia. }
      assert (c1 : 1 <= c) by (apply counts_pos; rewrite EC; left; auto).
      assert (SA : s32 (a l + n) = a l + n). { apply s32_id. rewrite EC, flat_cons in FL. nia. }
      rewrite SA in E3. assert (FA : flat counts (a l + n :: map (fun f => f l) r) = index + n + Z.of_nat l). { rewrite EC, flat_cons in *. lia. }
      rewrite FA in E3. apply E3; [|lia]. unfold pre. split; auto. rewrite Z.div_1_r. lia.
    Qed.

    Lemma idx_first : forall ffuel, (N < ffuel)%nat ->
      exists idx', reset_axes N ffuel true 1 counts (start counts) = Ok idx' /\ idx_ok 0 idx'.
    Proof.
      intros ffuel F. assert (NE : n = Z.of_nat N) by reflexivity. destruct counts_split as (c & cs & EC).
      set (idx := start counts).
      assert (LI : length idx = length counts). { unfold idx, start. rewrite EC. cbn. rewrite map_length. auto. }
      destruct (reset_axes_spec N Npos Nsmall ffuel true counts idx 1) as (idx' & E1 & E2 & E3); auto; try lia.
      exists idx'. split; auto. split; auto. intros l HL HT. specialize (E3 l). unfold idx, start in E3. rewrite EC in E3. cbn [map] in E3. rewrite <- EC in E3.
      rewrite map_map in E3. rewrite Z.add_0_l.
      assert (FZ : flat cs (map (fun _ : Z => 0) cs) = 0). { clear. induction cs as [|x cs IH]; auto. cbn [map]. rewrite flat_cons, IH. lia. }
      assert (FA : flat counts (Z.of_nat l :: map (fun _ : Z => 0) cs) = Z.of_nat l). { rewrite EC, flat_cons, FZ. lia. }
      rewrite FA in E3. apply E3; [|lia]. unfold pre. split; [rewrite Z.div_1_r; lia|]. clear. induction cs; constructor; auto.
    Qed.

    Lemma grid_loop_spec : forall out0 ffuel, (N < ffuel)%nat -> total <= Z.of_nat (length out0) -> forall fuel index idx vmn vmx out, (Z.to_nat (total - index) < fuel)%nat ->
      0 <= index < total -> index mod n = 0 -> idx_ok index idx -> (forall l, (l < N)%nat -> mmx (vmn l) (vmx l) (lane_cov index l)) -> done index out0 out ->
      exists index' idx' vmn' vmx' out', grid_loop N V vmin vmax value fuel ffuel counts total index idx vmn vmx out = Ok (index', idx', vmn', vmx', out') /\
        0 <= index' < total /\ total - n <= index' /\ index' mod n = 0 /\ idx_ok index' idx' /\ (forall l, (l < N)%nat -> mmx (vmn' l) (vmx' l) (lane_cov index' l)) /\ done index' out0 out'.
    Proof.
      intros out0 ffuel FF L. assert (NE : n = Z.of_nat N) by reflexivity. induction fuel as [|fuel IH]; intros index idx vmn vmx out F I Q X MV D; [lia|]. cbn [grid_loop].
      destruct (index <? total - n) eqn:C.
      - assert (G : forall l, (l < N)%nat -> value idx l = val (index + Z.of_nat l)).
        { intros l HL. destruct X as [XL XI]. rewrite lanewise by auto. rewrite val_def by lia. rewrite XI by lia. reflexivity. }
        destruct (batch_step out0 out index vmn vmx (value idx)) as (o1 & E1 & D1 & M1); auto; [lia|lia|]. rewrite E1. cbn [bind].
        destruct (idx_next ffuel index idx FF) as (idx1 & E2 & X2); auto; [lia|]. rewrite E2. cbn [bind].
        destruct (IH (index + n) idx1 (fun l => vmin (vmn l) (value idx l)) (fun l => vmax (vmx l) (value idx l)) o1) as (i' & x' & a' & b' & o' & R); auto; try lia.
        { rewrite <- Z.add_mod_idemp_r, Z_mod_same_full, Z.add_0_r by lia. auto. }
        exists i', x', a', b', o'. exact R.
      - exists index, idx, vmn, vmx, out. split; [auto|]. split; [lia|]. split; [lia|]. auto.
    Qed.

    Lemma product_spec : forall l acc, (forall c, In c l -> 1 <= c) -> 1 <= acc -> acc * total_of l < 2^31 -> product acc l = Ok (acc * total_of l).
    Proof.
      induction l as [|c l IH]; intros acc P A T; cbn [product]; [f_equal; cbn; lia|]. change (total_of (c :: l)) with (c * total_of l) in *.
      pose proof (P c (or_introl eq_refl)). pose proof (total_pos l (fun x H => P x (or_intror H))).
      unfold imul. assert (acc * c < 2^31) by nia. assert (1 <= acc * c) by nia. replace ((- 2^31 <=? acc * c) && (acc * c <? 2^31)) with true by lia. cbn [bind].
      rewrite IH; [f_equal; lia|intros x X; apply P; right; auto|lia|lia].
    Qed.

    Theorem gen_grid_spec : forall fuel out, total <= Z.of_nat (length out) -> (Z.to_nat total + N < fuel)%nat ->
      exists m out', gen_grid N V vmin vmax smin smax inf ninf value fuel counts out = Ok (m, out') /\ done total out out' /\ mmx (mn V m) (mx V m) in_total.
    Proof.
      intros fuel out L F. unfold gen_grid. assert (NE : n = Z.of_nat N) by reflexivity.
      rewrite product_spec by (auto; lia). cbn [bind]. rewrite Z.mul_1_l, counts_total.
      destruct (idx_first fuel) as (idx0 & E0 & X0); [lia|]. rewrite E0. cbn [bind].
      destruct (grid_loop_spec out fuel ltac:(lia) L fuel 0 idx0 (fun _ => inf) (fun _ => ninf) out) as (i & x & a & b & o & E & I1 & I2 & Q & X & MV & D); auto; try lia.
      { intros l _. apply mmx_top. intros p (_ & H & _). lia. }
      { split; auto. intros j. replace (Z.of_nat j <? 0) with false by lia. auto. }
      rewrite E. cbn [bind]. apply (store_remaining_spec fuel false out o i a b (value x) i); auto; try lia.
      intros l HL HT. destruct X as [XL XI]. rewrite lanewise by auto. rewrite val_def by lia. rewrite XI by auto. reflexivity.
    Qed.
  End Grid.
End Loops.
