(** Proofs about Batch_Model: index vectors, stores, minimum and maximum. *)
From Coq Require Import ZArith List Bool Lia.
From Coq Require Import ZifyBool ZifyNat.
From Verif Require Import Prelude Batch_Model.
Import ListNotations.
Open Scope Z_scope.
Ltac Zify.zify_post_hook ::= Z.div_mod_to_equations.

(** ** Row-major positions *)
Fixpoint flat (counts vals : list Z) : Z :=
  match counts, vals with c :: cs, v :: vs => v + c * flat cs vs | _, _ => 0 end.
(** coordinates of the i-th element: all axes but the last are reduced *)
Fixpoint unflat (counts : list Z) (i : Z) : list Z :=
  match counts with [] => [] | [_] => [i] | c :: cs => i mod c :: unflat cs (i / c) end.

Lemma flat_cons : forall c cs v vs, flat (c :: cs) (v :: vs) = v + c * flat cs vs.
Proof. reflexivity. Qed.
Lemma unflat_cons : forall c c2 cs i, unflat (c :: c2 :: cs) i = i mod c :: unflat (c2 :: cs) (i / c).
Proof. reflexivity. Qed.
Lemma unflat_length : forall counts i, length (unflat counts i) = length counts.
Proof. induction counts as [|c [|c2 cs] IH]; intros i; auto. rewrite unflat_cons. cbn [length]. rewrite IH. reflexivity. Qed.
Lemma flat_unflat : forall counts i, counts <> [] -> (forall c, In c counts -> 1 <= c) -> flat counts (unflat counts i) = i.
Proof.
  induction counts as [|c [|c2 cs] IH]; intros i H P; [congruence|cbn; lia|]. rewrite unflat_cons, flat_cons.
  rewrite IH; [|discriminate|intros; apply P; right; auto]. specialize (P c (or_introl eq_refl)). lia.
Qed.
Definition total_of (counts : list Z) : Z := fold_right Z.mul 1 counts.
Lemma total_pos : forall counts, (forall c, In c counts -> 1 <= c) -> 1 <= total_of counts.
Proof. induction counts as [|c cs IH]; intros P; cbn; [lia|]. specialize (IH (fun x H => P x (or_intror H))). specialize (P c (or_introl eq_refl)). fold (total_of cs). nia. Qed.

Lemma flat_nonneg : forall counts vals, (forall c, In c counts -> 1 <= c) -> Forall (fun v => 0 <= v) vals -> 0 <= flat counts vals.
Proof.
  induction counts as [|c cs IH]; intros vals P F; [cbn; lia|]. destruct vals as [|v vs]; [cbn; lia|]. inversion F; subst. cbn.
  specialize (IH vs (fun x H => P x (or_intror H)) H2). specialize (P c (or_introl eq_refl)). nia.
Qed.

(** coordinates of an element below the total are in range *)
Lemma unflat_range : forall counts i, (forall c, In c counts -> 1 <= c) -> 0 <= i < total_of counts ->
  Forall2 (fun v c => 0 <= v < c) (unflat counts i) counts.
Proof.
  induction counts as [|c [|c2 cs] IH]; intros i P R; [constructor|constructor; [cbn in R; lia|constructor]|].
  rewrite unflat_cons. pose proof (P c (or_introl eq_refl)). constructor; [apply Z.mod_pos_bound; lia|]. apply IH; [intros; apply P; right; auto|].
  change (total_of (c :: c2 :: cs)) with (c * total_of (c2 :: cs)) in R. split; [apply Z.div_pos; lia|apply Z.div_lt_upper_bound; lia].
Qed.

(** and flattening coordinates in range is inverse *)
Lemma unflat_flat : forall counts vals, Forall2 (fun v c => 0 <= v < c) vals counts -> unflat counts (flat counts vals) = vals.
Proof.
  induction counts as [|c [|c2 cs] IH]; intros vals F; inversion F; subst.
  - reflexivity.
  - inversion H3; subst. cbn. f_equal. lia.
  - rewrite unflat_cons, flat_cons. replace (x + c * flat (c2 :: cs) l) with (x + flat (c2 :: cs) l * c) by lia.
    rewrite Z.mod_add, Z.div_add by lia. rewrite Z.mod_small, Z.div_small by lia. rewrite Z.add_0_l, IH; auto.
Qed.
Lemma flat_range : forall counts vals, Forall2 (fun v c => 0 <= v < c) vals counts -> 0 <= flat counts vals < total_of counts.
Proof.
  induction counts as [|c cs IH]; intros vals F; inversion F; subst; [cbn; lia|]. specialize (IH _ H3). cbn. fold (total_of cs). nia.
Qed.

(** ** AxisReset *)
Lemma s32_id : forall z, - 2^31 <= z < 2^31 -> s32 z = z.
Proof. intros. unfold s32. rewrite Z.mod_small; lia. Qed.
Section Axis.
  Variable N : nat.
  Hypothesis Npos : (0 < N)%nat.
  Hypothesis Nsmall : nz N < 2^16.
  Local Notation n := (nz N).

  Definition one_reset (aMax aSize : Z) (p : Z * Z) : Z * Z :=
    if aMax <? fst p then (s32 (fst p - aSize), s32 (snd p + 1)) else p.
  Fixpoint resets (k : nat) (aMax aSize : Z) (p : Z * Z) : Z * Z :=
    match k with O => p | S k' => resets k' aMax aSize (one_reset aMax aSize p) end.


  Lemma resets_spec : forall k size a b, 1 <= size < 2^31 -> 0 <= a < 2^31 -> 0 <= b -> b + a / size < 2^31 -> a / size <= Z.of_nat k ->
    resets k (size - 1) size (a, b) = (a mod size, b + a / size).
  Proof.
    induction k as [|k IH]; intros size a b S A B O K; cbn [resets].
    - assert (a / size = 0) by (pose proof (Z.div_pos a size); lia). assert (a < size) by (apply Z.div_small_iff in H; lia). rewrite Z.mod_small by lia. f_equal; lia.
    - unfold one_reset. cbn [fst snd]. destruct (size - 1 <? a) eqn:E.
      + assert (D : a / size = (a - size) / size + 1). { replace a with (a - size + 1 * size) at 1 by lia. rewrite Z.div_add by lia. lia. }
        assert (M : a mod size = (a - size) mod size). { replace a with (a - size + 1 * size) at 1 by lia. rewrite Z.mod_add by lia. auto. }
        pose proof (Z.div_pos (a - size) size).
        rewrite !s32_id by lia. rewrite IH by lia. f_equal; lia.
      + rewrite IH; auto. rewrite Z.div_small by lia. lia.
  Qed.

  Lemma axis_loop_spec : forall aStep aMax aSize fuel r a b, 1 <= aStep < 2^31 -> 0 <= r < 2^32 -> (Z.to_nat (n - r) < fuel)%nat ->
    exists a' b', axis_loop N fuel r aStep aMax aSize a b = Ok (a', b') /\
      forall l, (a' l, b' l) = resets (Z.to_nat ((n - r + aStep - 1) / aStep)) aMax aSize (a l, b l).
  Proof.
    intros aStep aMax aSize. induction fuel as [|fuel IH]; intros r a b S R F; [lia|]. cbn [axis_loop].
    destruct (r <? n) eqn:E.
    - assert (U : u64 (r + aStep) = r + aStep) by (unfold u64; apply Z.mod_small; lia). rewrite U.
      destruct (IH (r + aStep) (fun l => if aMax <? a l then s32 (a l - aSize) else a l) (fun l => if aMax <? a l then s32 (b l + 1) else b l)) as (a' & b' & E1 & E2); try lia.
      exists a', b'. split; auto. intros l. rewrite E2.
      assert (K : Z.to_nat ((n - r + aStep - 1) / aStep) = Datatypes.S (Z.to_nat ((n - (r + aStep) + aStep - 1) / aStep))).
      { replace (n - r + aStep - 1) with (n - (r + aStep) + aStep - 1 + 1 * aStep) by lia. rewrite Z.div_add by lia.
        assert (0 <= (n - (r + aStep) + aStep - 1) / aStep). { apply Z.div_pos; lia. } lia. }
      rewrite K. cbn [resets]. unfold one_reset. cbn [fst snd]. destruct (aMax <? a l); reflexivity.
    - exists a, b. split; auto. intros l. assert (K : (n - r + aStep - 1) / aStep <= 0). { assert ((n - r + aStep - 1) / aStep < 1) by (apply Z.div_lt_upper_bound; lia). lia. }
      replace (Z.to_nat ((n - r + aStep - 1) / aStep)) with 0%nat by lia. reflexivity.
  Qed.

  (** iterations done *)
  Definition rounds (initial : bool) (aStep : Z) : Z := if initial then (n - 1) / aStep else (n + aStep - 1) / aStep.
  Lemma axis_reset_spec : forall fuel initial aStep size a b, 1 <= aStep < 2^31 -> (N < fuel)%nat ->
    exists a' b', axis_reset N fuel initial aStep (size - 1) size a b = Ok (a', b') /\
      forall l, 1 <= size < 2^31 -> 0 <= a l < 2^31 -> 0 <= b l -> b l + a l / size < 2^31 -> a l / size <= rounds initial aStep ->
        a' l = a l mod size /\ b' l = b l + a l / size.
  Proof.
    intros fuel initial aStep size a b S F. unfold axis_reset. assert (U : u64 aStep = aStep) by (unfold u64; apply Z.mod_small; lia). rewrite U.
    destruct (axis_loop_spec aStep (size - 1) size fuel (if initial then aStep else 0) a b) as (a' & b' & E1 & E2); auto; [destruct initial; lia|destruct initial; unfold nz; lia|].
    exists a', b'. split; auto. intros l H1 H2 H3 H4 H5. specialize (E2 l). rewrite resets_spec in E2; auto.
    - injection E2 as -> ->. auto.
    - unfold rounds in H5. pose proof (Z.div_pos (a l) size). destruct initial; [replace (n - aStep + aStep - 1) with (n - 1) by lia|replace (n - 0 + aStep - 1) with (n + aStep - 1) by lia]; lia.
  Qed.

  (** bounds on an unnormalised first index *)
  Definition pre (initial : bool) (P c : Z) (cs : list Z) (a : Z) (bs : list Z) : Prop :=
    if initial then 0 <= a <= (n - 1) / P /\ Forall (fun b => b = 0) bs
    else 0 <= a <= c - 1 + (n + P - 1) / P /\ Forall2 (fun b c => 0 <= b < c) bs cs.

  Lemma pre_rounds : forall initial P c cs a bs, 1 <= P -> 1 <= c -> pre initial P c cs a bs -> a / c <= rounds initial (P * c).
  Proof.
    intros initial P c cs a bs HP HC H. pose proof (Z.mul_pos_pos P c). unfold rounds, pre in *. destruct initial; destruct H as [H _].
    - rewrite <- Z.div_div by lia. apply Z.div_le_mono; lia.
    - assert (X : (n + P * c - 1) / (P * c) = (c - 1 + (n + P - 1) / P) / c).
      { rewrite <- Z.div_div by lia. f_equal. replace (n + P * c - 1) with (n + P - 1 + (c - 1) * P) by lia. rewrite Z.div_add by lia. lia. }
      rewrite X. apply Z.div_le_mono; lia.
  Qed.
  Lemma pre_next : forall initial P c c2 cs a b bs, 1 <= P -> 1 <= c -> pre initial P c (c2 :: cs) a (b :: bs) -> pre initial (P * c) c2 cs (b + a / c) bs.
  Proof.
    intros initial P c c2 cs a b bs HP HC H. pose proof (pre_rounds _ _ _ _ _ _ HP HC H) as R. unfold rounds, pre in *. destruct initial; destruct H as [H F]; inversion F; subst.
    - split; auto. pose proof (Z.div_pos a c). lia.
    - split; auto. pose proof (Z.div_pos a c). lia.
  Qed.

  Lemma reset_axes_cons : forall fuel initial step c c2 cs a b rest, reset_axes N fuel initial step (c :: c2 :: cs) (a :: b :: rest) =
    (step <- imul step c ;
     ' (a, b) <- axis_reset N fuel initial step (s32 (c - 1)) c a b ;
     r <- reset_axes N fuel initial step (c2 :: cs) (b :: rest) ;
     Ok (a :: r)).
  Proof. reflexivity. Qed.
  Lemma reset_axes_spec : forall fuel initial counts idx P, (N < fuel)%nat -> length idx = length counts -> counts <> [] ->
    (forall c, In c counts -> 1 <= c) -> 1 <= P -> P * total_of counts < 2^31 ->
    exists idx', reset_axes N fuel initial P counts idx = Ok idx' /\ length idx' = length counts /\
      forall l, match counts, map (fun f => f l) idx with
                | c :: cs, a :: bs => pre initial P c cs a bs -> flat counts (a :: bs) < 2^31 -> map (fun f => f l) idx' = unflat counts (flat counts (a :: bs))
                | _, _ => True
                end.
  Proof.
    intros fuel initial counts. induction counts as [|c [|c2 cs] IH]; intros idx P F L NE C HP T; [congruence| |].
    - destruct idx as [|a [|? ?]]; try discriminate. cbn [reset_axes]. exists [a]. split; auto. split; auto. intros l. cbn. intros _ _. f_equal. lia.
    - destruct idx as [|a [|b rest]]; try discriminate. rewrite reset_axes_cons.
      pose proof (C c (or_introl eq_refl)) as C1. pose proof (total_pos (c2 :: cs) (fun x H => C x (or_intror H))) as TP.
      change (total_of (c :: c2 :: cs)) with (c * total_of (c2 :: cs)) in T.
      assert (PC : P * c < 2^31) by nia. assert (PC1 : 1 <= P * c) by nia. assert (CB : c < 2^31) by nia.
      unfold imul. replace ((- 2^31 <=? P * c) && (P * c <? 2^31)) with true by lia. cbn [bind].
      rewrite (s32_id (c - 1)) by lia.
      destruct (axis_reset_spec fuel initial (P * c) c a b ltac:(lia) F) as (a' & b' & EA & LA). rewrite EA. cbn [bind].
      destruct (IH (b' :: rest) (P * c)) as (r & ER & LR & XR); auto; [discriminate|intros; apply C; right; auto|nia|].
      rewrite ER. cbn [bind]. exists (a' :: r). split; auto. split; [cbn [length] in *; lia|]. intros l. cbn [map]. intros PRE FB.
      assert (FE : flat (c :: c2 :: cs) (a l :: b l :: map (fun f => f l) rest) = a l + c * flat (c2 :: cs) (b l :: map (fun f => f l) rest)) by reflexivity.
      assert (NN : Forall (fun v => 0 <= v) (b l :: map (fun f => f l) rest)).
      { unfold pre in PRE. destruct initial; destruct PRE as [_ PRE]; [eapply Forall_impl; [|exact PRE]; cbn; lia|].
        clear - PRE. revert PRE. generalize (b l :: map (fun f => f l) rest) (c2 :: cs). intros l0 l1 X. induction X; constructor; auto. lia. }
      assert (NA : 0 <= a l) by (unfold pre in PRE; destruct initial; lia).
      assert (FN : 0 <= flat cs (map (fun f => f l) rest)). { apply flat_nonneg; [intros; apply C; right; right; auto|inversion NN; auto]. }
      assert (BL : 0 <= b l) by (inversion NN; auto).
      pose proof (C c2 (or_intror (or_introl eq_refl))) as C2.
      assert (F2 : flat (c2 :: cs) (b l :: map (fun f => f l) rest) = b l + c2 * flat cs (map (fun f => f l) rest)) by reflexivity.
      assert (FB2 : b l <= flat (c2 :: cs) (b l :: map (fun f => f l) rest)) by nia.
      assert (CM : flat (c2 :: cs) (b l :: map (fun f => f l) rest) <= c * flat (c2 :: cs) (b l :: map (fun f => f l) rest)) by nia.
      rewrite FE in FB. assert (AD : a l / c <= a l) by (apply Z.div_le_upper_bound; nia).
      destruct (LA l) as (LA1 & LA2); try lia; [eapply pre_rounds; eauto|].
      assert (FS : flat (c2 :: cs) (b' l :: map (fun f => f l) rest) = (a l + c * flat (c2 :: cs) (b l :: map (fun f => f l) rest)) / c).
      { replace (a l + c * flat (c2 :: cs) (b l :: map (fun f => f l) rest)) with (a l + flat (c2 :: cs) (b l :: map (fun f => f l) rest) * c) by lia. rewrite Z.div_add by lia. rewrite !flat_cons, LA2. lia. }
      rewrite FE, unflat_cons. specialize (XR l). cbn [map] in XR. rewrite XR.
      + rewrite LA1, FS. f_equal. replace (a l + c * flat (c2 :: cs) (b l :: map (fun f => f l) rest)) with (a l + flat (c2 :: cs) (b l :: map (fun f => f l) rest) * c) by lia. rewrite Z.mod_add by lia. reflexivity.
      + rewrite LA2. eapply pre_next; eauto.
      + rewrite FS. apply Z.div_lt_upper_bound; [lia|]. nia.
  Qed.
End Axis.
