(** C26 for IEEE comparison, C30 (empty requests), and concrete instances for C24-C28. *)
From Coq Require Import ZArith List Bool Lia.
From Coq Require Import ZifyBool ZifyNat.
From Coq Require Import Floats.SpecFloat.
From Verif Require Import Prelude Batch_Model Batch_Proofs Batch_Proofs2 P_Batch.
Import ListNotations.
Open Scope Z_scope.
Ltac Zify.zify_post_hook ::= Z.div_mod_to_equations.

(** ** IEEE comparison of non-NaN values *)
Definition is_num (f : spec_float) : Prop := f <> S754_nan.
Definition sfle (a b : spec_float) : Prop := SFleb a b = true.
(** std::min( a, b ) is ( b < a ) ? b : a and std::max( a, b ) is ( a < b ) ? b : a *)
Definition std_min (a b : spec_float) := if SFltb b a then b else a.
Definition std_max (a b : spec_float) := if SFltb a b then b else a.
(** minps / maxps: ( a < b ) ? a : b, ( a > b ) ? a : b *)
Definition ps_min (a b : spec_float) := if SFltb a b then a else b.
Definition ps_max (a b : spec_float) := if SFltb b a then a else b.

(** lexicographic key of a non-NaN value *)
Definition key (f : spec_float) : Z * Z * Z :=
  match f with
  | S754_nan => (3, 0, 0)
  | S754_infinity true => (-2, 0, 0)
  | S754_infinity false => (2, 0, 0)
  | S754_zero _ => (0, 0, 0)
  | S754_finite true m e => (-1, - e, - Zpos m)
  | S754_finite false m e => (1, e, Zpos m)
  end.
Definition klt (a b : Z * Z * Z) : Prop :=
  let '(a1, a2, a3) := a in let '(b1, b2, b3) := b in a1 < b1 \/ (a1 = b1 /\ (a2 < b2 \/ (a2 = b2 /\ a3 < b3))).
Lemma compare_key : forall a b, is_num a -> is_num b ->
  match SFcompare a b with Some Lt => klt (key a) (key b) | Some Gt => klt (key b) (key a) | Some Eq => key a = key b | None => False end.
Proof.
  intros [sa|sa| |sa ma ea] [sb|sb| |sb mb eb] A B; try (exfalso; apply A; reflexivity); try (exfalso; apply B; reflexivity); destruct sa, sb; cbn -[Z.compare Pos.compare Pos.compare_cont]; try lia; try reflexivity;
  destruct (Z.compare_spec ea eb); cbn -[Pos.compare Pos.compare_cont]; subst; try lia;
  change (Pos.compare_cont Eq ma mb) with (Pos.compare ma mb); destruct (Pos.compare_spec ma mb); cbn; subst; try lia; try reflexivity.
Qed.
Lemma sfle_key : forall a b, is_num a -> is_num b -> (sfle a b <-> klt (key a) (key b) \/ key a = key b).
Proof.
  intros a b A B. pose proof (compare_key a b A B) as C. unfold sfle, SFleb. destruct (SFcompare a b) as [[]|]; [| | |destruct C].
  - split; [right; auto|auto].
  - split; [left; auto|auto].
  - split; [discriminate|]. destruct (key a) as [[? ?] ?], (key b) as [[? ?] ?]. cbn in *. intros [X|X]; [lia|injection X as -> -> ->; lia].
Qed.
Lemma sfltb_key : forall a b, is_num a -> is_num b -> (SFltb a b = true <-> klt (key a) (key b)).
Proof.
  intros a b A B. pose proof (compare_key a b A B) as C. unfold SFltb. destruct (SFcompare a b) as [[]|]; [|split; auto| |destruct C].
  - split; [discriminate|]. rewrite C. destruct (key b) as [[? ?] ?]. cbn. lia.
  - split; [discriminate|]. destruct (key a) as [[? ?] ?], (key b) as [[? ?] ?]. cbn in *. lia.
Qed.
Lemma klt_total : forall a b, klt a b \/ a = b \/ klt b a.
Proof. intros [[a1 a2] a3] [[b1 b2] b3]. cbn. destruct (Z.eq_dec a1 b1), (Z.eq_dec a2 b2), (Z.eq_dec a3 b3); subst; auto; try lia. Qed.
Lemma klt_trans : forall a b c, klt a b -> klt b c -> klt a c.
Proof. intros [[a1 a2] a3] [[b1 b2] b3] [[c1 c2] c3]. cbn. lia. Qed.

Lemma pick_ok : forall (le : spec_float -> spec_float -> Prop) (c : bool) a b, (c = true -> le b a) -> (c = false -> le a b) -> (forall x, is_num x -> le x x) -> is_num a -> is_num b ->
  ((if c then b else a) = a \/ (if c then b else a) = b) /\ le (if c then b else a) a /\ le (if c then b else a) b.
Proof. intros le [] a b H1 H2 R A B; auto. Qed.
Lemma sf_refl : forall a, is_num a -> sfle a a.
Proof. intros a A. apply sfle_key; auto. Qed.
Lemma lt_le : forall a b, is_num a -> is_num b -> SFltb a b = true -> sfle a b.
Proof. intros a b A B H. apply sfle_key; auto. left. apply sfltb_key; auto. Qed.
Lemma nlt_le : forall a b, is_num a -> is_num b -> SFltb a b = false -> sfle b a.
Proof. intros a b A B H. apply sfle_key; auto. destruct (klt_total (key a) (key b)) as [X|[X|X]]; auto. apply sfltb_key in X; auto. congruence. Qed.

Theorem ieee_ordered : forall m : machine spec_float,
  (vmin_ m = ps_min \/ vmin_ m = std_min) -> (vmax_ m = ps_max \/ vmax_ m = std_max) -> smin_ m = std_min -> smax_ m = std_max ->
  inf_ m = S754_infinity false -> ninf_ m = S754_infinity true -> ordered m is_num sfle.
Proof.
  intros m V1 V2 S1 S2 I1 I2.
  assert (A1 : op_ok _ is_num sfle std_min). { intros a b A B. apply pick_ok; auto using sf_refl; intros H; [apply lt_le|apply nlt_le]; auto. }
  assert (A2 : op_ok _ is_num sfle ps_min).
  { intros a b A B. unfold ps_min. pose proof (pick_ok sfle (SFltb a b) b a (fun H => lt_le _ _ A B H) (fun H => nlt_le _ _ A B H) sf_refl B A). tauto. }
  assert (A3 : op_ok _ is_num (ge _ sfle) std_max). { intros a b A B. apply (pick_ok (ge _ sfle)); auto; intros; unfold ge; [apply lt_le|apply nlt_le|apply sf_refl]; auto. }
  assert (A4 : op_ok _ is_num (ge _ sfle) ps_max).
  { intros a b A B. unfold ps_max. pose proof (pick_ok (ge _ sfle) (SFltb b a) b a (fun H => lt_le _ _ B A H) (fun H => nlt_le _ _ B A H) sf_refl B A). tauto. }
  constructor.
  - apply sf_refl.
  - intros a b c A B C H1 H2. apply sfle_key in H1; auto. apply sfle_key in H2; auto. apply sfle_key; auto.
    destruct H1 as [H1|H1], H2 as [H2|H2]; [left; eapply klt_trans; eauto|left; congruence|left; congruence|right; congruence].
  - destruct V1 as [-> | ->]; auto.
  - rewrite S1; auto.
  - destruct V2 as [-> | ->]; auto.
  - rewrite S2; auto.
  - rewrite I1. discriminate.
  - rewrite I2. discriminate.
  - intros a A. rewrite I1. apply sfle_key; auto; [discriminate|]. destruct a as [[]|[]| |[] ? ?]; try (exfalso; apply A; reflexivity); cbn; lia || auto.
  - intros a A. rewrite I2. apply sfle_key; auto; [discriminate|]. destruct a as [[]|[]| |[] ? ?]; try (exfalso; apply A; reflexivity); cbn; lia || auto.
Qed.

(** C26 with IEEE floats and the x86 or portable minimum: for a 3D grid *)
Theorem C26_ieee_grid_range : forall (m : machine spec_float) gen point, good_width m -> pointwise m gen point ->
  (vmin_ m = ps_min \/ vmin_ m = std_min) -> (vmax_ m = ps_max \/ vmax_ m = std_max) -> smin_ m = std_min -> smax_ m = std_max ->
  inf_ m = S754_infinity false -> ninf_ m = S754_infinity true -> (forall seed ps, point seed ps <> S754_nan) ->
  forall fuel out mm out' xOff yOff zOff xCount yCount zCount xStep yStep zStep seed, 1 <= xCount -> 1 <= yCount -> 1 <= zCount -> xCount * yCount * zCount < 2^31 ->
  enough fuel (xCount * yCount * zCount) m -> Z.of_nat (length out) = xCount * yCount * zCount ->
  grid3 m gen fuel out xOff yOff zOff xCount yCount zCount xStep yStep zStep seed = Ok (mm, out') ->
  (forall v, In v out' -> SFleb (mn mm) v = true /\ SFleb v (mx mm) = true) /\
  (exists v, In v out' /\ SFeqb v (mn mm) = true) /\ (exists v, In v out' /\ SFeqb v (mx mm) = true).
Proof.
  intros m gen point W P V1 V2 S1 S2 I1 I2 NV fuel out mm out' xo yo zo xc yc zc xs ys zs seed X Y Z T F L E.
  assert (O := ieee_ordered m V1 V2 S1 S2 I1 I2).
  destruct (C26_grid_range _ m gen point is_num sfle W P O NV fuel seed mm) as (_ & R & _).
  destruct (R out out' xo yo zo xc yc zc xs ys zs X Y Z T F L E) as (A & (v1 & B1 & B2 & B3) & (v2 & C1 & C2 & C3)). split; [exact A|].
  assert (EQ : forall a b, sfle a b -> sfle b a -> SFeqb a b = true).
  { intros a b H1 H2. unfold sfle, SFleb in *. unfold SFeqb. destruct a as [[]|[]| |[] ? ?], b as [[]|[]| |[] ? ?]; cbn -[Z.compare Pos.compare Pos.compare_cont] in *; auto; try discriminate;
      rewrite (Z.compare_antisym e e0) in H2; destruct (Z.compare e e0); cbn -[Pos.compare Pos.compare_cont] in *; auto; try discriminate;
      change (Pos.compare_cont Eq m0 m1) with (Pos.compare m0 m1) in *; change (Pos.compare_cont Eq m1 m0) with (Pos.compare m1 m0) in *;
      rewrite (Pos.compare_antisym m0 m1) in H2; destruct (Pos.compare m0 m1); cbn in *; auto; discriminate. }
  split; [exists v1|exists v2]; split; auto.
Qed.
Print Assumptions C26_ieee_grid_range.

(** ** A concrete machine: 4 lanes, integers standing for floats *)
Definition demo_machine (w : nat) : machine Z := {| width := w; vmin_ := Z.min; vmax_ := Z.max; smin_ := Z.min; smax_ := Z.max; inf_ := 2^40; ninf_ := - 2^40; junk_ := fun l => Z.of_nat l;
  conv_ := fun i => i; fma_ := fun a b c => a * b + c; add_ := Z.add; mul_ := Z.mul; div_ := Z.div; cos_ := fun a => a; sin_ := fun a => - a; pi2_ := 1 |}.
Definition demo_gen (seed : nat -> Z) (pos : list (nat -> Z)) (l : nat) : Z := fold_right (fun f acc => f l + 100 * acc) (seed l) pos.
Definition demo_point (seed : Z) (pos : list Z) : Z := fold_right (fun v acc => v + 100 * acc) seed pos.
Example demo_good : forall w, (0 < w)%nat -> Z.of_nat w < 2^16 -> good_width (demo_machine w) /\ pointwise (demo_machine w) demo_gen demo_point.
Proof. intros w A B. split; [split; auto|]. intros seed pos l _. unfold demo_gen, demo_point. induction pos as [|f pos IH]; cbn in *; auto. rewrite IH. reflexivity. Qed.
Example demo_ordered : forall w, ordered (demo_machine w) (fun v => - 2^40 <= v <= 2^40) Z.le.
Proof. intros w. constructor; cbn; unfold op_ok, ge; intros; try lia. Qed.
(** a 5 x 3 grid on 4 lanes: rows straddle batches, the last batch is partial *)
Example demo_grid : grid2 (demo_machine 4) demo_gen 30 (repeat 0 16) 7 1 5 3 2 10 9 =
  Ok ({| mn := 90107; mx := 92115 |}, [90107; 90109; 90111; 90113; 90115; 91107; 91109; 91111; 91113; 91115; 92107; 92109; 92111; 92113; 92115; 0]).
Proof. vm_compute. reflexivity. Qed.
Example demo_array : array (demo_machine 4) demo_gen 30 (repeat 0 6) 6 [[1; 2; 3; 4; 5; 6]; [9; 8; 7; 6; 5; 4]] [10; 20] 3 =
  Ok ({| mn := 32416; mx := 32911 |}, [32911; 32812; 32713; 32614; 32515; 32416]).
Proof. vm_compute. reflexivity. Qed.

(** ** C30: empty requests *)
(** The claim "bulk generation with a zero count writes nothing and returns" is false. *)
(** (1) zero rows: the call reads element 0 of the (empty) output buffer *)
Theorem C30_zero_rows_refuted : forall V (m : machine V) gen fuel xOff yOff xCount xStep yStep seed, good_width m -> 1 <= xCount < 2^31 -> enough fuel 0 m ->
  grid2 m gen fuel [] xOff yOff xCount 0 xStep yStep seed = UB.
Proof.
  intros V m gen fuel xo yo xc xs ys seed (W1 & W2) X F. unfold enough in F. cbn in F. unfold grid2, gen_grid2, gen_grid. cbn [product]. unfold imul at 1.
  replace ((- 2^31 <=? 1 * xc) && (1 * xc <? 2^31)) with true by lia. cbn [bind]. unfold imul at 1. replace ((- 2^31 <=? 1 * xc * 0) && (1 * xc * 0 <? 2^31)) with true by lia. cbn [bind].
  replace (1 * xc * 0) with 0 by lia. cbn [start map]. rewrite reset_axes_cons. unfold imul at 1. replace ((- 2^31 <=? 1 * xc) && (1 * xc <? 2^31)) with true by lia. cbn [bind]. rewrite (s32_id (xc - 1)) by lia.
  destruct (axis_reset_spec (width m) W1 W2 fuel true (1 * xc) xc (fun l : nat => Z.of_nat l) (fun _ : nat => 0) ltac:(lia) ltac:(lia)) as (a & b & E & _). rewrite E. cbn [bind reset_axes].
  destruct fuel as [|f]; [lia|]. cbn [grid_loop]. replace (0 <? 0 - nz (width m)) with false by (unfold nz; lia). cbn [bind].
  unfold store_remaining. replace (negb (0 - 0 =? nz (width m))) with true by (unfold nz; lia). replace ((0 - 0 <? 0) || (nz (width m) <? 0 - 0)) with false by (unfold nz; lia). reflexivity.
Qed.
Print Assumptions C30_zero_rows_refuted.
(** (2) zero columns: no number of steps is enough *)
Theorem C30_zero_columns_refuted : forall V (m : machine V) gen fuel out xOff yOff yCount xStep yStep seed, good_width m -> 0 <= yCount < 2^31 ->
  grid2 m gen fuel out xOff yOff 0 yCount xStep yStep seed = NoFuel.
Proof.
  intros V m gen fuel out xo yo yc xs ys seed (W1 & W2) Y. unfold grid2, gen_grid2, gen_grid. cbn [product].
  assert (M0 : forall a b, a * b = 0 -> imul a b = Ok 0) by (intros a b H; unfold imul; rewrite H; reflexivity).
  rewrite (M0 1 0) by lia. cbn [bind]. rewrite (M0 0 yc) by lia. cbn [bind start map]. rewrite reset_axes_cons. rewrite (M0 1 0) by lia. cbn [bind].
  assert (K : forall f a b, axis_loop (width m) f (u64 0) (u64 0) (s32 (0 - 1)) 0 a b = NoFuel).
  { change (u64 0) with 0. induction f as [|f IH]; intros a b; cbn [axis_loop]; auto. replace (0 <? nz (width m)) with true by (unfold nz; lia). change (u64 (0 + 0)) with 0. apply IH. }
  unfold axis_reset. rewrite K. reflexivity.
Qed.
Print Assumptions C30_zero_columns_refuted.
(** (3) an empty position array reads element 0 of the (empty) output buffer *)
Theorem C30_empty_array_refuted : forall V (m : machine V) gen fuel xOff yOff seed, good_width m -> (0 < fuel)%nat ->
  array m gen fuel [] 0 [[]; []] [xOff; yOff] seed = UB.
Proof.
  intros V m gen fuel xo yo seed (W1 & W2) F. destruct fuel as [|f]; [lia|]. unfold array, gen_array, gen_positions. cbn [pos_loop]. replace (0 <? 0 - nz (width m)) with false by (unfold nz; lia). cbn [bind].
  unfold load_remaining. replace ((0 - 0 <? 0) || (nz (width m) <? 0 - 0)) with false by (unfold nz; lia). cbn -[Z.sub]. unfold store_remaining. cbn [Z.eqb].
  replace ((0 - 0 <? 0) || (nz (width m) <? 0 - 0)) with false by (unfold nz; lia). reflexivity.
Qed.
Print Assumptions C30_empty_array_refuted.
(** What does hold: given a non-empty buffer, a request for zero rows leaves it alone and returns,
    the returned range being that of the stale element 0. *)
Theorem C30_zero_rows_partial : forall V (m : machine V) gen fuel out v0 xOff yOff xCount xStep yStep seed, good_width m -> 1 <= xCount < 2^31 -> enough fuel 0 m -> hd_error out = Some v0 ->
  exists mm, grid2 m gen fuel out xOff yOff xCount 0 xStep yStep seed = Ok (mm, out).
Proof.
  intros V m gen fuel out v0 xo yo xc xs ys seed (W1 & W2) X F H. unfold enough in F. cbn in F. unfold grid2, gen_grid2, gen_grid. cbn [product]. unfold imul at 1.
  replace ((- 2^31 <=? 1 * xc) && (1 * xc <? 2^31)) with true by lia. cbn [bind]. unfold imul at 1. replace ((- 2^31 <=? 1 * xc * 0) && (1 * xc * 0 <? 2^31)) with true by lia. cbn [bind].
  replace (1 * xc * 0) with 0 by lia. cbn [start map]. rewrite reset_axes_cons. unfold imul at 1. replace ((- 2^31 <=? 1 * xc) && (1 * xc <? 2^31)) with true by lia. cbn [bind]. rewrite (s32_id (xc - 1)) by lia.
  destruct (axis_reset_spec (width m) W1 W2 fuel true (1 * xc) xc (fun l : nat => Z.of_nat l) (fun _ : nat => 0) ltac:(lia) ltac:(lia)) as (a & b & E & _). rewrite E. cbn [bind reset_axes].
  destruct fuel as [|f]; [lia|]. cbn [grid_loop]. replace (0 <? 0 - nz (width m)) with false by (unfold nz; lia). cbn [bind].
  unfold store_remaining. replace (negb (0 - 0 =? nz (width m))) with true by (unfold nz; lia). replace ((0 - 0 <? 0) || (nz (width m) <? 0 - 0)) with false by (unfold nz; lia).
  destruct out as [|v out]; [discriminate|]. cbn. eexists. reflexivity.
Qed.
Print Assumptions C30_zero_rows_partial.
