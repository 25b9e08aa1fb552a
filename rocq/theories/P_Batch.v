(** C24-C28, C30: bulk generation. Statements over Batch_Model only. *)
From Coq Require Import ZArith List Bool Lia.
From Coq Require Import ZifyBool ZifyNat.
From Verif Require Import Prelude Batch_Model Batch_Proofs Batch_Proofs2.
Import ListNotations.
Open Scope Z_scope.
Ltac Zify.zify_post_hook ::= Z.div_mod_to_equations.

(** ** Specification *)
(** The arithmetic of one build: register width, and the float operations (any function: no
    law is assumed except where a theorem says so). *)
Record machine (V : Type) := {
  width : nat;
  vmin_ : V -> V -> V; vmax_ : V -> V -> V; smin_ : V -> V -> V; smax_ : V -> V -> V;
  inf_ : V; ninf_ : V; junk_ : nat -> V;
  conv_ : Z -> V; fma_ : V -> V -> V -> V; add_ : V -> V -> V; mul_ : V -> V -> V; div_ : V -> V -> V;
  cos_ : V -> V; sin_ : V -> V; pi2_ : V }.
Arguments width {V}. Arguments vmin_ {V}. Arguments vmax_ {V}. Arguments smin_ {V}. Arguments smax_ {V}. Arguments inf_ {V}. Arguments ninf_ {V}.
Arguments junk_ {V}. Arguments conv_ {V}. Arguments fma_ {V}. Arguments add_ {V}. Arguments mul_ {V}. Arguments div_ {V}. Arguments cos_ {V}. Arguments sin_ {V}. Arguments pi2_ {V}.
Arguments mn {V}. Arguments mx {V}.

Definition good_width {V} (m : machine V) : Prop := (0 < width m)%nat /\ Z.of_nat (width m) < 2^16.

(** A node's register code computes, in each lane, the function [point] of that lane's own
    seed and position. (For the node graphs of the library this is a theorem: see C51.) *)
Definition pointwise {V} (m : machine V) (gen : (nat -> Z) -> list (nat -> V) -> nat -> V) (point : Z -> list V -> V) : Prop :=
  forall seed pos l, (l < width m)%nat -> gen seed pos l = point (seed l) (map (fun f => f l) pos).

Section Calls.
  Context {V : Type} (m : machine V) (gen : (nat -> Z) -> list (nat -> V) -> nat -> V).
  Definition grid2 := gen_grid2 (width m) V (vmin_ m) (vmax_ m) (smin_ m) (smax_ m) (inf_ m) (ninf_ m) gen (conv_ m) (fma_ m).
  Definition grid3 := gen_grid3 (width m) V (vmin_ m) (vmax_ m) (smin_ m) (smax_ m) (inf_ m) (ninf_ m) gen (conv_ m) (fma_ m).
  Definition grid4 := gen_grid4 (width m) V (vmin_ m) (vmax_ m) (smin_ m) (smax_ m) (inf_ m) (ninf_ m) gen (conv_ m) (fma_ m).
  Definition array := gen_array (width m) V (vmin_ m) (vmax_ m) (smin_ m) (smax_ m) (inf_ m) (ninf_ m) (junk_ m) gen (add_ m).
  Definition single := gen_single V gen.
  Definition tileable := gen_tileable (width m) V (vmin_ m) (vmax_ m) (smin_ m) (smax_ m) (inf_ m) (ninf_ m) gen (conv_ m) (mul_ m) (div_ m) (cos_ m) (sin_ m) (pi2_ m).
End Calls.

(** position of a grid element along one axis *)
Definition axis {V} (m : machine V) (offset step : V) (i : Z) : V := fma_ m (conv_ m i) step offset.
(** enough steps for the call to finish *)
Definition enough (fuel : nat) (total : Z) {V} (m : machine V) : Prop := (Z.to_nat total + width m < fuel)%nat.

(** the returned range: below/above every written element and equivalent to one of them *)
Definition true_range {V} (le : V -> V -> Prop) (mm : minmax V) (written : list V) : Prop :=
  (forall v, In v written -> le (mn mm) v /\ le v (mx mm)) /\
  (exists v, In v written /\ le v (mn mm) /\ le (mn mm) v) /\
  (exists v, In v written /\ le v (mx mm) /\ le (mx mm) v).
(** what the range needs of the arithmetic: on numbers (not NaN), the order is transitive, the
    minimum and maximum operations return an operand that bounds both, and the infinities bound *)
Definition ordered {V} (m : machine V) (num : V -> Prop) (le : V -> V -> Prop) : Prop :=
  order_ok V num le (vmin_ m) (vmax_ m) (smin_ m) (smax_ m) (inf_ m) (ninf_ m).

(** ** Common part *)
Section Common.
  Context {V : Type} (m : machine V).
  Hypothesis W : good_width m.

  Definition result (r : res (minmax V * list V)) (out : list V) (total : Z) (val : Z -> V) : Prop :=
    exists mm out', r = Ok (mm, out') /\ length out' = length out /\
      (forall i, 0 <= i < total -> nth_error out' (Z.to_nat i) = Some (val i)) /\
      (forall i, total <= Z.of_nat i -> nth_error out' i = nth_error out i) /\
      forall num le, ordered m num le -> (forall i, 0 <= i < total -> num (val i)) -> true_range le mm (firstn (Z.to_nat total) out').

  Lemma in_firstn_idx : forall (l : list V) k v, In v (firstn k l) <-> exists i, (i < k)%nat /\ nth_error l i = Some v.
  Proof.
    induction l as [|x l IH]; intros k v; [rewrite firstn_nil; split; [intros []|intros (i & _ & H); destruct i; discriminate]|].
    destruct k as [|k]; cbn [firstn]; [split; [intros []|intros (i & H & _); lia]|]. split.
    - intros [<-|H]; [exists 0%nat; split; [lia|auto]|]. apply IH in H. destruct H as (i & A & B). exists (S i). split; [lia|auto].
    - intros ([|i] & A & B); cbn in B; [left; congruence|right]. apply IH. exists i. split; [lia|auto].
  Qed.

  Lemma finish : forall r out total val, 1 <= total ->
    (exists mm out', r = Ok (mm, out') /\ done V val total out out' /\
       forall num le, mmx V num le (vmin_ m) (vmax_ m) (smin_ m) (smax_ m) (inf_ m) (ninf_ m) val total (mn mm) (mx mm) (in_total total)) ->
    result r out total val.
  Proof.
    intros r out total val T (mm & out' & E & (DL & DN) & M). exists mm, out'. split; auto. split; auto.
    assert (D1 : forall i, 0 <= i < total -> nth_error out' (Z.to_nat i) = Some (val i)).
    { intros i I. rewrite DN. replace (Z.of_nat (Z.to_nat i) <? total) with true by lia. rewrite Z2Nat.id by lia. auto. }
    split; auto. split. { intros i I. rewrite DN. replace (Z.of_nat i <? total) with false by lia. auto. }
    intros num le O NV. destruct (M num le O NV) as [LO HI].
    assert (IN : forall v, In v (firstn (Z.to_nat total) out') <-> exists i, 0 <= i < total /\ v = val i).
    { intros v. rewrite in_firstn_idx. split.
      - intros (i & A & B). exists (Z.of_nat i). split; [lia|]. specialize (D1 (Z.of_nat i) ltac:(lia)). rewrite Nat2Z.id in D1. congruence.
      - intros (i & A & ->). exists (Z.to_nat i). split; [lia|auto]. }
    assert (LO2 : exists p, in_total total p /\ le (mn mm) (val p) /\ le (val p) (mn mm)).
    { apply (extreme_attained V le (inf_ m) val (in_total total)); auto; [intros p I; apply O, NV, I|exists 0; unfold in_total; lia]. }
    assert (HI2 : exists p, in_total total p /\ le (val p) (mx mm) /\ le (mx mm) (val p)).
    { apply (extreme_attained V (ge V le) (ninf_ m) val (in_total total)); auto; [intros p I; apply (ninf_bot _ _ _ _ _ _ _ _ _ O), NV, I|exists 0; unfold in_total; lia]. }
    split; [|split].
    - intros v H. apply IN in H. destruct H as (i & I & ->). split; [apply LO; auto|]. apply HI in I. exact I.
    - destruct LO2 as (p & P1 & P2 & P3). exists (val p). split; auto. apply IN. eauto.
    - destruct HI2 as (p & P1 & P2 & P3). exists (val p). split; auto. apply IN. eauto.
  Qed.

  Lemma grid_result : forall counts value g fuel out, counts <> [] -> (forall c, In c counts -> 1 <= c) -> total_of counts < 2^31 ->
    total_of counts <= Z.of_nat (length out) -> enough fuel (total_of counts) m ->
    (forall idx l, (l < width m)%nat -> length idx = length counts -> value idx l = g (map (fun f => f l) idx)) ->
    result (gen_grid (width m) V (vmin_ m) (vmax_ m) (smin_ m) (smax_ m) (inf_ m) (ninf_ m) value fuel counts out) out (total_of counts) (fun i => g (unflat counts i)).
  Proof.
    intros counts value g fuel out NE P T L F LW. destruct W as [W1 W2]. pose proof (total_pos counts P) as TP. apply finish; auto.
    assert (X : forall num le, exists mm out', gen_grid (width m) V (vmin_ m) (vmax_ m) (smin_ m) (smax_ m) (inf_ m) (ninf_ m) value fuel counts out = Ok (mm, out') /\
      done V (fun i => g (unflat counts i)) (total_of counts) out out' /\ mmx V num le (vmin_ m) (vmax_ m) (smin_ m) (smax_ m) (inf_ m) (ninf_ m) (fun i => g (unflat counts i)) (total_of counts) (mn mm) (mx mm) (in_total (total_of counts))).
    { intros num le. apply gen_grid_spec with (g := g); auto. }
    destruct (X (fun _ => True) (fun _ _ => True)) as (mm & out' & E & D & _). exists mm, out'. split; auto. split; auto.
    intros num le. destruct (X num le) as (mm2 & out2 & E2 & _ & M). rewrite E in E2. injection E2 as <- <-. exact M.
  Qed.

  Lemma array_result : forall ps value g fuel out count, 1 <= count -> (forall p, In p ps -> Z.of_nat (length p) = count) ->
    count <= Z.of_nat (length out) -> enough fuel count m ->
    (forall vs l, (l < width m)%nat -> value vs l = g (map (fun f => f l) vs)) ->
    result (gen_positions (width m) V (vmin_ m) (vmax_ m) (smin_ m) (smax_ m) (inf_ m) (ninf_ m) (junk_ m) value fuel ps count out) out count
      (fun i => g (map (fun p => nth (Z.to_nat i) p (junk_ m 0%nat)) ps)).
  Proof.
    intros ps value g fuel out count C P L F LW. destruct W as [W1 W2]. apply finish; auto. set (val := fun i => g (map (fun p => nth (Z.to_nat i) p (junk_ m 0%nat)) ps)).
    assert (X : forall num le, exists mm out', gen_positions (width m) V (vmin_ m) (vmax_ m) (smin_ m) (smax_ m) (inf_ m) (ninf_ m) (junk_ m) value fuel ps count out = Ok (mm, out') /\
      done V val count out out' /\ mmx V num le (vmin_ m) (vmax_ m) (smin_ m) (smax_ m) (inf_ m) (ninf_ m) val count (mn mm) (mx mm) (in_total count)).
    { intros num le. apply gen_positions_spec with (g := g); auto. }
    destruct (X (fun _ => True) (fun _ _ => True)) as (mm & out' & E & D & _). exists mm, out'. split; auto. split; auto.
    intros num le. destruct (X num le) as (mm2 & out2 & E2 & _ & M). rewrite E in E2. injection E2 as <- <-. exact M.
  Qed.
End Common.

Lemma fold2 : forall a b, total_of [a; b] = a * b. Proof. intros; cbn; lia. Qed.
Lemma fold3 : forall a b c, total_of [a; b; c] = a * b * c. Proof. intros; cbn; lia. Qed.
Lemma fold4 : forall a b c d, total_of [a; b; c; d] = a * b * c * d. Proof. intros; cbn; lia. Qed.
Ltac in_pos := let x := fresh in let H := fresh in intros x H; cbn in H; decompose [or] H; subst; try contradiction; lia.

Section Grids.
  Context {V : Type} (m : machine V) (gen : (nat -> Z) -> list (nat -> V) -> nat -> V) (point : Z -> list V -> V).
  Hypothesis W : good_width m.
  Hypothesis P : pointwise m gen point.

  Lemma zip_lane : forall ps idx l, length idx = length ps ->
    map (fun f => f l) (zip_pos V (conv_ m) (fma_ m) ps idx) = map (fun pi : (V * V) * Z => axis m (fst (fst pi)) (snd (fst pi)) (snd pi)) (combine ps (map (fun f => f l) idx)).
  Proof. induction ps as [|p ps IH]; intros [|i idx] l L; try discriminate; auto. cbn [zip_pos map combine]. rewrite IH by (cbn in L; lia). reflexivity. Qed.

  Lemma grid2_result : forall fuel out xo yo xc yc xs ys seed, 1 <= xc -> 1 <= yc -> xc * yc < 2^31 -> xc * yc <= Z.of_nat (length out) -> enough fuel (xc * yc) m ->
    exists val, result m (grid2 m gen fuel out xo yo xc yc xs ys seed) out (xc * yc) val /\
      forall x y, 0 <= x < xc -> 0 <= y < yc -> val (x + xc * y) = point seed [axis m xo xs x; axis m yo ys y].
  Proof.
    intros fuel out xo yo xc yc xs ys seed X Y T L F. rewrite <- fold2 in *.
    eexists. split.
    - apply (grid_result m W [xc; yc] _ (fun v => point seed (map (fun pi => axis m (fst (fst pi)) (snd (fst pi)) (snd pi)) (combine [(xo, xs); (yo, ys)] v)))); auto; [discriminate|in_pos|].
      intros idx l HL LI. rewrite P by auto. f_equal. rewrite zip_lane by exact LI. reflexivity.
    - intros x y HX HY. cbn beta. replace (x + xc * y) with (flat [xc; yc] [x; y]) by (cbn; lia). rewrite unflat_flat by (repeat constructor; lia). reflexivity.
  Qed.
  Lemma grid3_result : forall fuel out xo yo zo xc yc zc xs ys zs seed, 1 <= xc -> 1 <= yc -> 1 <= zc -> xc * yc * zc < 2^31 ->
    xc * yc * zc <= Z.of_nat (length out) -> enough fuel (xc * yc * zc) m ->
    exists val, result m (grid3 m gen fuel out xo yo zo xc yc zc xs ys zs seed) out (xc * yc * zc) val /\
      forall x y z, 0 <= x < xc -> 0 <= y < yc -> 0 <= z < zc -> val (x + xc * (y + yc * z)) = point seed [axis m xo xs x; axis m yo ys y; axis m zo zs z].
  Proof.
    intros fuel out xo yo zo xc yc zc xs ys zs seed X Y Z T L F. rewrite <- fold3 in *.
    eexists. split.
    - apply (grid_result m W [xc; yc; zc] _ (fun v => point seed (map (fun pi => axis m (fst (fst pi)) (snd (fst pi)) (snd pi)) (combine [(xo, xs); (yo, ys); (zo, zs)] v)))); auto; [discriminate|in_pos|].
      intros idx l HL LI. rewrite P by auto. f_equal. rewrite zip_lane by exact LI. reflexivity.
    - intros x y z HX HY HZ. cbn beta. replace (x + xc * (y + yc * z)) with (flat [xc; yc; zc] [x; y; z]) by (cbn; lia). rewrite unflat_flat by (repeat constructor; lia). reflexivity.
  Qed.
  Lemma grid4_result : forall fuel out xo yo zo wo xc yc zc wc xs ys zs ws seed, 1 <= xc -> 1 <= yc -> 1 <= zc -> 1 <= wc -> xc * yc * zc * wc < 2^31 ->
    xc * yc * zc * wc <= Z.of_nat (length out) -> enough fuel (xc * yc * zc * wc) m ->
    exists val, result m (grid4 m gen fuel out xo yo zo wo xc yc zc wc xs ys zs ws seed) out (xc * yc * zc * wc) val /\
      forall x y z w, 0 <= x < xc -> 0 <= y < yc -> 0 <= z < zc -> 0 <= w < wc ->
        val (x + xc * (y + yc * (z + zc * w))) = point seed [axis m xo xs x; axis m yo ys y; axis m zo zs z; axis m wo ws w].
  Proof.
    intros fuel out xo yo zo wo xc yc zc wc xs ys zs ws seed X Y Z W0 T L F. rewrite <- fold4 in *.
    eexists. split.
    - apply (grid_result m W [xc; yc; zc; wc] _ (fun v => point seed (map (fun pi => axis m (fst (fst pi)) (snd (fst pi)) (snd pi)) (combine [(xo, xs); (yo, ys); (zo, zs); (wo, ws)] v)))); auto; [discriminate|in_pos|].
      intros idx l HL LI. rewrite P by auto. f_equal. rewrite zip_lane by exact LI. reflexivity.
    - intros x y z w HX HY HZ HW. cbn beta. replace (x + xc * (y + yc * (z + zc * w))) with (flat [xc; yc; zc; wc] [x; y; z; w]) by (cbn; lia). rewrite unflat_flat by (repeat constructor; lia). reflexivity.
  Qed.

  (** the four coordinates GenTileable2D asks for *)
  Definition tile_at (xSize ySize : Z) (xStep yStep : V) (x y : Z) : list V :=
    tile_pos V (conv_ m) (mul_ m) (div_ m) (cos_ m) (sin_ m) (pi2_ m) xSize ySize xStep yStep x y.
  Lemma tile_result : forall fuel out xc yc xs ys seed, 1 <= xc -> 1 <= yc -> xc * yc < 2^31 -> xc * yc <= Z.of_nat (length out) -> enough fuel (xc * yc) m ->
    exists val, result m (tileable m gen fuel out xc yc xs ys seed) out (xc * yc) val /\
      forall x y, 0 <= x < xc -> 0 <= y < yc -> val (x + xc * y) = point seed (tile_at xc yc xs ys x y).
  Proof.
    intros fuel out xc yc xs ys seed X Y T L F. rewrite <- fold2 in *.
    eexists. split.
    - apply (grid_result m W [xc; yc] _ (fun v => match v with [x; y] => point seed (tile_at xc yc xs ys x y) | _ => point seed [] end)); auto; [discriminate|in_pos|].
      intros idx l HL LI. rewrite P by auto. destruct idx as [|x [|y [|? ?]]]; try discriminate. reflexivity.
    - intros x y HX HY. cbn beta. replace (x + xc * y) with (flat [xc; yc] [x; y]) by (cbn; lia). rewrite unflat_flat by (repeat constructor; lia). reflexivity.
  Qed.

  Lemma zip_add_lane : forall os vs l, map (fun f => f l) (zip_add V (add_ m) os vs) = map (fun p => add_ m (fst p) (snd p)) (combine os (map (fun f => f l) vs)).
  Proof. induction os as [|o os IH]; intros [|v vs] l; auto. cbn [zip_add map combine]. rewrite IH. reflexivity. Qed.
  Lemma arr_result : forall fuel out count ps offs seed, 1 <= count -> (forall p, In p ps -> Z.of_nat (length p) = count) -> count <= Z.of_nat (length out) -> enough fuel count m ->
    result m (array m gen fuel out count ps offs seed) out count
      (fun i => point seed (map (fun p => add_ m (fst p) (nth (Z.to_nat i) (snd p) (junk_ m 0%nat))) (combine offs ps))).
  Proof.
    intros fuel out count ps offs seed C L O F.
    assert (R := array_result m W ps (fun vs => gen (fun _ => seed) (zip_add V (add_ m) offs vs)) (fun v => point seed (map (fun p => add_ m (fst p) (snd p)) (combine offs v))) fuel out count C L O F).
    assert (E : forall i, map (fun p => add_ m (fst p) (nth (Z.to_nat i) (snd p) (junk_ m 0%nat))) (combine offs ps) =
                     map (fun p => add_ m (fst p) (snd p)) (combine offs (map (fun p => nth (Z.to_nat i) p (junk_ m 0%nat)) ps))).
    { intros i. clear. revert ps. induction offs as [|o os IH]; intros [|p ps]; auto. cbn [combine map]. rewrite IH. reflexivity. }
    destruct R as (mm & out' & R1 & R2 & R3 & R4 & R5). { intros vs l HL. rewrite P by auto. rewrite zip_add_lane. reflexivity. }
    exists mm, out'. split; [exact R1|]. split; [auto|]. split; [intros i I; rewrite E; auto|]. split; [auto|]. intros num le O1 NV. apply (R5 num le O1). intros i I. rewrite <- E. auto.
  Qed.
End Grids.

(** ** C24: every grid element is the value at its own coordinates *)
Theorem C24_grid2D : forall V (m : machine V) gen point, good_width m -> pointwise m gen point ->
  forall fuel out xOff yOff xCount yCount xStep yStep seed, 1 <= xCount -> 1 <= yCount -> xCount * yCount < 2^31 ->
  Z.of_nat (length out) = xCount * yCount -> enough fuel (xCount * yCount) m ->
  exists mm out', grid2 m gen fuel out xOff yOff xCount yCount xStep yStep seed = Ok (mm, out') /\ length out' = length out /\
    forall x y, 0 <= x < xCount -> 0 <= y < yCount ->
      nth_error out' (Z.to_nat (x + xCount * y)) = Some (point seed [axis m xOff xStep x; axis m yOff yStep y]).
Proof.
  intros V m gen point W P fuel out xo yo xc yc xs ys seed X Y T L F.
  destruct (grid2_result m gen point W P fuel out xo yo xc yc xs ys seed X Y T ltac:(lia) F) as (val & (mm & out' & E & EL & A & _) & B).
  exists mm, out'. split; auto. split; auto. intros x y HX HY. rewrite <- B by auto. apply A. nia.
Qed.
Print Assumptions C24_grid2D.
Theorem C24_grid3D : forall V (m : machine V) gen point, good_width m -> pointwise m gen point ->
  forall fuel out xOff yOff zOff xCount yCount zCount xStep yStep zStep seed, 1 <= xCount -> 1 <= yCount -> 1 <= zCount -> xCount * yCount * zCount < 2^31 ->
  Z.of_nat (length out) = xCount * yCount * zCount -> enough fuel (xCount * yCount * zCount) m ->
  exists mm out', grid3 m gen fuel out xOff yOff zOff xCount yCount zCount xStep yStep zStep seed = Ok (mm, out') /\ length out' = length out /\
    forall x y z, 0 <= x < xCount -> 0 <= y < yCount -> 0 <= z < zCount ->
      nth_error out' (Z.to_nat (x + xCount * (y + yCount * z))) = Some (point seed [axis m xOff xStep x; axis m yOff yStep y; axis m zOff zStep z]).
Proof.
  intros V m gen point W P fuel out xo yo zo xc yc zc xs ys zs seed X Y Z T L F.
  destruct (grid3_result m gen point W P fuel out xo yo zo xc yc zc xs ys zs seed X Y Z T ltac:(lia) F) as (val & (mm & out' & E & EL & A & _) & B).
  exists mm, out'. split; auto. split; auto. intros x y z HX HY HZ. rewrite <- B by auto. apply A. pose proof (flat_range [xc; yc; zc] [x; y; z]) as R. cbn in R. assert (Forall2 (fun v c => 0 <= v < c) [x; y; z] [xc; yc; zc]) by (repeat constructor; lia). specialize (R H). lia.
Qed.
Print Assumptions C24_grid3D.
Theorem C24_grid4D : forall V (m : machine V) gen point, good_width m -> pointwise m gen point ->
  forall fuel out xOff yOff zOff wOff xCount yCount zCount wCount xStep yStep zStep wStep seed, 1 <= xCount -> 1 <= yCount -> 1 <= zCount -> 1 <= wCount ->
  xCount * yCount * zCount * wCount < 2^31 ->
  Z.of_nat (length out) = xCount * yCount * zCount * wCount -> enough fuel (xCount * yCount * zCount * wCount) m ->
  exists mm out', grid4 m gen fuel out xOff yOff zOff wOff xCount yCount zCount wCount xStep yStep zStep wStep seed = Ok (mm, out') /\ length out' = length out /\
    forall x y z w, 0 <= x < xCount -> 0 <= y < yCount -> 0 <= z < zCount -> 0 <= w < wCount ->
      nth_error out' (Z.to_nat (x + xCount * (y + yCount * (z + zCount * w)))) =
        Some (point seed [axis m xOff xStep x; axis m yOff yStep y; axis m zOff zStep z; axis m wOff wStep w]).
Proof.
  intros V m gen point W P fuel out xo yo zo wo xc yc zc wc xs ys zs ws seed X Y Z W0 T L F.
  destruct (grid4_result m gen point W P fuel out xo yo zo wo xc yc zc wc xs ys zs ws seed X Y Z W0 T ltac:(lia) F) as (val & (mm & out' & E & EL & A & _) & B).
  exists mm, out'. split; auto. split; auto. intros x y z w HX HY HZ HW. rewrite <- B by auto. apply A. pose proof (flat_range [xc; yc; zc; wc] [x; y; z; w]) as R. cbn in R. assert (Forall2 (fun v c => 0 <= v < c) [x; y; z; w] [xc; yc; zc; wc]) by (repeat constructor; lia). specialize (R H). lia.
Qed.
Print Assumptions C24_grid4D.

Lemma nth_ext_error : forall A (a b : list A), length a = length b -> (forall i, (i < length a)%nat -> nth_error a i = nth_error b i) -> a = b.
Proof.
  induction a as [|x a IH]; intros [|y b] L H; try discriminate; auto. pose proof (H 0%nat ltac:(cbn; lia)) as H0. cbn in H0. injection H0 as <-. f_equal.
  apply IH; [cbn in L; lia|]. intros i I. apply (H (S i)). cbn. lia.
Qed.

(** The result is the same for two register widths (and two implementations of min/max), given the
    same per-point function and coordinate arithmetic. *)
Theorem C24_width_independent : forall V (m1 m2 : machine V) gen1 gen2 point, good_width m1 -> good_width m2 -> pointwise m1 gen1 point -> pointwise m2 gen2 point ->
  conv_ m1 = conv_ m2 -> fma_ m1 = fma_ m2 ->
  forall fuel out xOff yOff zOff xCount yCount zCount xStep yStep zStep seed, 1 <= xCount -> 1 <= yCount -> 1 <= zCount -> xCount * yCount * zCount < 2^31 ->
  Z.of_nat (length out) = xCount * yCount * zCount -> enough fuel (xCount * yCount * zCount) m1 -> enough fuel (xCount * yCount * zCount) m2 ->
  exists mm1 mm2 out', grid3 m1 gen1 fuel out xOff yOff zOff xCount yCount zCount xStep yStep zStep seed = Ok (mm1, out') /\
                       grid3 m2 gen2 fuel out xOff yOff zOff xCount yCount zCount xStep yStep zStep seed = Ok (mm2, out').
Proof.
  intros V m1 m2 gen1 gen2 point W1 W2 P1 P2 EC EF fuel out xo yo zo xc yc zc xs ys zs seed X Y Z T L F1 F2.
  destruct (C24_grid3D V m1 gen1 point W1 P1 fuel out xo yo zo xc yc zc xs ys zs seed X Y Z T L F1) as (mm1 & o1 & E1 & L1 & A1).
  destruct (C24_grid3D V m2 gen2 point W2 P2 fuel out xo yo zo xc yc zc xs ys zs seed X Y Z T L F2) as (mm2 & o2 & E2 & L2 & A2).
  exists mm1, mm2, o1. split; auto. rewrite E2. do 2 f_equal. apply nth_ext_error; [congruence|]. intros i I.
  assert (U : Forall2 (fun v c => 0 <= v < c) (unflat [xc; yc; zc] (Z.of_nat i)) [xc; yc; zc]). { apply unflat_range; [in_pos|]. rewrite fold3. lia. }
  assert (FU : flat [xc; yc; zc] (unflat [xc; yc; zc] (Z.of_nat i)) = Z.of_nat i). { apply flat_unflat; [discriminate|in_pos]. }
  destruct (unflat [xc; yc; zc] (Z.of_nat i)) as [|x [|y [|z [|? ?]]]] eqn:EU; try (inversion U; subst; fail); try (exfalso; clear - U; inversion U as [|? ? ? ? ? U1]; subst; inversion U1 as [|? ? ? ? ? U2]; subst; inversion U2 as [|? ? ? ? ? U3]; subst; inversion U3; fail).
  inversion U as [|? ? ? ? R1 U1]; subst. inversion U1 as [|? ? ? ? R2 U2]; subst. inversion U2 as [|? ? ? ? R3 U3]; subst.
  assert (Q : i = Z.to_nat (x + xc * (y + yc * z))) by (cbn in FU; lia). rewrite Q, A1, A2 by auto. unfold axis. rewrite EC, EF. reflexivity.
Qed.
Print Assumptions C24_width_independent.

(** ** C25: exactly the caller's buffer is written *)
(** A call is said to fill [total] elements: whatever memory [out] (at least that long) it is
    given, it ends without an access outside [out] or the position arrays, leaves everything
    from index [total] on alone, and the first [total] elements no longer depend on what
    was there before. *)
Definition fills {V} (call : list V -> res (minmax V * list V)) (total : Z) : Prop :=
  (forall out, total <= Z.of_nat (length out) -> exists mm out', call out = Ok (mm, out') /\ length out' = length out /\
     forall i, total <= Z.of_nat i -> nth_error out' i = nth_error out i) /\
  (forall out1 out2 mm1 mm2 o1 o2, length out1 = length out2 -> total <= Z.of_nat (length out1) -> call out1 = Ok (mm1, o1) -> call out2 = Ok (mm2, o2) ->
     firstn (Z.to_nat total) o1 = firstn (Z.to_nat total) o2).

Lemma nth_error_firstn_lt : forall A (l : list A) k i, (i < k)%nat -> nth_error (firstn k l) i = nth_error l i.
Proof. induction l as [|x l IH]; intros k i H; [rewrite firstn_nil; auto|]. destruct k; [lia|]. destruct i; auto. cbn. apply IH. lia. Qed.
Lemma result_fills : forall V (m : machine V) call total val, (forall out, total <= Z.of_nat (length out) -> result m (call out) out total val) -> fills call total.
Proof.
  intros V m call total val R. split.
  - intros out L. destruct (R out L) as (mm & o & E & EL & A & B & _). exists mm, o. auto.
  - intros out1 out2 mm1 mm2 o1 o2 L T E1 E2. destruct (R out1 T) as (a1 & b1 & F1 & L1 & A1 & _). destruct (R out2 ltac:(lia)) as (a2 & b2 & F2 & L2 & A2 & _).
    rewrite E1 in F1. rewrite E2 in F2. injection F1 as <- <-. injection F2 as <- <-. apply nth_ext_error; [rewrite !firstn_length; lia|]. intros i I.
    rewrite firstn_length in I. rewrite !nth_error_firstn_lt by lia. specialize (A1 (Z.of_nat i) ltac:(lia)). specialize (A2 (Z.of_nat i) ltac:(lia)). rewrite Nat2Z.id in *. congruence.
Qed.

Lemma val_of_flat : forall V (m : machine V) (call : list V -> res (minmax V * list V)) total (Q : (Z -> V) -> Prop),
  (forall out, total <= Z.of_nat (length out) -> exists val, result m (call out) out total val /\ Q val) ->
  (forall v1 v2, Q v1 -> Q v2 -> forall i, 0 <= i < total -> v1 i = v2 i) -> 1 <= total -> fills call total.
Proof.
  intros V m call total Q R U T.
  split.
  - intros out L. destruct (R out L) as (val & (mm & o & E & EL & A & B & _) & _). exists mm, o. auto.
  - intros out1 out2 mm1 mm2 o1 o2 L TL E1 E2. destruct (R out1 TL) as (v1 & (a1 & b1 & F1 & L1 & A1 & _) & Q1). destruct (R out2 ltac:(lia)) as (v2 & (a2 & b2 & F2 & L2 & A2 & _) & Q2).
    rewrite E1 in F1. rewrite E2 in F2. injection F1 as <- <-. injection F2 as <- <-. apply nth_ext_error; [rewrite !firstn_length; lia|]. intros i I.
    rewrite firstn_length in I. rewrite !nth_error_firstn_lt by lia. specialize (A1 (Z.of_nat i) ltac:(lia)). specialize (A2 (Z.of_nat i) ltac:(lia)). rewrite Nat2Z.id in *. rewrite A1, A2. f_equal. apply U; auto. lia.
Qed.

Theorem C25_bulk_calls_fill_exactly : forall V (m : machine V) gen point, good_width m -> pointwise m gen point -> forall fuel seed,
  (forall xOff yOff xCount yCount xStep yStep, 1 <= xCount -> 1 <= yCount -> xCount * yCount < 2^31 -> enough fuel (xCount * yCount) m ->
     fills (fun out => grid2 m gen fuel out xOff yOff xCount yCount xStep yStep seed) (xCount * yCount)) /\
  (forall xOff yOff zOff xCount yCount zCount xStep yStep zStep, 1 <= xCount -> 1 <= yCount -> 1 <= zCount -> xCount * yCount * zCount < 2^31 -> enough fuel (xCount * yCount * zCount) m ->
     fills (fun out => grid3 m gen fuel out xOff yOff zOff xCount yCount zCount xStep yStep zStep seed) (xCount * yCount * zCount)) /\
  (forall xOff yOff zOff wOff xCount yCount zCount wCount xStep yStep zStep wStep, 1 <= xCount -> 1 <= yCount -> 1 <= zCount -> 1 <= wCount -> xCount * yCount * zCount * wCount < 2^31 ->
     enough fuel (xCount * yCount * zCount * wCount) m ->
     fills (fun out => grid4 m gen fuel out xOff yOff zOff wOff xCount yCount zCount wCount xStep yStep zStep wStep seed) (xCount * yCount * zCount * wCount)) /\
  (forall xSize ySize xStep yStep, 1 <= xSize -> 1 <= ySize -> xSize * ySize < 2^31 -> enough fuel (xSize * ySize) m ->
     fills (fun out => tileable m gen fuel out xSize ySize xStep yStep seed) (xSize * ySize)) /\
  (forall count ps offs, 1 <= count -> (forall p, In p ps -> Z.of_nat (length p) = count) -> enough fuel count m ->
     fills (fun out => array m gen fuel out count ps offs seed) count).
Proof.
  intros V m gen point W P fuel seed. repeat apply conj.
  - intros xo yo xc yc xs ys X Y T F. apply val_of_flat with (m := m) (Q := fun val => forall x y, 0 <= x < xc -> 0 <= y < yc -> val (x + xc * y) = point seed [axis m xo xs x; axis m yo ys y]); [| |nia].
    + intros out L. apply grid2_result; auto.
    + intros v1 v2 Q1 Q2 i I. replace i with (i mod xc + xc * (i / xc)) by lia. pose proof (Z.mod_pos_bound i xc). assert (0 <= i / xc < yc) by (split; [apply Z.div_pos; lia|apply Z.div_lt_upper_bound; lia]). rewrite Q1, Q2; auto; lia.
  - intros xo yo zo xc yc zc xs ys zs X Y Z T F.
    apply val_of_flat with (m := m) (Q := fun val => forall x y z, 0 <= x < xc -> 0 <= y < yc -> 0 <= z < zc -> val (x + xc * (y + yc * z)) = point seed [axis m xo xs x; axis m yo ys y; axis m zo zs z]); [| |nia].
    + intros out L. apply grid3_result; auto.
    + intros v1 v2 Q1 Q2 i I. set (j := i / xc). replace i with (i mod xc + xc * (j mod yc + yc * (j / yc))) by (unfold j; lia). pose proof (Z.mod_pos_bound i xc). pose proof (Z.mod_pos_bound j yc).
      assert (0 <= j < yc * zc) by (unfold j; split; [apply Z.div_pos; lia|apply Z.div_lt_upper_bound; lia]).
      assert (0 <= j / yc < zc) by (split; [apply Z.div_pos; lia|apply Z.div_lt_upper_bound; lia]). rewrite Q1, Q2; auto; lia.
  - intros xo yo zo wo xc yc zc wc xs ys zs ws X Y Z W0 T F.
    apply val_of_flat with (m := m) (Q := fun val => forall x y z w, 0 <= x < xc -> 0 <= y < yc -> 0 <= z < zc -> 0 <= w < wc -> val (x + xc * (y + yc * (z + zc * w))) = point seed [axis m xo xs x; axis m yo ys y; axis m zo zs z; axis m wo ws w]); [| |nia].
    + intros out L. apply grid4_result; auto.
    + intros v1 v2 Q1 Q2 i I. set (j := i / xc). set (k := j / yc). replace i with (i mod xc + xc * (j mod yc + yc * (k mod zc + zc * (k / zc)))) by (unfold k, j; lia). pose proof (Z.mod_pos_bound i xc). pose proof (Z.mod_pos_bound j yc). pose proof (Z.mod_pos_bound k zc).
      assert (0 <= j < yc * zc * wc) by (unfold j; split; [apply Z.div_pos; lia|apply Z.div_lt_upper_bound; lia]).
      assert (0 <= k < zc * wc) by (unfold k; split; [apply Z.div_pos; lia|apply Z.div_lt_upper_bound; lia]).
      assert (0 <= k / zc < wc) by (split; [apply Z.div_pos; lia|apply Z.div_lt_upper_bound; lia]). rewrite Q1, Q2; auto; lia.
  - intros xc yc xs ys X Y T F. apply val_of_flat with (m := m) (Q := fun val => forall x y, 0 <= x < xc -> 0 <= y < yc -> val (x + xc * y) = point seed (tile_at m xc yc xs ys x y)); [| |nia].
    + intros out L. apply tile_result; auto.
    + intros v1 v2 Q1 Q2 i I. replace i with (i mod xc + xc * (i / xc)) by lia. pose proof (Z.mod_pos_bound i xc). assert (0 <= i / xc < yc) by (split; [apply Z.div_pos; lia|apply Z.div_lt_upper_bound; lia]). rewrite Q1, Q2; auto; lia.
  - intros count ps offs C L F. eapply result_fills. intros out LO. apply (arr_result m gen point); auto.
Qed.
Print Assumptions C25_bulk_calls_fill_exactly.

(** ** C26: the returned range is the range of the written values *)
Theorem C26_grid_range : forall V (m : machine V) gen point num le, good_width m -> pointwise m gen point -> ordered m num le -> (forall seed ps, num (point seed ps)) ->
  forall fuel seed mm,
  (forall out out' xOff yOff xCount yCount xStep yStep, 1 <= xCount -> 1 <= yCount -> xCount * yCount < 2^31 -> enough fuel (xCount * yCount) m -> Z.of_nat (length out) = xCount * yCount ->
     grid2 m gen fuel out xOff yOff xCount yCount xStep yStep seed = Ok (mm, out') -> true_range le mm out') /\
  (forall out out' xOff yOff zOff xCount yCount zCount xStep yStep zStep, 1 <= xCount -> 1 <= yCount -> 1 <= zCount -> xCount * yCount * zCount < 2^31 -> enough fuel (xCount * yCount * zCount) m ->
     Z.of_nat (length out) = xCount * yCount * zCount ->
     grid3 m gen fuel out xOff yOff zOff xCount yCount zCount xStep yStep zStep seed = Ok (mm, out') -> true_range le mm out') /\
  (forall out out' xOff yOff zOff wOff xCount yCount zCount wCount xStep yStep zStep wStep, 1 <= xCount -> 1 <= yCount -> 1 <= zCount -> 1 <= wCount -> xCount * yCount * zCount * wCount < 2^31 ->
     enough fuel (xCount * yCount * zCount * wCount) m -> Z.of_nat (length out) = xCount * yCount * zCount * wCount ->
     grid4 m gen fuel out xOff yOff zOff wOff xCount yCount zCount wCount xStep yStep zStep wStep seed = Ok (mm, out') -> true_range le mm out') /\
  (forall out out' xSize ySize xStep yStep, 1 <= xSize -> 1 <= ySize -> xSize * ySize < 2^31 -> enough fuel (xSize * ySize) m -> Z.of_nat (length out) = xSize * ySize ->
     tileable m gen fuel out xSize ySize xStep yStep seed = Ok (mm, out') -> true_range le mm out') /\
  (forall out out' count ps offs, 1 <= count -> (forall p, In p ps -> Z.of_nat (length p) = count) -> enough fuel count m -> Z.of_nat (length out) = count ->
     array m gen fuel out count ps offs seed = Ok (mm, out') -> true_range le mm out').
Proof.
  intros V m gen point num le W P O NV fuel seed mm.
  assert (K : forall (call : res (minmax V * list V)) out out' total val, result m call out total val -> (forall i, 0 <= i < total -> num (val i)) -> call = Ok (mm, out') -> Z.of_nat (length out) = total -> true_range le mm out').
  { intros call out out' total val (mm2 & o2 & E & EL & A & B & C) N2 E2 L. rewrite E in E2. injection E2 as <- <-.
    specialize (C num le O N2). rewrite firstn_all2 in C by lia. exact C. }
  repeat apply conj.
  - intros out out' xo yo xc yc xs ys X Y T F L E. destruct (grid2_result m gen point W P fuel out xo yo xc yc xs ys seed X Y T ltac:(lia) F) as (val & R & Q).
    eapply K; [exact R| |exact E|exact L]. intros i I. replace i with (i mod xc + xc * (i / xc)) by lia. pose proof (Z.mod_pos_bound i xc). assert (0 <= i / xc < yc) by (split; [apply Z.div_pos; lia|apply Z.div_lt_upper_bound; lia]). rewrite Q; auto; lia.
  - intros out out' xo yo zo xc yc zc xs ys zs X Y Z T F L E. destruct (grid3_result m gen point W P fuel out xo yo zo xc yc zc xs ys zs seed X Y Z T ltac:(lia) F) as (val & R & Q).
    eapply K; [exact R| |exact E|exact L]. intros i I. set (j := i / xc). replace i with (i mod xc + xc * (j mod yc + yc * (j / yc))) by (unfold j; lia). pose proof (Z.mod_pos_bound i xc). pose proof (Z.mod_pos_bound j yc).
    assert (0 <= j < yc * zc) by (unfold j; split; [apply Z.div_pos; lia|apply Z.div_lt_upper_bound; lia]).
    assert (0 <= j / yc < zc) by (split; [apply Z.div_pos; lia|apply Z.div_lt_upper_bound; lia]). rewrite Q; auto; lia.
  - intros out out' xo yo zo wo xc yc zc wc xs ys zs ws X Y Z W0 T F L E. destruct (grid4_result m gen point W P fuel out xo yo zo wo xc yc zc wc xs ys zs ws seed X Y Z W0 T ltac:(lia) F) as (val & R & Q).
    eapply K; [exact R| |exact E|exact L]. intros i I. set (j := i / xc). set (k := j / yc). replace i with (i mod xc + xc * (j mod yc + yc * (k mod zc + zc * (k / zc)))) by (unfold k, j; lia). pose proof (Z.mod_pos_bound i xc). pose proof (Z.mod_pos_bound j yc). pose proof (Z.mod_pos_bound k zc).
    assert (0 <= j < yc * zc * wc) by (unfold j; split; [apply Z.div_pos; lia|apply Z.div_lt_upper_bound; lia]).
    assert (0 <= k < zc * wc) by (unfold k; split; [apply Z.div_pos; lia|apply Z.div_lt_upper_bound; lia]).
    assert (0 <= k / zc < wc) by (split; [apply Z.div_pos; lia|apply Z.div_lt_upper_bound; lia]). rewrite Q; auto; lia.
  - intros out out' xc yc xs ys X Y T F L E. destruct (tile_result m gen point W P fuel out xc yc xs ys seed X Y T ltac:(lia) F) as (val & R & Q).
    eapply K; [exact R| |exact E|exact L]. intros i I. replace i with (i mod xc + xc * (i / xc)) by lia. pose proof (Z.mod_pos_bound i xc). assert (0 <= i / xc < yc) by (split; [apply Z.div_pos; lia|apply Z.div_lt_upper_bound; lia]). rewrite Q; auto; lia.
  - intros out out' count ps offs C LP F L E. eapply K; [apply (arr_result m gen point W P fuel out count ps offs seed C LP ltac:(lia) F)| |exact E|exact L]. intros i I. apply NV.
Qed.
Print Assumptions C26_grid_range.

(** ** C27: position arrays are evaluated pointwise *)
Theorem C27_position_array : forall V (m : machine V) gen point, good_width m -> pointwise m gen point ->
  forall fuel out count ps offs seed, 1 <= count -> (forall p, In p ps -> Z.of_nat (length p) = count) -> Z.of_nat (length out) = count -> length offs = length ps -> enough fuel count m ->
  exists mm out', array m gen fuel out count ps offs seed = Ok (mm, out') /\ length out' = length out /\
    forall i coords, 0 <= i < count -> Forall2 (fun p c => nth_error p (Z.to_nat i) = Some c) ps coords ->
      nth_error out' (Z.to_nat i) = Some (point seed (map (fun oc => add_ m (fst oc) (snd oc)) (combine offs coords))).
Proof.
  intros V m gen point W P fuel out count ps offs seed C LP L LO F.
  destruct (arr_result m gen point W P fuel out count ps offs seed C LP ltac:(lia) F) as (mm & out' & E & EL & A & _).
  exists mm, out'. split; auto. split; auto. intros i coords I FA. rewrite A by auto. do 2 f_equal. clear - FA LO. revert offs LO.
  induction FA as [|p c ps cs H FA IH]; intros [|o offs] LO; try discriminate; auto. cbn [combine map fst snd]. f_equal; [f_equal; apply nth_error_nth; auto|]. apply IH. cbn in LO. lia.
Qed.
Print Assumptions C27_position_array.

(** ** C28: bulk, single and tileable generation agree *)
Theorem C28_bulk_is_single : forall V (m : machine V) gen point, good_width m -> pointwise m gen point -> forall fuel seed,
  (forall out xOff yOff xCount yCount xStep yStep, 1 <= xCount -> 1 <= yCount -> xCount * yCount < 2^31 -> enough fuel (xCount * yCount) m -> Z.of_nat (length out) = xCount * yCount ->
     exists mm out', grid2 m gen fuel out xOff yOff xCount yCount xStep yStep seed = Ok (mm, out') /\
       forall x y, 0 <= x < xCount -> 0 <= y < yCount -> nth_error out' (Z.to_nat (x + xCount * y)) = Some (single gen [axis m xOff xStep x; axis m yOff yStep y] seed)) /\
  (forall out xOff yOff zOff xCount yCount zCount xStep yStep zStep, 1 <= xCount -> 1 <= yCount -> 1 <= zCount -> xCount * yCount * zCount < 2^31 -> enough fuel (xCount * yCount * zCount) m ->
     Z.of_nat (length out) = xCount * yCount * zCount ->
     exists mm out', grid3 m gen fuel out xOff yOff zOff xCount yCount zCount xStep yStep zStep seed = Ok (mm, out') /\
       forall x y z, 0 <= x < xCount -> 0 <= y < yCount -> 0 <= z < zCount ->
         nth_error out' (Z.to_nat (x + xCount * (y + yCount * z))) = Some (single gen [axis m xOff xStep x; axis m yOff yStep y; axis m zOff zStep z] seed)) /\
  (forall out xOff yOff zOff wOff xCount yCount zCount wCount xStep yStep zStep wStep, 1 <= xCount -> 1 <= yCount -> 1 <= zCount -> 1 <= wCount -> xCount * yCount * zCount * wCount < 2^31 ->
     enough fuel (xCount * yCount * zCount * wCount) m -> Z.of_nat (length out) = xCount * yCount * zCount * wCount ->
     exists mm out', grid4 m gen fuel out xOff yOff zOff wOff xCount yCount zCount wCount xStep yStep zStep wStep seed = Ok (mm, out') /\
       forall x y z w, 0 <= x < xCount -> 0 <= y < yCount -> 0 <= z < zCount -> 0 <= w < wCount ->
         nth_error out' (Z.to_nat (x + xCount * (y + yCount * (z + zCount * w)))) = Some (single gen [axis m xOff xStep x; axis m yOff yStep y; axis m zOff zStep z; axis m wOff wStep w] seed)) /\
  (forall out xSize ySize xStep yStep, 1 <= xSize -> 1 <= ySize -> xSize * ySize < 2^31 -> enough fuel (xSize * ySize) m -> Z.of_nat (length out) = xSize * ySize ->
     exists mm out', tileable m gen fuel out xSize ySize xStep yStep seed = Ok (mm, out') /\
       forall x y, 0 <= x < xSize -> 0 <= y < ySize -> nth_error out' (Z.to_nat (x + xSize * y)) = Some (single gen (tile_at m xSize ySize xStep yStep x y) seed)).
Proof.
  intros V m gen point W P fuel seed. assert (SG : forall ps, single gen ps seed = point seed ps).
  { intros ps. unfold single, gen_single. rewrite P by apply W. f_equal. rewrite map_map. apply map_id. }
  repeat apply conj.
  - intros out xo yo xc yc xs ys X Y T F L. destruct (C24_grid2D V m gen point W P fuel out xo yo xc yc xs ys seed X Y T L F) as (mm & o & E & _ & A). exists mm, o. split; auto. intros. rewrite SG. auto.
  - intros out xo yo zo xc yc zc xs ys zs X Y Z T F L. destruct (C24_grid3D V m gen point W P fuel out xo yo zo xc yc zc xs ys zs seed X Y Z T L F) as (mm & o & E & _ & A). exists mm, o. split; auto. intros. rewrite SG. auto.
  - intros out xo yo zo wo xc yc zc wc xs ys zs ws X Y Z W0 T F L. destruct (C24_grid4D V m gen point W P fuel out xo yo zo wo xc yc zc wc xs ys zs ws seed X Y Z W0 T L F) as (mm & o & E & _ & A). exists mm, o. split; auto. intros. rewrite SG. auto.
  - intros out xc yc xs ys X Y T F L. destruct (tile_result m gen point W P fuel out xc yc xs ys seed X Y T ltac:(lia) F) as (val & (mm & o & E & _ & A & _) & Q). exists mm, o. split; auto. intros x y HX HY. rewrite SG, <- Q by auto. apply A. nia.
Qed.
Print Assumptions C28_bulk_is_single.
