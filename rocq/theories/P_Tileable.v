(** C29: the positions sampled by GenTileable2D, in real arithmetic.
    The element (x, y) is the value at [tile_at] (C28_bulk_is_single). *)
From Coq Require Import Reals Lra ZArith List Lia Machin.
From Verif Require Import Prelude Batch_Model P_Batch.
Import ListNotations.
Open Scope R_scope.

(** The machine of exact real arithmetic; [c] is the constant the source calls pi2Recip
    (Generator.inl:386). Width, minimum and infinities play no role for the positions. *)
Definition real_machine (c : R) : machine R := {|
  width := 1; vmin_ := Rmin; vmax_ := Rmax; smin_ := Rmin; smax_ := Rmax; inf_ := 0; ninf_ := 0; junk_ := fun _ => 0;
  conv_ := IZR; fma_ := fun a b d => a * b + d; add_ := Rplus; mul_ := Rmult; div_ := Rdiv; cos_ := cos; sin_ := sin; pi2_ := c |}.
Definition tile (c : R) := tile_at (real_machine c).

(** 0.15915493667f as a binary32 number *)
Definition pi2Recip_f : R := 10680707 / 67108864.

(** squared distance of two sampled positions *)
Fixpoint dist2 (a b : list R) : R := match a, b with x :: a', y :: b' => (x - y)^2 + dist2 a' b' | _, _ => 0 end.
(** position of column/row [k] taken around the image [xSize] *)
Definition wrap (k size : Z) : Z := (k mod size)%Z.

Lemma period_n : forall a (n : nat), cos (a + 2 * INR n * PI) = cos a /\ sin (a + 2 * INR n * PI) = sin a.
Proof. intros. split; [apply cos_period|apply sin_period]. Qed.
Lemma period_z : forall a (n : Z), cos (a + 2 * IZR n * PI) = cos a /\ sin (a + 2 * IZR n * PI) = sin a.
Proof.
  intros a n. destruct (Z_le_gt_dec 0 n) as [H|H].
  - rewrite <- (Z2Nat.id n) by lia. rewrite <- INR_IZR_INZ. apply period_n.
  - destruct (period_n (a + 2 * IZR n * PI) (Z.to_nat (- n))) as [P1 P2].
    rewrite INR_IZR_INZ, Z2Nat.id, opp_IZR in P1, P2 by lia.
    replace (a + 2 * IZR n * PI + 2 * - IZR n * PI) with a in * by ring. auto.
Qed.

Lemma tile_eq : forall c xs ys xst yst x y, tile c xs ys xst yst x y =
  [cos (IZR x * (1 / (IZR xs * c))) * (IZR xs * c * xst); cos (IZR y * (1 / (IZR ys * c))) * (IZR ys * c * yst);
   sin (IZR x * (1 / (IZR xs * c))) * (IZR xs * c * xst); sin (IZR y * (1 / (IZR ys * c))) * (IZR ys * c * yst)].
Proof. reflexivity. Qed.

(** With the exact constant, columns and rows repeat with the size of the image ... *)
Theorem C29_tile_periodic : forall xSize ySize xStep yStep x y i j, (1 <= xSize)%Z -> (1 <= ySize)%Z ->
  tile (/ (2 * PI)) xSize ySize xStep yStep (x + i * xSize) (y + j * ySize) = tile (/ (2 * PI)) xSize ySize xStep yStep x y.
Proof.
  intros xs ys xst yst x y i j X Y. rewrite !tile_eq. pose proof PI_neq0 as P0.
  assert (XN : IZR xs <> 0) by (apply not_0_IZR; lia). assert (YN : IZR ys <> 0) by (apply not_0_IZR; lia).
  replace (IZR (x + i * xs) * (1 / (IZR xs * / (2 * PI)))) with (IZR x * (1 / (IZR xs * / (2 * PI))) + 2 * IZR i * PI) by (rewrite plus_IZR, mult_IZR; field; auto).
  replace (IZR (y + j * ys) * (1 / (IZR ys * / (2 * PI)))) with (IZR y * (1 / (IZR ys * / (2 * PI))) + 2 * IZR j * PI) by (rewrite plus_IZR, mult_IZR; field; auto).
  destruct (period_z (IZR x * (1 / (IZR xs * / (2 * PI)))) i) as [-> ->]. destruct (period_z (IZR y * (1 / (IZR ys * / (2 * PI)))) j) as [-> ->]. reflexivity.
Qed.
Print Assumptions C29_tile_periodic.

Lemma chord : forall a b, (cos a - cos b)^2 + (sin a - sin b)^2 = 2 - 2 * cos (a - b).
Proof.
  intros a b. pose proof (sin2_cos2 a) as A. pose proof (sin2_cos2 b) as B. unfold Rsqr in A, B. rewrite cos_minus.
  assert (E : (cos a - cos b)^2 + (sin a - sin b)^2 = (sin a * sin a + cos a * cos a) + (sin b * sin b + cos b * cos b) - 2 * (cos a * cos b + sin a * sin b)) by ring. lra.
Qed.
Lemma tile_dist_x : forall c xs ys xst yst x x' y,
  dist2 (tile c xs ys xst yst x y) (tile c xs ys xst yst x' y) = (IZR xs * c * xst)^2 * (2 - 2 * cos (IZR (x - x') * (1 / (IZR xs * c)))).
Proof. intros. rewrite !tile_eq. cbn [dist2]. rewrite minus_IZR, Rmult_minus_distr_r, <- chord. ring. Qed.
Lemma tile_dist_y : forall c xs ys xst yst x y y',
  dist2 (tile c xs ys xst yst x y) (tile c xs ys xst yst x y') = (IZR ys * c * yst)^2 * (2 - 2 * cos (IZR (y - y') * (1 / (IZR ys * c)))).
Proof. intros. rewrite !tile_eq. cbn [dist2]. rewrite minus_IZR, Rmult_minus_distr_r, <- chord. ring. Qed.

(** ... so neighbouring columns and rows, the last and the first included, are equally far apart *)
Theorem C29_neighbours_equidistant : forall xSize ySize xStep yStep, (1 <= xSize)%Z -> (1 <= ySize)%Z ->
  exists dx dy, forall x y, (0 <= x < xSize)%Z -> (0 <= y < ySize)%Z ->
    dist2 (tile (/ (2 * PI)) xSize ySize xStep yStep x y) (tile (/ (2 * PI)) xSize ySize xStep yStep (wrap (x + 1) xSize) y) = dx /\
    dist2 (tile (/ (2 * PI)) xSize ySize xStep yStep x y) (tile (/ (2 * PI)) xSize ySize xStep yStep x (wrap (y + 1) ySize)) = dy.
Proof.
  intros xs ys xst yst X Y. set (c := / (2 * PI)).
  assert (WX : forall x, exists i, (wrap (x + 1) xs = x + 1 + i * xs)%Z). { intros x. exists (- ((x + 1) / xs))%Z. unfold wrap. pose proof (Z.div_mod (x + 1) xs). lia. }
  assert (WY : forall y, exists j, (wrap (y + 1) ys = y + 1 + j * ys)%Z). { intros y. exists (- ((y + 1) / ys))%Z. unfold wrap. pose proof (Z.div_mod (y + 1) ys). lia. }
  exists ((IZR xs * c * xst)^2 * (2 - 2 * cos (IZR (-1) * (1 / (IZR xs * c))))), ((IZR ys * c * yst)^2 * (2 - 2 * cos (IZR (-1) * (1 / (IZR ys * c))))).
  intros x y HX HY. destruct (WX x) as (i & ->). destruct (WY y) as (j & ->). split.
  - replace (tile c xs ys xst yst (x + 1 + i * xs) y) with (tile c xs ys xst yst (x + 1) y).
    + rewrite tile_dist_x. do 6 f_equal. lia.
    + unfold c. rewrite <- (C29_tile_periodic xs ys xst yst (x + 1) y i 0 X Y). f_equal. lia.
  - replace (tile c xs ys xst yst x (y + 1 + j * ys)) with (tile c xs ys xst yst x (y + 1)).
    + rewrite tile_dist_y. do 6 f_equal. lia.
    + unfold c. rewrite <- (C29_tile_periodic xs ys xst yst x (y + 1) 0 j X Y). f_equal. lia.
Qed.
Print Assumptions C29_neighbours_equidistant.
(** The step between neighbours is the step of the flat grid to second order: for a size of
    at least 1 the chord never exceeds the requested step. *)
Theorem C29_step_bound : forall xSize ySize xStep yStep x y, (1 <= xSize)%Z ->
  dist2 (tile (/ (2 * PI)) xSize ySize xStep yStep x y) (tile (/ (2 * PI)) xSize ySize xStep yStep (x + 1) y) <= xStep^2.
Proof.
  intros xs ys xst yst x y X. rewrite tile_dist_x. replace (x - (x + 1))%Z with (-1)%Z by lia. set (t := 1 / (IZR xs * / (2 * PI))).
  assert (XN : IZR xs <> 0) by (apply not_0_IZR; lia). pose proof PI_RGT_0 as P0.
  replace (IZR (-1) * t) with (- t) by (replace (IZR (-1)) with (-1) by reflexivity; ring). rewrite cos_neg.
  assert (T : IZR xs * / (2 * PI) * xst = xst / t) by (unfold t; field; split; lra).
  assert (TP : 0 < t). { unfold t. apply Rdiv_lt_0_compat; [lra|]. apply Rmult_lt_0_compat; [apply IZR_lt; lia|apply Rinv_0_lt_compat; lra]. }
  rewrite T.
  assert (H : 2 - 2 * cos t <= t^2).
  { replace t with (2 * (t / 2)) at 1 by field. rewrite cos_2a_sin. pose proof (sin2_cos2 (t/2)).
    assert (S : sin (t/2) ^ 2 <= (t/2)^2).
    { destruct (Rle_lt_dec (t/2) 1) as [L|L].
      - assert (0 < sin (t/2)) by (apply sin_gt_0; [lra|pose proof PI2_1; lra]). assert (sin (t/2) < t/2) by (apply sin_lt_x; lra). nra.
      - pose proof (SIN_bound (t/2)). nra. }
    nra. }
  replace (xst ^ 2) with ((xst / t)^2 * t^2) by (field; lra). apply Rmult_le_compat_l; [apply pow2_ge_0|exact H].
Qed.
Print Assumptions C29_step_bound.

(** *** The constant in the source *)
Lemma PI_bounds : 314159265 / 100000000 < PI < 314159266 / 100000000.
Proof.
  pose proof (PI_2_3_7_ineq 4) as H. cbv [sum_f_R0 tg_alt PI_2_3_7_tg Ratan_seq Nat.mul Nat.add] in H.
  rewrite !INR_IZR_INZ in H. cbn [Z.of_nat Pos.of_succ_nat Pos.succ pow] in H. lra.
Qed.
Lemma seam_angle : exists d, 1 / pi2Recip_f = 2 * PI + d /\ 2 / 10000000 < d < 3 / 10000000.
Proof. pose proof PI_bounds. exists (1 / pi2Recip_f - 2 * PI). split; [lra|]. unfold pi2Recip_f. lra. Qed.

Lemma sin_lip : forall a b, Rabs (sin a - sin b) <= Rabs (a - b).
Proof.
  assert (H : forall x, Rabs (sin x) <= Rabs x).
  { assert (P : forall x, 0 <= x -> Rabs (sin x) <= x).
    { intros x X. destruct (Rle_lt_dec x 1) as [L|L]; [|pose proof (SIN_bound x); apply Rabs_le; lra].
      destruct (Req_dec x 0) as [->|N]; [rewrite sin_0, Rabs_R0; lra|].
      assert (0 < sin x) by (apply sin_gt_0; [lra|pose proof PI2_1; lra]). rewrite Rabs_pos_eq by lra. left. apply sin_lt_x. lra. }
    intros x. destruct (Rle_lt_dec 0 x) as [L|L]; [rewrite (Rabs_pos_eq x) by auto; auto|].
    rewrite (Rabs_left x) by auto. rewrite <- (Rabs_Ropp (sin x)), <- sin_neg. apply P. lra. }
  intros a b. rewrite form4. rewrite !Rabs_mult, Rabs_pos_eq by lra.
  pose proof (H ((a - b)/2)) as H1. assert (H2 : Rabs (cos ((a + b)/2)) <= 1) by (pose proof (COS_bound ((a+b)/2)); apply Rabs_le; lra).
  assert (H3 : Rabs ((a - b)/2) = Rabs (a - b) / 2). { unfold Rdiv. rewrite Rabs_mult, (Rabs_pos_eq (/2)) by lra. reflexivity. }
  pose proof (Rabs_pos (sin ((a-b)/2))). pose proof (Rabs_pos (cos ((a+b)/2))). nra.
Qed.
Lemma cos_lip : forall a b, Rabs (cos a - cos b) <= Rabs (a - b).
Proof. intros a b. rewrite !cos_sin. replace (a - b) with ((PI/2 + a) - (PI/2 + b)) by ring. apply sin_lip. Qed.

(** With the constant of the source the wrap-around is off by less than 3e-7 of the radius of
    the sampled circle (the size of the image times the step over two pi): *)
Theorem C29_seam_error : forall xSize ySize xStep yStep x y, (1 <= xSize)%Z -> (1 <= ySize)%Z ->
  Forall2 (fun a b => Rabs (a - b) <= 3 / 10000000 * (IZR xSize * pi2Recip_f * Rabs xStep))
    (tile pi2Recip_f xSize ySize xStep yStep (x + xSize) y) (tile pi2Recip_f xSize ySize xStep yStep x y) /\
  Forall2 (fun a b => Rabs (a - b) <= 3 / 10000000 * (IZR ySize * pi2Recip_f * Rabs yStep))
    (tile pi2Recip_f xSize ySize xStep yStep x (y + ySize)) (tile pi2Recip_f xSize ySize xStep yStep x y).
Proof.
  assert (K : forall s st k, (1 <= s)%Z ->
    Rabs (cos (IZR (k + s) * (1 / (IZR s * pi2Recip_f))) * (IZR s * pi2Recip_f * st) - cos (IZR k * (1 / (IZR s * pi2Recip_f))) * (IZR s * pi2Recip_f * st)) <= 3 / 10000000 * (IZR s * pi2Recip_f * Rabs st) /\
    Rabs (sin (IZR (k + s) * (1 / (IZR s * pi2Recip_f))) * (IZR s * pi2Recip_f * st) - sin (IZR k * (1 / (IZR s * pi2Recip_f))) * (IZR s * pi2Recip_f * st)) <= 3 / 10000000 * (IZR s * pi2Recip_f * Rabs st)).
  { intros s st k S. destruct seam_angle as (d & D1 & D2). assert (SP : 1 <= IZR s) by (apply IZR_le; auto). assert (CP : 0 < pi2Recip_f) by (unfold pi2Recip_f; lra).
    set (a := IZR k * (1 / (IZR s * pi2Recip_f))).
    replace (IZR (k + s) * (1 / (IZR s * pi2Recip_f))) with (a + d + 2 * IZR 1 * PI).
    2:{ unfold a. rewrite plus_IZR. replace ((IZR k + IZR s) * (1 / (IZR s * pi2Recip_f))) with (IZR k * (1 / (IZR s * pi2Recip_f)) + 1 / pi2Recip_f) by (field; lra). rewrite D1. ring. }
    destruct (period_z (a + d) 1) as [-> ->]. rewrite <- !Rmult_minus_distr_r, !Rabs_mult.
    rewrite (Rabs_pos_eq (IZR s)), (Rabs_pos_eq pi2Recip_f) by lra.
    assert (Q : 0 <= IZR s * pi2Recip_f * Rabs st) by (apply Rmult_le_pos; [apply Rmult_le_pos; lra|apply Rabs_pos]).
    pose proof (cos_lip (a + d) a) as L1. pose proof (sin_lip (a + d) a) as L2. replace (a + d - a) with d in * by ring. rewrite (Rabs_pos_eq d) in * by lra.
    split; apply Rmult_le_compat_r; auto; lra. }
  assert (Z0 : forall s st v, (1 <= s)%Z -> Rabs (v - v) <= 3 / 10000000 * (IZR s * pi2Recip_f * Rabs st)).
  { intros s st v S. rewrite Rminus_diag_eq, Rabs_R0 by auto. assert (1 <= IZR s) by (apply IZR_le; auto). assert (0 < pi2Recip_f) by (unfold pi2Recip_f; lra). apply Rmult_le_pos; [lra|]. apply Rmult_le_pos; [apply Rmult_le_pos; lra|apply Rabs_pos]. }
  intros xs ys xst yst x y X Y. rewrite !tile_eq. destruct (K xs xst x X) as [A1 A2]. destruct (K ys yst y Y) as [B1 B2]. split; repeat (apply Forall2_cons); auto.
Qed.
Print Assumptions C29_seam_error.
(** ... and the wrap-around is not exact, for any size and non-zero step *)
Theorem C29_exact_seam_refuted : forall xSize ySize xStep yStep y, (1 <= xSize)%Z -> xStep <> 0 ->
  tile pi2Recip_f xSize ySize xStep yStep xSize y <> tile pi2Recip_f xSize ySize xStep yStep 0 y.
Proof.
  intros xs ys xst yst y X S E. rewrite !tile_eq in E. injection E as _ E. destruct seam_angle as (d & D1 & D2). assert (SP : 1 <= IZR xs) by (apply IZR_le; auto).
  assert (CP : 0 < pi2Recip_f) by (unfold pi2Recip_f; lra).
  replace (IZR xs * (1 / (IZR xs * pi2Recip_f))) with (d + 2 * IZR 1 * PI) in E.
  2:{ transitivity (1 / pi2Recip_f); [rewrite D1; ring|field; lra]. }
  destruct (period_z d 1) as [_ E2]. rewrite E2 in E. replace (0 * (1 / (IZR xs * pi2Recip_f))) with 0 in E by ring. rewrite sin_0, Rmult_0_l in E.
  assert (0 < sin d) by (apply sin_gt_0; [lra|pose proof PI2_1; lra]).
  apply Rmult_integral in E. destruct E as [E|E]; [lra|]. apply Rmult_integral in E. destruct E as [E|E]; [|lra]. apply Rmult_integral in E. lra.
Qed.
Print Assumptions C29_exact_seam_refuted.
