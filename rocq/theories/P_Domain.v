(** C47: coordinate transformations; C48: seed offsets; C57: derived members. *)
From Coq Require Import Reals ZArith List Bool Lia Lra Psatz.
From Verif Require Import Prelude Simd_Model Utils_Model Nodes_Model Warp_Model Cellular_Model Simd_R Setters_Model Bits P_Blend.
Import ListNotations.
Open Scope R_scope.

(** ** C57: output range *)
Section C57.
Variable inf : R.
Variable bits : R -> Z.
Notation S := (Rops inf bits).

Inductive range_call := CallMin (v : R) | CallMax (v : R).
Definition run_call (r : range S) (c : range_call) : range S := match c with CallMin v => SetOutputMin r v | CallMax v => SetOutputMax r v end.
(** the bounds a user expects after a sequence of calls: the last values set, -1 and 1 initially *)
Definition expect_call (b : R * R) (c : range_call) : R * R := match c with CallMin v => (v, snd b) | CallMax v => (fst b, v) end.
(** Whatever the order of the calls, a native value at the lower (upper) end of the generator's native range is
    mapped to the last minimum (maximum) set, and the map is affine in between. *)
Theorem C57_output_range : forall (calls : list range_call) nmin nmax t, nmin <> nmax ->
  let r := fold_left run_call calls range_default in let '(lo, hi) := fold_left expect_call calls (-1, 1) in
  ScaleOutput (s:=S) (W:=scalar) r (nmin + t * (nmax - nmin)) nmin nmax = lo + t * (hi - lo).
Proof.
  intros calls nmin nmax t Hn.
  assert (G : forall (r : range S) b, (rMin r : R) = fst b -> (rScale r : R) = snd b - fst b ->
    let r' := fold_left run_call calls r in let b' := fold_left expect_call calls b in (rMin r' : R) = fst b' /\ (rScale r' : R) = snd b' - fst b').
  { induction calls as [|c calls IH]; intros r b H1 H2; cbn [fold_left]; [split; assumption|].
    destruct r as [m sc]. cbn [rMin rScale] in H1, H2. subst m sc.
    apply IH; destruct c; cbn [run_call expect_call SetOutputMin SetOutputMax rMin rScale fst snd]; auto; sunf; toR; ring. }
  cbv zeta. specialize (G range_default (-1, 1)). cbv zeta in G.
  destruct G as [G1 G2]; [cbn [rMin range_default fst]; sunf; rlit; reflexivity|cbn [rScale range_default fst snd]; sunf; rlit; toR; ring|].
  destruct (fold_left expect_call calls (-1, 1)) as [lo hi]. cbn [fst snd] in *.
  unfold ScaleOutput. set (r := fold_left run_call calls range_default) in *.
  transitivity (1 / (nmax - nmin) * (rScale r : R) * (nmin + t * (nmax - nmin) - nmin) + (rMin r : R)); [sunf; rlit; reflexivity|].
  rewrite G1, G2. toR. field. lra.
Qed.

(** DomainRotate: the matrix in use is always the one of the last angles set. *)
Inductive rot_call := Yaw (v : R) | Pitch (v : R) | Roll (v : R).
Definition run_rot (m : rotation S) (c : rot_call) : rotation S := match c with Yaw v => SetYaw m v | Pitch v => SetPitch m v | Roll v => SetRoll m v end.
Definition expect_rot (a : R * R * R) (c : rot_call) : R * R * R :=
  let '(y, p, r) := a in match c with Yaw v => (v, p, r) | Pitch v => (y, v, r) | Roll v => (y, p, v) end.
(** elementary rotations of a point *)
Definition pt := (R * R * R)%type.
Definition rotZ (a : R) (p : pt) : pt := let '(x, y, z) := p in (x * cos a - y * sin a, x * sin a + y * cos a, z).
Definition rotY (a : R) (p : pt) : pt := let '(x, y, z) := p in (x * cos a + z * sin a, y, - x * sin a + z * cos a).
Definition rotX (a : R) (p : pt) : pt := let '(x, y, z) := p in (x, y * cos a - z * sin a, y * sin a + z * cos a).
Definition rotate (a : R * R * R) (p : pt) : pt := let '(y, pi, r) := a in rotZ y (rotY pi (rotX r p)).

Definition of_angles (m : rotation S) (a : R * R * R) : Prop :=
  let '(y, p, r) := a in m = CalculateRotation (s:=S) (cos y) (sin y) (cos p) (sin p) (cos r) (sin r).
Lemma rot_default : of_angles rotation_default (0, 0, 0).
Proof.
  unfold of_angles, rotation_default, CalculateRotation. rewrite cos_0, sin_0. rewrite !lit_int.
  cbn [s_mul s_sub s_add s_neg Rops]. rewrite !Rmult_0_l, !Rmult_0_r, !Rmult_1_l, Rminus_0_r, Ropp_0, !Rplus_0_l, !Rplus_0_r, ?Rmult_0_l. reflexivity.
Qed.
Lemma rot_run : forall calls m a, of_angles m a -> of_angles (fold_left run_rot calls m) (fold_left expect_rot calls a).
Proof.
  induction calls as [|c calls IH]; intros m a H; cbn [fold_left]; auto.
  apply IH. destruct a as [[y p] r]. cbn in H. subst m. destruct c; reflexivity.
Qed.
(** the coordinates the source is evaluated at, for any calls of the setters *)
Theorem C57_rotation : forall (calls : list rot_call) (src : source S scalar) (seed : Z) (x y z : R),
  let angles := fold_left expect_rot calls (0, 0, 0) in
  let '(x', y', z') := rotate angles (x, y, z) in
  DomainRotateGen src (fold_left run_rot calls rotation_default) seed [x; y; z] = src seed [x'; y'; z'].
Proof.
  intros. pose proof (rot_run calls _ _ rot_default) as H. fold angles in H. destruct angles as [[a b] c]. cbn in H.
  cbn [rotate rotX rotY rotZ]. rewrite H. unfold DomainRotateGen, DomainRotateGen3, CalculateRotation.
  cbn [mXa mXb mXc mYa mYb mYc mZa mZb mZc]. sunf. f_equal. f_equal; [|f_equal; [|f_equal]]; toR; ring.
Qed.

(** Terrace: after any calls the node behaves like a fresh one given the last step count and smoothness. *)
Inductive terrace_call := Steps (v : R) | Smooth (v : R).
Definition run_terrace (t : terrace_c S) (c : terrace_call) : terrace_c S := match c with Steps v => SetStepCount t v | Smooth v => SetSmoothness t v end.
Definition expect_terrace (a : R * R) (c : terrace_call) : R * R := match c with Steps v => (v, snd a) | Smooth v => (fst a, v) end.
Theorem C57_terrace : forall (calls : list terrace_call) (src : source S scalar) (seed : Z) (pos : list R),
  let '(n, sm) := fold_left expect_terrace calls (1, 0) in
  TerraceGen src (terrace_of (fold_left run_terrace calls terrace_default)) seed pos =
  TerraceGen src (terrace_of (SetSmoothness (s:=S) (SetStepCount (s:=S) terrace_default n) sm)) seed pos.
Proof.
  intros calls src seed pos.
  assert (G : forall (t : terrace_c S) a, (tcSmoothness t : R) = snd a -> (tcStepCount t : R) = fst a -> (tcStepCountRecip t : R) = 1 / fst a ->
      (snd a <> 0 -> (tcSmoothnessRecip t : R) = 1 + 1 / snd a) ->
    let t' := fold_left run_terrace calls t in let a' := fold_left expect_terrace calls a in
    (tcSmoothness t' : R) = snd a' /\ (tcStepCount t' : R) = fst a' /\ (tcStepCountRecip t' : R) = 1 / fst a' /\
      (snd a' <> 0 -> (tcSmoothnessRecip t' : R) = 1 + 1 / snd a')).
  { induction calls as [|c calls IH]; intros t a H1 H2 H3 H4; cbn [fold_left]; [repeat split; assumption|].
    apply IH; destruct c; cbn [run_terrace expect_terrace SetStepCount SetSmoothness tcSmoothness tcSmoothnessRecip tcStepCount tcStepCountRecip fst snd]; auto.
    - sunf. rlit. reflexivity.
    - intros Hv. sunf. rlit. unfold Reqb; destruct (Req_EM_T v 0); [contradiction|]. cbn [negb]. reflexivity. }
  specialize (G terrace_default (1, 0)). cbv zeta in G.
  destruct G as (G1 & G2 & G3 & G4); try (cbn [tcSmoothness tcSmoothnessRecip tcStepCount tcStepCountRecip terrace_default fst snd]; sunf; rlit; toR; lra).
  { cbn [snd]. intros H; contradiction H; reflexivity. }
  destruct (fold_left expect_terrace calls (1, 0)) as [n sm]. cbn [fst snd] in *.
  destruct (fold_left run_terrace calls terrace_default) as [a b c d].
  cbn [tcSmoothness tcSmoothnessRecip tcStepCount tcStepCountRecip] in *. subst a c d.
  unfold TerraceGen, terrace_of, SetSmoothness, SetStepCount, terrace_default.
  cbn [tSmoothness tSmoothnessRecip tStepCount tStepCountRecip tcSmoothness tcSmoothnessRecip tcStepCount tcStepCountRecip].
  sunf. rlit. unfold Reqb; destruct (Req_EM_T sm 0) as [->|Hs]; cbn [negb]; [reflexivity|]. rewrite (G4 Hs). reflexivity.
Qed.
End C57.

(** ** C47 *)
Section C47.
Variable inf : R.
Variable bits : R -> Z.
Notation S := (Rops inf bits).
Notation source := (source S scalar).
Notation val := (val inf bits).

Definition dist2 (p q : pt) : R := let '(a, b, c) := p in let '(x, y, z) := q in (a - x)^2 + (b - y)^2 + (c - z)^2.
Lemma rotZ_dist : forall a p q, dist2 (rotZ a p) (rotZ a q) = dist2 p q.
Proof.
  intros a [[x y] z] [[u v] w]. cbn [rotZ dist2]. pose proof (sin2_cos2 a) as H. unfold Rsqr in H.
  transitivity (((x - u)^2 + (y - v)^2) * (sin a * sin a + cos a * cos a) + (z - w)^2); [ring|rewrite H; ring].
Qed.
Lemma rotY_dist : forall a p q, dist2 (rotY a p) (rotY a q) = dist2 p q.
Proof.
  intros a [[x y] z] [[u v] w]. cbn [rotY dist2]. pose proof (sin2_cos2 a) as H. unfold Rsqr in H.
  transitivity (((x - u)^2 + (z - w)^2) * (sin a * sin a + cos a * cos a) + (y - v)^2); [ring|rewrite H; ring].
Qed.
Lemma rotX_dist : forall a p q, dist2 (rotX a p) (rotX a q) = dist2 p q.
Proof.
  intros a [[x y] z] [[u v] w]. cbn [rotX dist2]. pose proof (sin2_cos2 a) as H. unfold Rsqr in H.
  transitivity (((y - v)^2 + (z - w)^2) * (sin a * sin a + cos a * cos a) + (x - u)^2); [ring|rewrite H; ring].
Qed.
(** the 3D rotation preserves distances, for all angles *)
Theorem C47_rotation_isometry : forall angles p q, dist2 (rotate angles p) (rotate angles q) = dist2 p q.
Proof. intros [[a b] c] p q. cbn [rotate]. rewrite rotZ_dist, rotY_dist, rotX_dist. reflexivity. Qed.

(** In 2D: without pitch and roll the source is evaluated (in 2D) at the yaw rotation of the point, which is where the
    3D rotation puts it, in the plane z = 0; otherwise it is evaluated (in 3D) at the rotation of (x, y, 0). *)
Theorem C47_rotate_2d : forall (yaw pitch roll : R) (src : source) (seed : Z) (x y : R),
  let m := run_rot inf bits (run_rot inf bits (run_rot inf bits rotation_default (Yaw yaw)) (Pitch pitch)) (Roll roll) in
  let '(x', y', z') := rotate (yaw, pitch, roll) (x, y, 0) in
  (pitch = 0 -> roll = 0 -> DomainRotateGen src m seed [x; y] = src seed [x'; y'] /\ z' = 0) /\
  (sin pitch <> 0 \/ sin roll <> 0 -> DomainRotateGen src m seed [x; y] = src seed [x'; y'; z']).
Proof.
  intros. cbn [rotate rotX rotY rotZ]. split.
  - intros -> ->. unfold m, DomainRotateGen. cbn [run_rot SetYaw SetPitch SetRoll CalculateRotation mPitchSin mRollSin mYawSin mYawCos]. sunf. rlit.
    rewrite sin_0, cos_0. assert (Reqb 0 0 = true) as -> by (apply Reqb_eq; reflexivity). cbn [andb].
    split; [|ring]. f_equal. f_equal; [|f_equal]; toR; ring.
  - intros H. unfold m, DomainRotateGen. cbn [run_rot]. unfold SetYaw, SetPitch, SetRoll, DomainRotateGen3, CalculateRotation.
    cbn [mPitchSin mRollSin mYawSin mYawCos mPitchCos mRollCos mXa mXb mXc mYa mYb mYc mZa mZb mZc]. sunf. rlit.
    assert (Reqb (sin pitch) 0 && Reqb (sin roll) 0 = false) as ->.
    { destruct H as [H|H]; apply Reqb_ne in H; rewrite H; [reflexivity|apply andb_false_r]. }
    f_equal. f_equal; [|f_equal; [|f_equal]]; toR; ring.
Qed.
(** For a half turn of pitch the 2D shortcut is taken although the 3D rotation mirrors x. (In floats sin(pi) is not 0, so
    this needs a pitch whose computed sine is exactly 0.) *)
Theorem C47_rotate_2d_half_turn : forall (src : source) (seed : Z) (x y : R),
  let m := run_rot inf bits rotation_default (Pitch PI) in
  DomainRotateGen src m seed [x; y] = src seed [x; y] /\ rotate (0, PI, 0) (x, y, 0) = (- x, y, 0).
Proof.
  intros. unfold m, DomainRotateGen. cbn [run_rot]. unfold SetPitch, CalculateRotation, rotation_default.
  cbn [mPitchSin mRollSin mYawSin mYawCos mPitchCos mRollCos]. sunf. rlit. rewrite sin_PI.
  assert (Reqb 0 0 = true) as -> by (apply Reqb_eq; reflexivity). cbn [andb]. split.
  - f_equal. f_equal; [|f_equal]; toR; ring.
  - cbn [rotate rotX rotY rotZ]. rewrite sin_PI, cos_PI, sin_0, cos_0. f_equal; [f_equal|]; ring.
Qed.

(** coordinate transformations of the other domain nodes, for any source *)
Theorem C47_domain_nodes : forall (src : source) (seed : Z) (k x y z w : R) (o1 o2 o3 o4 : hyb S scalar) (k1 k2 k3 k4 : R),
  let v h p := val h seed p in
  DomainScaleGen src k seed [x; y] = src seed [x * k; y * k] /\
  DomainScaleGen src k seed [x; y; z] = src seed [x * k; y * k; z * k] /\
  DomainScaleGen src k seed [x; y; z; w] = src seed [x * k; y * k; z * k; w * k] /\
  DomainOffsetGen src [o1; o2; o3; o4] seed [x; y] = src seed [x + v o1 [x; y]; y + v o2 [x; y]] /\
  DomainOffsetGen src [o1; o2; o3; o4] seed [x; y; z] = src seed [x + v o1 [x; y; z]; y + v o2 [x; y; z]; z + v o3 [x; y; z]] /\
  DomainOffsetGen src [o1; o2; o3; o4] seed [x; y; z; w] =
    src seed [x + v o1 [x; y; z; w]; y + v o2 [x; y; z; w]; z + v o3 [x; y; z; w]; w + v o4 [x; y; z; w]] /\
  DomainAxisScaleGen src [k1; k2; k3; k4] seed [x; y] = src seed [x * k1; y * k2] /\
  DomainAxisScaleGen src [k1; k2; k3; k4] seed [x; y; z] = src seed [x * k1; y * k2; z * k3] /\
  DomainAxisScaleGen src [k1; k2; k3; k4] seed [x; y; z; w] = src seed [x * k1; y * k2; z * k3; w * k4] /\
  AddDimensionGen src o1 seed [x; y] = src seed [x; y; v o1 [x; y]] /\
  AddDimensionGen src o1 seed [x; y; z] = src seed [x; y; z; v o1 [x; y; z]] /\
  AddDimensionGen src o1 seed [x; y; z; w] = src seed [x; y; z; w].
Proof.
  intros. unfold DomainScaleGen, DomainOffsetGen, DomainAxisScaleGen, AddDimensionGen. cbn [map zipw app]. rewrite !gsv_val. repeat split.
Qed.
(** Remove Dimension undoes Add Dimension, and removes exactly the named coordinate *)
Theorem C47_remove_dimension : forall (src : source) (seed : Z) (x y z w c : R) (h : hyb S scalar),
  RemoveDimensionGen src DX seed [x; y; z] = src seed [y; z] /\ RemoveDimensionGen src DY seed [x; y; z] = src seed [x; z] /\
  RemoveDimensionGen src DZ seed [x; y; z] = src seed [x; y] /\ RemoveDimensionGen src DW seed [x; y; z] = src seed [x; y; z] /\
  RemoveDimensionGen src DX seed [x; y; z; w] = src seed [y; z; w] /\ RemoveDimensionGen src DY seed [x; y; z; w] = src seed [x; z; w] /\
  RemoveDimensionGen src DZ seed [x; y; z; w] = src seed [x; y; w] /\ RemoveDimensionGen src DW seed [x; y; z; w] = src seed [x; y; z] /\
  (forall d, RemoveDimensionGen src d seed [x; y] = src seed [x; y]) /\
  AddDimensionGen (RemoveDimensionGen src DZ) h seed [x; y] = src seed [x; y] /\
  AddDimensionGen (RemoveDimensionGen src DW) h seed [x; y; z] = src seed [x; y; z].
Proof. intros. repeat split. Qed.
(** nested scales multiply, nested constant offsets add *)
Theorem C47_compose : forall (src : source) (seed : Z) (a b : R) (pos : list R),
  DomainScaleGen (DomainScaleGen src a) b seed pos = DomainScaleGen src (b * a) seed pos.
Proof. intros. unfold DomainScaleGen. rewrite map_map. f_equal. apply map_ext. intros. sunf. ring. Qed.

(** Rotate Plane multiplies by a fixed matrix that preserves lengths up to rounding of its constants. *)
Definition kS : R := IZR 3545443 / IZR (2^24).
Definition kZ : R := IZR 4843165 / IZR (2^23).
Lemma rot_consts : @kRotS2 S = - kS /\ @kRotZ S = kZ.
Proof.
  unfold kRotS2, kRotZ, kS, kZ. cbn [lit Rops]. change (-24)%Z with (- (24))%Z. change (-23)%Z with (- (23))%Z.
  rewrite !pow2_neg by lia. split; toR; [|reflexivity]. lra.
Qed.
Definition rotated_plane (ty : PlaneRotationType) (x y z : R) : R * R * R := RotateCoords (s:=S) (W:=scalar) ty x y z.
Theorem C47_rotate_plane : forall ty x y z, let '(x', y', z') := rotated_plane ty x y z in
  Rabs ((x'^2 + y'^2 + z'^2) - (x^2 + y^2 + z^2)) <= / 1000000 * (x^2 + y^2 + z^2).
Proof.
  intros ty x y z. unfold rotated_plane, RotateCoords. destruct rot_consts as [E1 E2]. rewrite E1, E2. sunf.
  assert (A : Rabs (-2 * kS + 2 * kS^2 + kZ^2) <= / 10000000) by (unfold kS, kZ; apply Rabs_le; lra).
  assert (B : Rabs (3 * kZ^2 - 1) <= / 10000000) by (unfold kZ; apply Rabs_le; lra).
  assert (C : Rabs (-2 * kZ * (1 - 2 * kS) + 2 * kZ^2) <= / 10000000) by (unfold kS, kZ; apply Rabs_le; lra).
  assert (G : forall u v w, Rabs ((-2 * kS + 2 * kS^2 + kZ^2) * (u + v)^2 + (3 * kZ^2 - 1) * w^2 + (-2 * kZ * (1 - 2 * kS) + 2 * kZ^2) * (w * (u + v)))
     <= / 1000000 * (u^2 + v^2 + w^2)).
  { intros u v w. set (a := -2 * kS + 2 * kS^2 + kZ^2) in *. set (b := 3 * kZ^2 - 1) in *. set (c := -2 * kZ * (1 - 2 * kS) + 2 * kZ^2) in *.
    clearbody a b c.
    eapply Rle_trans; [apply Rabs_triang|]. eapply Rle_trans; [apply Rplus_le_compat_r, Rabs_triang|].
    rewrite !Rabs_mult. rewrite <- !(RPow_abs). assert (Rabs w * Rabs (u + v) <= w^2 + (u + v)^2).
    { pose proof (pow2_ge_0 (Rabs w - Rabs (u + v))). rewrite <- (pow2_abs w), <- (pow2_abs (u + v)). nra. }
    rewrite !pow2_abs. pose proof (pow2_ge_0 (u + v)). pose proof (pow2_ge_0 w). pose proof (pow2_ge_0 (u - v)).
    pose proof (Rabs_pos (u + v)). pose proof (Rabs_pos w).
    assert (Rabs a * (u + v)^2 <= / 10000000 * (u + v)^2) by (apply Rmult_le_compat_r; assumption).
    assert (Rabs b * w^2 <= / 10000000 * w^2) by (apply Rmult_le_compat_r; assumption).
    assert (Rabs c * (Rabs w * Rabs (u + v)) <= / 10000000 * (w^2 + (u + v)^2)).
    { apply Rmult_le_compat; try assumption; [apply Rabs_pos|apply Rmult_le_pos; assumption]. }
    nra. }
  destruct ty; cbn [fst snd].
  - replace (_ - (x^2 + y^2 + z^2)) with ((-2 * kS + 2 * kS^2 + kZ^2) * (x + y)^2 + (3 * kZ^2 - 1) * z^2 + (-2 * kZ * (1 - 2 * kS) + 2 * kZ^2) * (z * (x + y))) by ring.
    apply G.
  - replace (_ - (x^2 + y^2 + z^2)) with ((-2 * kS + 2 * kS^2 + kZ^2) * (x + z)^2 + (3 * kZ^2 - 1) * y^2 + (-2 * kZ * (1 - 2 * kS) + 2 * kZ^2) * (y * (x + z))) by ring.
    replace (x^2 + y^2 + z^2) with (x^2 + z^2 + y^2) by ring. apply G.
Qed.
Theorem C47_rotate_plane_nodes : forall (src : source) ty (seed : Z) (x y z w : R),
  let '(a, b, c) := rotated_plane ty x y z in let '(a0, b0, c0) := rotated_plane ImproveXYPlanes x y 0 in
  DomainRotatePlaneGen src ty seed [x; y; z] = src seed [a; b; c] /\
  DomainRotatePlaneGen src ty seed [x; y; z; w] = src seed [a; b; c; w] /\
  DomainRotatePlaneGen src ty seed [x; y] = src seed [a0; b0; c0].
Proof.
  intros. unfold DomainRotatePlaneGen, rotated_plane.
  assert (num (s:=S) (W:=scalar) 0 = (0 : R)) as Z0 by (sunf; rlit; reflexivity). rewrite Z0.
  destruct (RotateCoords ty _ _ _) as [[a b] c], (RotateCoords ImproveXYPlanes _ _ _) as [[a0 b0] c0]. auto.
Qed.
End C47.

(** ** C48 *)
Section C48.
Context {s : sops}.
Notation source := (source s scalar).
(** Nested Seed Offset nodes add up modulo 2^32; opposite offsets cancel. *)
Theorem C48_compose : forall (g : source) a b (seed : Z) pos,
  SeedOffsetGen (SeedOffsetGen g a) b seed pos = g (s32 (seed + b + a)) pos /\
  SeedOffsetGen (SeedOffsetGen g a) b seed pos = SeedOffsetGen g (a + b) seed pos.
Proof.
  intros. unfold SeedOffsetGen, iadd, iv. cbn [map2 pure scalar]. unfold z_add.
  rewrite !s32_idem_add_r, s32_idem_add_l. split; [reflexivity|]. do 2 f_equal. lia.
Qed.
Theorem C48_cancel : forall (g : source) k (seed : Z) pos, in32 seed -> SeedOffsetGen (SeedOffsetGen g k) (- k) seed pos = g seed pos.
Proof.
  intros g k seed pos H. destruct (C48_compose g k (- k) seed pos) as [-> _]. f_equal.
  replace (seed + - k + k)%Z with seed by lia. apply in32_s32_id. exact H.
Qed.
(** The seed offset member of the noise nodes: the same as the node without offset at seed + offset. *)
Theorem C48_member : forall ft so freq (r : range s) (seed : Z) pos, in32 seed ->
  WhiteGen (W:=scalar) so r seed pos = WhiteGen (W:=scalar) 0 r (z_add seed so) pos /\
  ValueGen (W:=scalar) so freq r seed pos = ValueGen (W:=scalar) 0 freq r (z_add seed so) pos /\
  PerlinGen (W:=scalar) ft so freq r seed pos = PerlinGen (W:=scalar) ft 0 freq r (z_add seed so) pos.
Proof.
  intros ft so freq r seed pos H.
  assert (E : iadd (W:=scalar) seed (iv so) = iadd (W:=scalar) (z_add seed so) (iv 0)).
  { unfold iadd, iv. cbn [map2 pure scalar]. unfold z_add. change (s32 0) with 0%Z. rewrite s32_idem_add_r, Z.add_0_r. symmetry. apply in32_s32_id, in32_s32. }
  repeat split.
  - unfold WhiteGen, slet. rewrite E. reflexivity.
  - unfold ValueGen. destruct pos as [|x [|y [|z [|w [|]]]]]; auto; unfold ValueGen2, ValueGen3, ValueGen4; rewrite E; reflexivity.
  - unfold PerlinGen. destruct pos as [|x [|y [|z [|w [|]]]]]; auto; unfold PerlinGen2, PerlinGen3, PerlinGen4; rewrite E; reflexivity.
Qed.
(** Cellular nodes: the hashing uses seed + offset; children get the seed itself. With constant members this is the node
    without offset at the shifted seed. *)
Definition const_hyb (h : hyb s scalar) : Prop := match h with HConst _ => True | HSrc _ => False end.
Definition no_offset (c : cellular s scalar) : cellular s scalar :=
  {| clDist := clDist c; clMinkowski := clMinkowski c; clGrid := clGrid c; clSize := clSize c; clSeedOffset := 0; clFrequency := clFrequency c; clScale := clScale c |}.
Theorem C48_cellular : forall ft junk (c : cellular s scalar) r rt i0 i1 k (seed : Z) pos,
  const_hyb (clMinkowski c) -> const_hyb (clGrid c) -> const_hyb (clSize c) ->
  CellularValueGen ft junk c r k seed pos = CellularValueGen ft junk (no_offset c) r k (z_add seed (clSeedOffset c)) pos /\
  CellularDistanceGen ft c r rt i0 i1 seed pos = CellularDistanceGen ft (no_offset c) r rt i0 i1 (z_add seed (clSeedOffset c)) pos.
Proof.
  intros ft junk [df mk gr sz so fq sc] r rt i0 i1 k seed pos H1 H2 H3.
  destruct mk as [mk|]; [|contradiction]. destruct gr as [gr|]; [|contradiction]. destruct sz as [sz|]; [|contradiction].
  assert (E : iadd (W:=scalar) seed (iv so) = iadd (W:=scalar) (z_add seed so) (iv 0)).
  { unfold iadd, iv. cbn [map2 pure scalar]. unfold z_add. change (s32 0) with 0%Z. rewrite s32_idem_add_r, Z.add_0_r. symmetry. apply in32_s32_id, in32_s32. }
  unfold CellularValueGen, CellularDistanceGen, no_offset. cbn [clDist clMinkowski clGrid clSize clSeedOffset clFrequency clScale].
  split; unfold slet; rewrite E; destruct pos as [|x [|y [|z [|w [|]]]]]; reflexivity.
Qed.
(** A Domain Warp Gradient node with offset k warps with seed + 2k (the offset is added twice), while its source gets the
    seed itself. *)
Theorem C48_domain_warp_twice : forall ft src amp axis k freq (seed : Z) pos,
  let node o := {| wSource := src; wAmplitude := amp; wAxisScale := axis; wSeedOffset := o; wFrequency := freq; wWarp := GradientWarp (s:=s) (W:=scalar) o axis |} in
  let warped o sd := wWarp (node o) sd (GetSourceValue amp seed pos) (map (fun p => fmul p (fv freq)) pos) pos in
  DomainWarpGen (node k) seed pos = src seed (snd (warped 0%Z (s32 (seed + 2 * k)))) /\
  (* the fractals add it once *)
  DomainWarpFractalProgressiveGen ft {| frGain := HConst (lit 0 0); frWeight := HConst (lit 0 0); frOctaves := 1; frLacunarity := lit 0 0 |} (node k) seed pos
    = src seed (snd (warped 0%Z (s32 (seed + k)))).
Proof.
  intros. unfold DomainWarpGen, DomainWarpFractalProgressiveGen, slet. cbn [frOctaves Z.to_nat Z.sub progressive_loop]. cbn [wSource wSeedOffset wAmplitude wFrequency node].
  assert (G : forall o sd a p out, GradientWarp (s:=s) (W:=scalar) o axis sd a p out = GradientWarp (s:=s) (W:=scalar) 0 axis (z_add sd o) a p out).
  { intros. assert (E : iadd (W:=scalar) sd (iv o) = iadd (W:=scalar) (z_add sd o) (iv 0)).
    { unfold iadd, iv. cbn [map2 pure scalar]. unfold z_add. change (s32 0) with 0%Z. rewrite s32_idem_add_r, Z.add_0_r. symmetry. apply in32_s32_id, in32_s32. }
    unfold GradientWarp. destruct p as [|x [|y [|z [|w [|]]]]]; auto; destruct out as [|x' [|y' [|z' [|w' [|]]]]]; auto;
      unfold GradientWarp2, GradientWarp3, GradientWarp4; rewrite E; reflexivity. }
  unfold warped. cbn [wWarp node]. split.
  - rewrite (G k). unfold iadd, iv. cbn [map2 pure scalar]. unfold z_add.
    rewrite !s32_idem_add_r, s32_idem_add_l. replace (seed + k + k)%Z with (seed + 2 * k)%Z by lia. reflexivity.
  - rewrite (G k). unfold z_add. reflexivity.
Qed.
End C48.
Print Assumptions C57_output_range.
Print Assumptions C57_rotation.
Print Assumptions C57_terrace.
Print Assumptions C47_rotation_isometry.
Print Assumptions C47_rotate_2d.
Print Assumptions C47_rotate_2d_half_turn.
Print Assumptions C47_domain_nodes.
Print Assumptions C47_remove_dimension.
Print Assumptions C47_compose.
Print Assumptions C47_rotate_plane.
Print Assumptions C47_rotate_plane_nodes.
Print Assumptions C48_compose.
Print Assumptions C48_cancel.
Print Assumptions C48_member.
Print Assumptions C48_cellular.
Print Assumptions C48_domain_warp_twice.
