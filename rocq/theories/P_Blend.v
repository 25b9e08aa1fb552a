(** C39-C44, C50: what the blend and modifier nodes compute. Real arithmetic, one lane; C51 carries the
    results over to every lane of every SIMD width. *)
From Coq Require Import Reals ZArith List Bool Lia Lra Psatz.
From Verif Require Import Prelude Simd_Model Utils_Model Nodes_Model Simd_R Setters_Model.
Import ListNotations.
Open Scope R_scope.

Section Blend.
Variable inf : R.
Variable bits : R -> Z.
Notation S := (Rops inf bits).
Notation source := (source S scalar).
Notation hyb := (hyb S scalar).
(** the value a hybrid operand contributes at a position *)
Definition val (h : hyb) (seed : Z) (pos : list R) : R := match h with HConst c => c | HSrc g => g seed pos end.
Lemma gsv_val : forall h seed pos, GetSourceValue h seed pos = val h seed pos.
Proof. intros [c|g] seed pos; reflexivity. Qed.
(** the float FLT_MIN = 2^-126 *)
Definition tiny : R := / IZR (2 ^ 126).
Lemma tiny_pos : 0 < tiny. Proof. apply Rinv_0_lt_compat, IZR_lt. reflexivity. Qed.
Lemma FLT_MIN_tiny : @FLT_MIN S = tiny.
Proof. unfold FLT_MIN, tiny. cbn [lit Rops]. change (-126)%Z with (- (126))%Z. rewrite (pow2_neg 126) by lia. apply Rmult_1_l. Qed.

(** ** C39 *)
Lemma Rtrunc_spec : forall x, 0 <= x -> IZR (Rtrunc x) <= x < IZR (Rtrunc x) + 1.
Proof. intros x H. unfold Rtrunc. destruct (Rle_dec 0 x); [apply Rfloor_spec|contradiction]. Qed.
Lemma Rtrunc_spec_neg : forall x, x < 0 -> IZR (Rtrunc x) - 1 < x <= IZR (Rtrunc x).
Proof. intros x H. unfold Rtrunc. destruct (Rle_dec 0 x); [lra|]. pose proof (Rfloor_spec (- x)). rewrite opp_IZR. lra. Qed.

(** r is the remainder of a by b, with the sign of a *)
Definition is_fmod (a b r : R) : Prop :=
  (exists k : Z, a = IZR k * b + r) /\ Rabs r < Rabs b /\ (0 <= a -> 0 <= r) /\ (a <= 0 -> r <= 0).
Lemma Rfmod_spec : forall a b, b <> 0 -> is_fmod a b (Rfmod a b).
Proof.
  intros a b Hb. unfold Rfmod, is_fmod. set (q := a / b). assert (Ha : a = q * b) by (unfold q; field; exact Hb).
  split; [exists (Rtrunc q); ring|].
  destruct (Req_dec q 0) as [Hq0|Hq0].
  { assert (a = 0) by (rewrite Ha, Hq0; ring). assert (Rtrunc q = 0%Z) as ->.
    { unfold Rtrunc. rewrite Hq0. destruct (Rle_dec 0 0); [apply (Rfloor_IZR 0)|lra]. }
    rewrite H. replace (0 - 0 * b) with 0 by ring. rewrite Rabs_R0. pose proof (Rabs_pos_lt b Hb). repeat split; intros; lra. }
  destruct (Rle_lt_dec 0 q) as [Hq|Hq].
  - pose proof (Rtrunc_spec q Hq) as [A B].
    replace (a - IZR (Rtrunc q) * b) with ((q - IZR (Rtrunc q)) * b) by (rewrite Ha at 1; ring).
    split; [rewrite Rabs_mult, (Rabs_right (q - _)) by lra; pose proof (Rabs_pos_lt b Hb); nra|].
    split; intros; destruct (Rlt_le_dec 0 b); try nra; exfalso; assert (b < 0) by lra; nra.
  - pose proof (Rtrunc_spec_neg q Hq) as [A B].
    replace (a - IZR (Rtrunc q) * b) with ((q - IZR (Rtrunc q)) * b) by (rewrite Ha at 1; ring).
    split; [rewrite Rabs_mult, (Rabs_left1 (q - _)) by lra; pose proof (Rabs_pos_lt b Hb); nra|].
    split; intros; destruct (Rlt_le_dec 0 b); try nra; exfalso; assert (b < 0) by lra; nra.
Qed.

Theorem C39_blends : forall (a : source) (ha hb : hyb) (seed : Z) (pos : list R),
  AddGen a hb seed pos = a seed pos + val hb seed pos /\
  SubtractGen ha hb seed pos = val ha seed pos - val hb seed pos /\
  MultiplyGen a hb seed pos = a seed pos * val hb seed pos /\
  (val hb seed pos <> 0 -> DivideGen ha hb seed pos * val hb seed pos = val ha seed pos) /\
  (val hb seed pos <> 0 -> is_fmod (val ha seed pos) (val hb seed pos) (ModulusGen ha hb seed pos)) /\
  MinGen a hb seed pos = Rmin (a seed pos) (val hb seed pos) /\
  MaxGen a hb seed pos = Rmax (a seed pos) (val hb seed pos) /\
  (tiny <= Rabs (val ha seed pos) -> PowFloatGen ha hb seed pos = Rpower (Rabs (val ha seed pos)) (val hb seed pos)).
Proof.
  intros a ha hb seed pos.
  unfold AddGen, SubtractGen, MultiplyGen, DivideGen, ModulusGen, MinGen, MaxGen, PowFloatGen. rewrite !gsv_val, FLT_MIN_tiny.
  sunf. repeat split; intros; auto.
  - field. assumption.
  - apply Rfmod_spec; assumption.
  - apply Rfmod_spec; assumption.
  - apply Rfmod_spec; assumption.
  - apply Rfmod_spec; assumption.
  - unfold Rpow_pos. rewrite Rmax_left by assumption. destruct (Rlt_dec _ _); auto. pose proof tiny_pos. lra.
Qed.

(** A hybrid operand given as a number behaves like a Constant node, in every node that takes one. *)
Theorem C39_constant_operand : forall (s : sops) (W : simd) (c : V s) (seed : I W) (pos : list (F s W)),
  GetSourceValue (HConst c) seed pos = GetSourceValue (HSrc (ConstantGen c)) seed pos.
Proof. reflexivity. Qed.

(** ** C40 *)
(** the smoothness in effect: the absolute value, at least FLT_MIN *)
Definition smooth (x : R) : R := Rmax tiny (Rabs x).
Lemma minsmooth_eq : forall a b k, 0 < k ->
  let h := Rmax (k - Rabs (a - b)) 0 * / k in - (1 / 6 * (h * h * h * k)) + Rmin a b = Rmin a b - (Rmax (k - Rabs (a - b)) 0)^3 / (6 * k^2).
Proof. intros. unfold h. field. lra. Qed.
Theorem C40_smooth_min : forall (a : source) (hb hs : hyb) (seed : Z) (pos : list R),
  let va : R := a seed pos in let vb := val hb seed pos in let k := smooth (val hs seed pos) in
  let r : R := MinSmoothGen a hb hs seed pos in
  Rmin va vb - k / 6 <= r <= Rmin va vb /\ (k <= Rabs (va - vb) -> r = Rmin va vb).
Proof.
  intros. unfold r, MinSmoothGen. rewrite !gsv_val, FLT_MIN_tiny. sunf. rlit.
  fold va vb. fold (smooth (val hs seed pos)). fold k.
  assert (Hk : 0 < k) by (unfold k, smooth; pose proof tiny_pos; pose proof (Rmax_l tiny (Rabs (val hs seed pos))); lra).
  set (h := Rmax (k - Rabs (va - vb)) 0 * / k).
  assert (Hh : 0 <= h <= 1).
  { unfold h. pose proof (Rabs_pos (va - vb)). pose proof (Rmax_r (k - Rabs (va - vb)) 0).
    assert (Rmax (k - Rabs (va - vb)) 0 <= k) by (apply Rmax_lub; lra).
    pose proof (Rinv_0_lt_compat k Hk). split; [nra|]. apply Rle_trans with (k * / k); [nra|]. rewrite Rinv_r; lra. }
  split.
  - assert (0 <= h * h * h <= 1) by (assert (0 <= h * h <= 1) by nra; nra).
    assert (0 <= h * h * h * k <= k) by nra. lra.
  - intros Hd. assert (E : h = 0) by (unfold h; rewrite Rmax_right by lra; ring). rewrite E. ring.
Qed.
Theorem C40_symmetric : forall (a b : source) (hs : hyb) (seed : Z) (pos : list R),
  MinSmoothGen a (HSrc b) hs seed pos = MinSmoothGen b (HSrc a) hs seed pos /\
  MaxSmoothGen a (HSrc b) hs seed pos = MaxSmoothGen b (HSrc a) hs seed pos.
Proof.
  intros. unfold MinSmoothGen, MaxSmoothGen. rewrite !gsv_val. cbn [val]. sunf. rlit.
  rewrite (Rabs_minus_sym (a seed pos)), (Rmin_comm (a seed pos)).
  rewrite (Rabs_minus_sym (- a seed pos)), (Rmin_comm (- a seed pos)). auto.
Qed.
(** negate a node's output *)
Definition neg (g : source) : source := fun seed pos => - g seed pos.
Definition neg_hyb (h : hyb) : hyb := match h with HConst c => @HConst S scalar (- c) | HSrc g => HSrc (neg g) end.
Theorem C40_smooth_max_mirror : forall (a : source) (hb hs : hyb) (seed : Z) (pos : list R),
  MaxSmoothGen a hb hs seed pos = - MinSmoothGen (neg a) (neg_hyb hb) hs seed pos.
Proof. intros a [c|g] hs seed pos; reflexivity. Qed.
Theorem C40_smooth_max : forall (a : source) (hb hs : hyb) (seed : Z) (pos : list R),
  let va : R := a seed pos in let vb := val hb seed pos in let k := smooth (val hs seed pos) in
  let r : R := MaxSmoothGen a hb hs seed pos in
  Rmax va vb <= r <= Rmax va vb + k / 6 /\ (k <= Rabs (va - vb) -> r = Rmax va vb).
Proof.
  intros. pose proof (C40_smooth_min (neg a) (neg_hyb hb) hs seed pos) as M. cbv zeta in M.
  unfold r. rewrite C40_smooth_max_mirror.
  assert (E1 : neg a seed pos = - va) by reflexivity. assert (E2 : val (neg_hyb hb) seed pos = - vb) by (destruct hb; reflexivity).
  rewrite E1, E2 in M. fold k in M. set (m := (MinSmoothGen (neg a) (neg_hyb hb) hs seed pos : R)) in *.
  assert (Rmin (- va) (- vb) = - Rmax va vb) as X by (unfold Rmin, Rmax; destruct (Rle_dec (- va) (- vb)), (Rle_dec va vb); lra).
  rewrite X in M. replace (- va - - vb) with (- (va - vb)) in M by ring. rewrite Rabs_Ropp in M.
  destruct M as [M1 M2]. split; [lra|]. intros H. rewrite (M2 H). ring.
Qed.

(** ** C41 *)
Definition hermite (t : R) : R := t * t * (3 - 2 * t).
Definition quintic (t : R) : R := t * t * t * (10 - 15 * t + 6 * t * t).
Definition interp (ip : Interpolation) (t : R) : R := match ip with Linear => t | Hermite => hermite t | Quintic => quintic t end.
Definition clamp01 (t : R) : R := Rmax 0 (Rmin 1 t).
Lemma clamp01_range : forall t, 0 <= clamp01 t <= 1.
Proof. intros. unfold clamp01, Rmax, Rmin. destruct (Rle_dec 1 t); destruct (Rle_dec 0 _); lra. Qed.
Lemma clamp01_mono : forall t u, t <= u -> clamp01 t <= clamp01 u.
Proof. intros. unfold clamp01, Rmax, Rmin. destruct (Rle_dec 1 t), (Rle_dec 1 u); repeat destruct (Rle_dec 0 _); lra. Qed.
Lemma hermite_mono : forall t u, 0 <= t -> t <= u -> u <= 1 -> hermite t <= hermite u.
Proof. intros. unfold hermite. assert (0 <= (u - t) * (3 * (t + u) - 2 * (t * t + t * u + u * u))); [|nra]. apply Rmult_le_pos; nra. Qed.
Lemma quintic_mono : forall t u, 0 <= t -> t <= u -> u <= 1 -> quintic t <= quintic u.
Proof.
  intros t u Ht Htu Hu. unfold quintic.
  (* the derivative 30 t^2 (1-t)^2 is non-negative; as a sum of products of non-negative terms *)
  set (a := t). set (d := u - t). set (e := 1 - u).
  assert (Ha : 0 <= a) by (unfold a; lra). assert (Hd : 0 <= d) by (unfold d; lra). assert (He : 0 <= e) by (unfold e; lra).
  assert (E : u * u * u * (10 - 15 * u + 6 * u * u) - t * t * t * (10 - 15 * t + 6 * t * t) =
              d * (30 * a * a * e * e + 30 * a * d * e * e + 30 * a * a * d * e + 10 * d * d * e * e + 10 * a * a * d * d + 20 * a * d * d * e + 5 * d * d * d * e + 5 * a * d * d * d + d * d * d * d)).
  { unfold a, d, e. ring. }
  assert (0 <= d * (30 * a * a * e * e + 30 * a * d * e * e + 30 * a * a * d * e + 10 * d * d * e * e + 10 * a * a * d * d + 20 * a * d * d * e + 5 * d * d * d * e + 5 * a * d * d * d + d * d * d * d)).
  { apply Rmult_le_pos; [exact Hd|]. repeat apply Rplus_le_le_0_compat; repeat apply Rmult_le_pos; try assumption; lra. }
  rewrite <- E in H. unfold a. lra.
Qed.
Lemma interp_mono : forall ip t u, 0 <= t -> t <= u -> u <= 1 -> interp ip t <= interp ip u.
Proof. intros [] t u ? ? ?; cbn [interp]; [lra|apply hermite_mono; lra|apply quintic_mono; lra]. Qed.
Lemma interp_0 : forall ip, interp ip 0 = 0. Proof. intros []; cbn [interp]; unfold hermite, quintic; ring. Qed.
Lemma interp_1 : forall ip, interp ip 1 = 1. Proof. intros []; cbn [interp]; unfold hermite, quintic; ring. Qed.
Lemma interp_range : forall ip t, 0 <= t <= 1 -> 0 <= interp ip t <= 1.
Proof. intros ip t H. pose proof (interp_mono ip 0 t). pose proof (interp_mono ip t 1). rewrite interp_0, interp_1 in *. lra. Qed.

Lemma fade_eq : forall (a b : source) (hf hmin hmax : hyb) ip (seed : Z) (pos : list R),
  FadeGen a b hf hmin hmax ip seed pos =
  let lo := val hmin seed pos in let hi := val hmax seed pos in
  let t := if Reqb (hi - lo) 0 then 1 / 2 else interp ip (clamp01 ((val hf seed pos - lo) / (hi - lo))) in
  t * (b seed pos - a seed pos) + a seed pos.
Proof.
  intros. unfold FadeGen, Lerp, InterpHermite, InterpQuintic. rewrite !gsv_val. cbv zeta. sunf. rlit.
  destruct (Reqb _ 0).
  - field.
  - unfold interp. fold (clamp01 ((val hf seed pos - val hmin seed pos) / (val hmax seed pos - val hmin seed pos))).
    set (t := clamp01 _). destruct ip; auto; unfold hermite, quintic; ring.
Qed.
(** Fade returns A at fadeMin and below, B at fadeMax and above, a value between A and B always, moves
    monotonically from A to B, and the midpoint if the range is empty. *)
Theorem C41_fade : forall (a b : source) (hmin hmax : hyb) ip (seed : Z) (pos : list R),
  let va : R := a seed pos in let vb : R := b seed pos in
  let lo := val hmin seed pos in let hi := val hmax seed pos in
  let fade (f : R) : R := FadeGen a b (@HConst S scalar f) hmin hmax ip seed pos in
  (lo <> hi -> fade lo = va /\ fade hi = vb) /\
  (lo < hi -> (forall f, f <= lo -> fade f = va) /\ (forall f, hi <= f -> fade f = vb)) /\
  (forall f, Rmin va vb <= fade f <= Rmax va vb) /\
  (lo < hi -> forall f g, f <= g -> (va <= vb -> fade f <= fade g) /\ (vb <= va -> fade g <= fade f)) /\
  (lo = hi -> forall f, fade f = (va + vb) / 2).
Proof.
  intros. assert (E : forall f, fade f = let t := if Reqb (hi - lo) 0 then 1 / 2 else interp ip (clamp01 ((f - lo) / (hi - lo))) in t * (vb - va) + va).
  { intros f. unfold fade. rewrite fade_eq. reflexivity. }
  cbv zeta in E. clearbody fade. setoid_rewrite E. clear E fade.
  assert (Hne : lo <> hi -> Reqb (hi - lo) 0 = false) by (intros; apply Reqb_ne; lra).
  assert (C0 : forall x, x <= 0 -> clamp01 x = 0) by (intros x Hx; unfold clamp01; rewrite Rmin_right, Rmax_left; lra).
  assert (C1 : forall x, 1 <= x -> clamp01 x = 1) by (intros x Hx; unfold clamp01; rewrite Rmin_left, Rmax_right; lra).
  assert (D : lo < hi -> forall x y, x <= y -> (x - lo) / (hi - lo) <= (y - lo) / (hi - lo)).
  { intros H x y Hxy. unfold Rdiv. apply Rmult_le_compat_r; [left; apply Rinv_0_lt_compat; lra|lra]. }
  assert (D0 : lo <> hi -> (lo - lo) / (hi - lo) = 0) by (intros; field; lra).
  assert (D1 : lo <> hi -> (hi - lo) / (hi - lo) = 1) by (intros; field; lra).
  repeat split.
  - rewrite Hne, C0, interp_0 by (auto; rewrite D0; auto; lra). ring.
  - rewrite Hne, C1, interp_1 by (auto; rewrite D1; auto; lra). ring.
  - intros f Hf. rewrite Hne by lra. rewrite C0, interp_0; [ring|]. rewrite <- D0 by lra. auto.
  - intros f Hf. rewrite Hne by lra. rewrite C1, interp_1; [ring|]. rewrite <- D1 by lra. auto.
  - set (t := if Reqb _ 0 then _ else _). assert (Ht : 0 <= t <= 1) by (unfold t; destruct (Reqb _ 0); [lra|apply interp_range, clamp01_range]).
    unfold Rmin. destruct (Rle_dec va vb); nra.
  - set (t := if Reqb _ 0 then _ else _). assert (Ht : 0 <= t <= 1) by (unfold t; destruct (Reqb _ 0); [lra|apply interp_range, clamp01_range]).
    unfold Rmax. destruct (Rle_dec va vb); nra.
  - intros Hv. rewrite Hne by lra.
    assert (interp ip (clamp01 ((f - lo) / (hi - lo))) <= interp ip (clamp01 ((g - lo) / (hi - lo)))); [|nra].
    apply interp_mono; try apply clamp01_range. apply clamp01_mono. auto.
  - intros Hv. rewrite Hne by lra.
    assert (interp ip (clamp01 ((f - lo) / (hi - lo))) <= interp ip (clamp01 ((g - lo) / (hi - lo)))); [|nra].
    apply interp_mono; try apply clamp01_range. apply clamp01_mono. auto.
  - intros H f. assert (Reqb (hi - lo) 0 = true) as -> by (apply Reqb_eq; lra). lra.
Qed.

(** ** C42 *)
Lemma pow_loop_eq : forall n (v p : R), pow_loop (s:=S) (W:=scalar) n v p = p * v ^ n.
Proof. induction n; intros; cbn [pow_loop]; [cbn; ring|]. unfold slet. rewrite IHn. sunf. cbn [pow]. ring. Qed.
Theorem C42_pow_int_partial : forall (g : source) (n : nat) (seed : Z) (pos : list R), (2 <= n)%nat ->
  PowIntGen g (Z.of_nat n) seed pos = g seed pos ^ n.
Proof.
  intros. unfold PowIntGen, slet. rewrite pow_loop_eq. sunf.
  replace (Z.to_nat (Z.of_nat n - 2)) with (n - 2)%nat by lia.
  replace n with (2 + (n - 2))%nat at 2 by lia. rewrite pow_add. cbn [pow]. ring.
Qed.
(** exponents below 2 give the square *)
Theorem C42_pow_int_refuted : exists g : source, PowIntGen g 1 0%Z [0; 0] <> g 0%Z [0; 0] ^ 1 /\ PowIntGen g 0 0%Z [0; 0] <> g 0%Z [0; 0] ^ 0.
Proof.
  exists (fun _ _ => 3). unfold PowIntGen, slet. cbn [Z.to_nat Z.sub pow_loop]. sunf. cbn. split; lra.
Qed.

(** ** C43 *)
Theorem C43_remap : forall (g : source) (hfl hfh htl hth : hyb) (seed : Z) (pos : list R),
  let fl := val hfl seed pos in let fh := val hfh seed pos in let tl := val htl seed pos in let th := val hth seed pos in
  let v : R := g seed pos in
  let remap (c : bool) : R := RemapGen g hfl hfh htl hth c seed pos in
  fl <> fh ->
  (v = fl -> remap false = tl) /\ (v = fh -> remap false = th) /\
  (forall t, v = fl + t * (fh - fl) -> remap false = tl + t * (th - tl)) /\
  (tl <= th -> tl <= remap true <= th) /\
  (tl <= th -> tl <= remap false <= th -> remap true = remap false).
Proof.
  intros. assert (E : remap false = tl + (v - fl) / (fh - fl) * (th - tl)).
  { unfold remap, RemapGen. rewrite !gsv_val. sunf. reflexivity. }
  assert (E' : remap true = Rmin (Rmax (remap false) tl) th).
  { rewrite E. unfold remap, RemapGen. rewrite !gsv_val. sunf. reflexivity. }
  clearbody remap.
  repeat split; intros.
  - rewrite E, H0. field. lra.
  - rewrite E, H0. field. lra.
  - rewrite E, H0. field. lra.
  - rewrite E'. pose proof (Rmax_r (remap false) tl). apply Rmin_glb; lra.
  - rewrite E'. apply Rmin_r.
  - rewrite E'. rewrite Rmax_left, Rmin_left; lra.
Qed.
(** With an inverted output range, clamping returns toMax whatever the source: *)
Theorem C43_inverted_clamp_refuted : forall (g : source) (seed : Z) (pos : list R),
  RemapGen g (@HConst S scalar 0) (@HConst S scalar 1) (@HConst S scalar 1) (@HConst S scalar 0) true seed pos = 0.
Proof.
  intros. unfold RemapGen. rewrite !gsv_val. cbn [val]. sunf. apply Rmin_right.
  match goal with |- _ <= Rmax ?a ?b => pose proof (Rmax_r a b) end. lra.
Qed.

(** ** C44 *)
(** the smoothed rounding of u: [k] = 1 + 1/smoothness *)
Definition soft (k u : R) : R :=
  let r := IZR (Rnear u) in
  r + (if Rltb (r - u) 0 then 1/2 - Rmin ((1/2 - Rabs (r - u)) * k) (1/2) else Rmin ((1/2 - Rabs (r - u)) * k) (1/2) - 1/2).
Lemma soft_cases : forall k u, 1 <= k -> let r := IZR (Rnear u) in
  (r <= u /\ r <= soft k u <= u /\ soft k u = r + 1/2 - Rmin ((1/2 - (u - r)) * k) (1/2)) \/
  (u <= r /\ u <= soft k u <= r /\ soft k u = r - 1/2 + Rmin ((1/2 - (r - u)) * k) (1/2)).
Proof.
  intros k u Hk r. pose proof (Rnear_spec u) as N. fold r in N. unfold soft. fold r.
  destruct (Rltb (r - u) 0) eqn:E.
  - apply Rltb_lt in E. left. rewrite Rabs_left by lra. replace (- (r - u)) with (u - r) by ring.
    assert (1/2 - (u - r) <= (1/2 - (u - r)) * k) by nra.
    unfold Rmin. destruct (Rle_dec _ _); repeat split; lra.
  - apply Rltb_ge in E. right. rewrite Rabs_right by lra.
    assert (1/2 - (r - u) <= (1/2 - (r - u)) * k) by nra.
    unfold Rmin. destruct (Rle_dec _ _); repeat split; lra.
Qed.
Lemma Rnear_mono : forall u v, u <= v -> (Rnear u <= Rnear v)%Z.
Proof.
  intros u v H. destruct (Z_le_gt_dec (Rnear u) (Rnear v)) as [|G]; auto.
  pose proof (Rnear_spec u). pose proof (Rnear_spec v).
  assert (IZR (Rnear v + 1) <= IZR (Rnear u)) by (apply IZR_le; lia). rewrite plus_IZR in *.
  assert (u = v) by lra. subst. lia.
Qed.
Lemma soft_mono : forall k u v, 1 <= k -> u <= v -> soft k u <= soft k v.
Proof.
  intros k u v Hk H. pose proof (Rnear_mono u v H) as M.
  pose proof (soft_cases k u Hk) as A. pose proof (soft_cases k v Hk) as B. cbv zeta in A, B.
  pose proof (Rnear_spec u). pose proof (Rnear_spec v).
  destruct (Z.eq_dec (Rnear u) (Rnear v)) as [E|E].
  - rewrite <- E in B. set (r := IZR (Rnear u)) in *.
    destruct A as [(A1 & A2 & A3)|(A1 & A2 & A3)], B as [(B1 & B2 & B3)|(B1 & B2 & B3)]; try lra.
    + rewrite A3, B3. assert ((1/2 - (v - r)) * k <= (1/2 - (u - r)) * k) by nra.
      pose proof (Rle_min_compat_r _ _ (1/2) H2). lra.
    + rewrite A3, B3. assert ((1/2 - (r - u)) * k <= (1/2 - (r - v)) * k) by nra.
      pose proof (Rle_min_compat_r _ _ (1/2) H2). lra.
  - assert (IZR (Rnear u + 1) <= IZR (Rnear v)) by (apply IZR_le; lia). rewrite plus_IZR in *. lra.
Qed.
(** A Terrace configured through its setters. *)
Definition terraced (steps smoothness : R) : terrace S scalar :=
  terrace_of (SetSmoothness (SetStepCount (terrace_default (s:=S)) steps) smoothness).
Lemma terrace_eq : forall (g : source) n s (seed : Z) (pos : list R),
  TerraceGen g (terraced n s) seed pos = (if Reqb s 0 then IZR (Rnear (g seed pos * n)) else soft (1 + 1 / s) (g seed pos * n)) * (1 / n).
Proof.
  intros. unfold TerraceGen, terraced, terrace_of, SetSmoothness, SetStepCount, terrace_diff.
  cbn [tSmoothness tSmoothnessRecip tStepCount tStepCountRecip tcSmoothness tcSmoothnessRecip tcStepCount tcStepCountRecip].
  unfold soft. sunf. rlit. destruct (Reqb s 0); cbn [negb]; [reflexivity|].
  replace (1 / 2) with (/ 2) by lra. reflexivity.
Qed.
(** A smoothness given by a node is used at each position like the constant of that value. *)
Theorem C44_smoothness_source : forall (g sm : source) n (seed : Z) (pos : list R) k,
  TerraceGen g {| tSmoothness := HSrc sm; tSmoothnessRecip := k; tStepCount := n; tStepCountRecip := 1 / n |} seed pos =
  TerraceGen g (terraced n (sm seed pos)) seed pos.
Proof.
  intros. rewrite terrace_eq. unfold TerraceGen, terrace_diff. cbn [tSmoothness tSmoothnessRecip tStepCount tStepCountRecip].
  unfold soft. sunf. rlit. destruct (Reqb _ 0); cbn [negb]; [reflexivity|].
  replace (1 / 2) with (/ 2) by lra. replace (1 / sm seed pos) with (/ sm seed pos) by (unfold Rdiv; ring). reflexivity.
Qed.
(** Zero smoothness: the nearest multiple of 1/n. *)
Theorem C44_steps : forall (g : source) n (seed : Z) (pos : list R), 0 < n ->
  exists k : Z, TerraceGen g (terraced n 0) seed pos = IZR k / n /\ Rabs (TerraceGen g (terraced n 0) seed pos - g seed pos) <= 1 / (2 * n).
Proof.
  intros g n seed pos Hn. exists (Rnear (g seed pos * n)). rewrite terrace_eq.
  assert (Reqb 0 0 = true) as -> by (apply Reqb_eq; reflexivity).
  set (v := (g seed pos : R)). pose proof (Rnear_spec (v * n)) as N. set (r := IZR (Rnear (v * n))) in *.
  split; [toR; field; lra|].
  replace (r * (1 / n) - v) with ((r - v * n) * / n) by (field; lra).
  rewrite Rabs_mult, (Rabs_right (/ n)) by (left; apply Rinv_0_lt_compat; lra).
  replace (1 / (2 * n)) with (1/2 * / n) by (field; lra).
  apply Rmult_le_compat_r; [left; apply Rinv_0_lt_compat; lra|]. apply Rabs_le. lra.
Qed.
(** Positive smoothness: the result lies between the source and its nearest multiple of 1/n, hence at most
    half a step from the source. *)
Theorem C44_smooth : forall (g : source) n s (seed : Z) (pos : list R), 0 < n -> 0 < s ->
  let v : R := g seed pos in let m := IZR (Rnear (v * n)) / n in
  let r : R := TerraceGen g (terraced n s) seed pos in
  Rmin v m <= r <= Rmax v m /\ Rabs (r - v) <= 1 / (2 * n).
Proof.
  intros g n s seed pos Hn Hs v m r. assert (E : r = soft (1 + 1 / s) (v * n) * (1 / n)).
  { unfold r. rewrite terrace_eq. assert (Reqb s 0 = false) as -> by (apply Reqb_ne; lra). reflexivity. }
  assert (Hk : 1 <= 1 + 1 / s) by (pose proof (Rinv_0_lt_compat s Hs); unfold Rdiv; lra).
  pose proof (soft_cases _ (v * n) Hk) as C. cbv zeta in C. pose proof (Rnear_spec (v * n)) as N.
  set (q := soft (1 + 1 / s) (v * n)) in *. set (k := IZR (Rnear (v * n))) in *.
  assert (Hi : 0 < / n) by (apply Rinv_0_lt_compat; lra).
  assert (Ev : v = v * n * / n) by (field; lra). assert (Er : r = q * / n) by (rewrite E; field; lra).
  assert (Em : m = k * / n) by reflexivity. clearbody m r.
  split.
  - unfold Rmin, Rmax. destruct C as [(C1 & C2 & _)|(C1 & C2 & _)]; destruct (Rle_dec v m); rewrite Em, Er in *; try rewrite Ev at 1; nra.
  - replace (r - v) with ((q - v * n) * / n) by (rewrite Er; field; lra).
    rewrite Rabs_mult, (Rabs_right (/ n)) by lra.
    replace (1 / (2 * n)) with (1/2 * / n) by (field; lra).
    apply Rmult_le_compat_r; [lra|]. apply Rabs_le. destruct C as [(C1 & C2 & _)|(C1 & C2 & _)]; lra.
Qed.
Theorem C44_monotone : forall (g g' : source) n s (seed seed' : Z) (pos pos' : list R), 0 < n -> 0 <= s ->
  g seed pos <= g' seed' pos' -> TerraceGen g (terraced n s) seed pos <= TerraceGen g' (terraced n s) seed' pos'.
Proof.
  intros g g' n s seed seed' pos pos' Hn Hs H. rewrite !terrace_eq.
  assert (Hi : 0 < 1 / n) by (unfold Rdiv; rewrite Rmult_1_l; apply Rinv_0_lt_compat; lra).
  assert (Hm : g seed pos * n <= g' seed' pos' * n) by nra.
  apply Rmult_le_compat_r; [lra|]. destruct (Reqb s 0) eqn:E.
  - apply IZR_le, Rnear_mono, Hm.
  - apply Reqb_ne in E. assert (0 < s) by lra.
    apply soft_mono; [|exact Hm]. pose proof (Rinv_0_lt_compat s H0). unfold Rdiv. lra.
Qed.

(** ** C45 (ping-pong) *)
(** the triangle wave of period 2: the distance of t to the nearest even number *)
Theorem C45_ping_pong : forall (g : source) (h : hyb) (seed : Z) (pos : list R),
  let t := g seed pos * val h seed pos in let r : R := PingPongGen g h seed pos in
  0 <= r <= 1 /\ exists k : Z, r = Rabs (t - 2 * IZR k).
Proof.
  intros g h seed pos t. unfold PingPongGen, PingPong. rewrite gsv_val. sunf. rlit. fold t.
  pose proof (Rfloor_spec (t * / 2)) as N. set (f := Rfloor (t * / 2)) in *.
  destruct (Rltb (t - IZR f * 2) 1) eqn:E; [apply Rltb_lt in E|apply Rltb_ge in E].
  - split; [lra|]. exists f. rewrite Rabs_right; lra.
  - split; [lra|]. exists (f + 1)%Z. rewrite plus_IZR, Rabs_left1; lra.
Qed.

(** ** C50 *)
Lemma pack_grey : forall b, (0 <= b < 256)%Z ->
  Z.lor (Z.lor (Z.lor (s32 (255 * 2^24)) b) (z_shl 8 b)) (z_shl 16 b) = s32 (0xFF000000 + b * 0x010101).
Proof.
  assert (forallb (fun b => Z.eqb (Z.lor (Z.lor (Z.lor (s32 (255 * 2^24)) b) (z_shl 8 b)) (z_shl 16 b)) (s32 (0xFF000000 + b * 0x010101)))
    (map Z.of_nat (seq 0 256)) = true) as H by (vm_compute; reflexivity).
  intros b Hb. rewrite forallb_forall in H. apply Z.eqb_eq, H, in_map_iff. exists (Z.to_nat b).
  split; [rewrite Z2Nat.id; lia|apply in_seq]. change (0 + 256)%nat with (Z.to_nat 256). lia.
Qed.
(** the byte for a value: clamped to [lo, hi], mapped to [0, 255], nearest integer *)
Definition grey (lo hi v : R) : Z := Rnear ((Rmax (Rmin v hi) lo - lo) * (255 / (hi - lo))).
Theorem C50_rgba8 : forall (g : source) lo hi (seed : Z) (pos : list R), lo < hi ->
  let b := grey lo hi (g seed pos) in
  (0 <= b <= 255)%Z /\
  (* alpha 255, red = green = blue = b *)
  ConvertRGBA8Gen g lo hi seed pos = s_ofbits (s:=S) (s32 (0xFF000000 + b * 0x010000 + b * 0x0100 + b)).
Proof.
  intros g lo hi seed pos H b.
  assert (Hb : (0 <= b <= 255)%Z).
  { unfold b, grey. set (v := (g seed pos : R)). set (c := Rmax (Rmin v hi) lo).
    assert (lo <= c <= hi) by (unfold c; split; [apply Rmax_r|apply Rmax_lub; [apply Rmin_r|lra]]).
    assert (0 <= (c - lo) * (255 / (hi - lo)) <= 255).
    { assert (0 < / (hi - lo)) by (apply Rinv_0_lt_compat; lra). unfold Rdiv.
      split; [repeat apply Rmult_le_pos; lra|]. apply Rle_trans with ((hi - lo) * (255 * / (hi - lo))); [nra|right; field; lra]. }
    pose proof (Rnear_mono 0 ((c - lo) * (255 / (hi - lo)))) as X. pose proof (Rnear_mono ((c - lo) * (255 / (hi - lo))) 255) as Y.
    rewrite (Rnear_IZR 0) in X. rewrite (Rnear_IZR 255) in Y. split; [apply X|apply Y]; lra. }
  split; [exact Hb|].
  unfold ConvertRGBA8Gen. sunf. rlit. fold (grey lo hi (g seed pos)). fold b. rewrite pack_grey by lia. do 2 f_equal. ring.
Qed.
Theorem C50_monotone : forall lo hi v w, lo < hi -> v <= w -> (grey lo hi v <= grey lo hi w)%Z /\
  (v <= lo -> grey lo hi v = 0%Z) /\ (hi <= v -> grey lo hi v = 255%Z).
Proof.
  intros lo hi v w H Hvw. unfold grey. assert (0 < / (hi - lo)) by (apply Rinv_0_lt_compat; lra). repeat split.
  - apply Rnear_mono, Rmult_le_compat_r; [unfold Rdiv; lra|]. unfold Rmax, Rmin. repeat destruct (Rle_dec _ _); lra.
  - intros. rewrite Rmin_left, Rmax_right by lra. replace ((lo - lo) * _) with (IZR 0) by (cbn; ring). apply Rnear_IZR.
  - intros. rewrite Rmin_right, Rmax_left by lra. replace ((hi - lo) * _) with (IZR 255) by (field; lra). apply Rnear_IZR.
Qed.
End Blend.
Print Assumptions C39_blends.
Print Assumptions C39_constant_operand.
Print Assumptions C40_smooth_min.
Print Assumptions C40_symmetric.
Print Assumptions C40_smooth_max_mirror.
Print Assumptions C40_smooth_max.
Print Assumptions C41_fade.
Print Assumptions C42_pow_int_partial.
Print Assumptions C42_pow_int_refuted.
Print Assumptions C43_remap.
Print Assumptions C43_inverted_clamp_refuted.
Print Assumptions C44_smoothness_source.
Print Assumptions C44_steps.
Print Assumptions C44_smooth.
Print Assumptions C44_monotone.
Print Assumptions C45_ping_pong.
Print Assumptions C50_rgba8.
Print Assumptions C50_monotone.
