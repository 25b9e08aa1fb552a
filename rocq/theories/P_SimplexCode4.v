(** The 4D nodes with the float constants of the code stay close to the exact construction (as P_SimplexCode
    for 2D): output range (C67). *)
From Coq Require Import Reals ZArith List Bool Lia Lra Psatz.
From Verif Require Import Prelude Simd_Model Utils_Model Nodes_Model Setters_Model Simd_R Bits P_Hash P_Grad P_Blend P_Lattice Lattice Simplex_Model Simplex_Spec Simplex_Geom Simplex_2D P_Simplex
  Simplex_3D P_Simplex3 Simplex_Cells P_SimplexCode P_SimplexRange.
Import ListNotations.
Open Scope R_scope.

Lemma sqrt5_lo : 22360679774 / 10000000000 < sqrt 5.
Proof. apply Rsqr_incrst_0; [|lra|apply sqrt_pos]. unfold Rsqr. rewrite sqrt_sqrt by lra. lra. Qed.
Lemma sqrt5_hi : sqrt 5 < 22360679775 / 10000000000.
Proof. apply Rsqr_incrst_0; [|apply sqrt_pos|lra]. unfold Rsqr. rewrite sqrt_sqrt by lra. lra. Qed.
Lemma unskew4_bounds : -1381966013 / 10000000000 < unskew 4 < -1381966011 / 10000000000.
Proof.
  pose proof sqrt5_lo. pose proof sqrt5_hi. cbn [unskew]. set (t := sqrt 5) in *.
  assert (E : - (1) / (t + 5) * (t + 5) = -1) by (field; lra). set (u := - (1) / (t + 5)) in *. clearbody u t.
  split; nra.
Qed.
Lemma dot4_lip : forall h x y z w B, Rabs x <= B -> Rabs y <= B -> Rabs z <= B -> Rabs w <= B -> Rabs (dot4 (perlin4_grad h) x y z w) <= 4 * B.
Proof. intros h x y z w B Hx Hy Hz Hw. eapply Rle_trans; [apply perlin4_bound|]. lra. Qed.
Lemma dot4_minus : forall g x y z w x' y' z' w', dot4 g x' y' z' w' - dot4 g x y z w = dot4 g (x' - x) (y' - y) (z' - z) (w' - w).
Proof. intros [[[a b] c] d] x y z w x' y' z' w'. unfold dot4. ring. Qed.

Lemma abs5 : forall a b c d e D, Rabs a <= D -> Rabs b <= D -> Rabs c <= D -> Rabs d <= D -> Rabs e <= D -> Rabs (a + b + c + d + e) <= 5 * D.
Proof.
  intros a b c d e D Ha Hb Hc Hd He. pose proof (Rabs_triang a b). pose proof (Rabs_triang (a + b) c). pose proof (Rabs_triang (a + b + c) d). pose proof (Rabs_triang (a + b + c + d) e). lra.
Qed.

Lemma Rabs_def2_le : forall x a, Rabs x <= a -> - a <= x <= a.
Proof. intros x a. unfold Rabs. destruct (Rcase_abs x); lra. Qed.
Section C4.
Variable inf : R.
Variable bits : R -> Z.
Notation S_ := (Rops inf bits).
(** the code's visit of a vertex, with the falloff scaled by [q]^4: right vertex, offset off by at most e1, falloff root off by at most e2 *)
Definition near_visit4 (q r2 e1 e2 : R) (x y z w : R) (c : contrib S_ scalar) (v : list Z) : Prop :=
  exists a b i j (ox oy oz ow x' y' z' w' f : R), v = [a; b; i; j] /\ cp c = primed PrimesLookup v /\ offset (unskew 4) [x; y; z; w] v = [ox; oy; oz; ow] /\
    (cd c : list R) = [x'; y'; z'; w'] /\ Rabs ox <= 3 /\ Rabs oy <= 3 /\ Rabs oz <= 3 /\ Rabs ow <= 3 /\
    Rabs (x' - ox) <= e1 /\ Rabs (y' - oy) <= e1 /\ Rabs (z' - oz) <= e1 /\ Rabs (w' - ow) <= e1 /\
    (cf c : R) = (q * f) ^ 4 /\ Rabs (f - Rmax 0 (r2 - (ox * ox + oy * oy + oz * oz + ow * ow))) <= e2.
Definition D1 : R := 6 / 100000000.
Definition D2 : R := 2 / 1000000.
Definition DT (r2 : R) : R := 4 * (r2 + 1/1000) ^ 3 * (2 / 1000000) * (4 * (3 + 6/100000000)) + 3 / 10000000.
Lemma near_term4 : forall ft seed q r2 x y z w c v, 0 < r2 <= 4/5 -> near_visit4 q r2 D1 D2 x y z w c v ->
  Rabs (fmul (s:=S_) (W:=scalar) (cf c) (ramp ft seed c) - q ^ 4 * bump r2 (unskew 4) seed [x; y; z; w] v) <= q ^ 4 * DT r2.
Proof.
  intros ft seed q r2 x y z w c v Hr (a & b & i & j & ox & oy & oz & ow & x' & y' & z' & w' & f & -> & Hp & Ho & Hd & Bx & By & Bz & Bw & Hx & Hy & Hz & Hw & Hf & He).
  assert (Rr : (ramp ft seed c : R) = dot4 (perlin4_grad (hash31 seed [a; b; i; j])) x' y' z' w').
  { unfold ramp. change (cd c) with (cd c : list R). rewrite Hd, Hp. apply C32_perlin4. }
  unfold bump, falloff, sqlen. rewrite Ho. cbn [map perlin_corner]. rewrite !sum_cons, sum_nil, Rplus_0_r, <- !Rplus_assoc.
  set (g := perlin4_grad (hash31 seed [a; b; i; j])) in *. set (F := Rmax 0 (r2 - (ox * ox + oy * oy + oz * oz + ow * ow))) in *.
  assert (HF : 0 <= F <= r2) by (unfold F, Rmax; destruct (Rle_dec _ _); nra).
  match goal with |- Rabs ?e <= _ => replace e with (q ^ 4 * ((f ^ 4 - F ^ 4) * dot4 g x' y' z' w' + F ^ 4 * (dot4 g x' y' z' w' - dot4 g ox oy oz ow))) end.
  2: { rewrite <- Rr. transitivity ((q * f) ^ 4 * (ramp ft seed c : R) - q ^ 4 * (F ^ 4 * dot4 g ox oy oz ow)); [ring|]. rewrite <- Hf. reflexivity. }
  assert (Q : 0 <= q ^ 4) by (replace (q ^ 4) with ((q * q) * (q * q)) by ring; nra).
  rewrite Rabs_mult, (Rabs_right (q ^ 4)) by lra. apply Rmult_le_compat_l; [exact Q|].
  unfold D1, D2, DT in *.
  assert (A1 : Rabs (f ^ 4 - F ^ 4) <= 4 * (r2 + 1/1000) ^ 3 * (2 / 1000000)).
  { apply pow4_close; auto. rewrite Rabs_right; lra. revert He. unfold Rabs. repeat destruct (Rcase_abs _); lra. }
  assert (A2 : Rabs (dot4 g x' y' z' w') <= 4 * (3 + 6/100000000)).
  { unfold g. apply dot4_lip; [revert Bx Hx|revert By Hy|revert Bz Hz|revert Bw Hw]; unfold Rabs; repeat destruct (Rcase_abs _); lra. }
  assert (A3 : Rabs (dot4 g x' y' z' w' - dot4 g ox oy oz ow) <= 4 * (6/100000000)).
  { rewrite dot4_minus. unfold g. apply dot4_lip; auto. }
  assert (A4 : 0 <= F ^ 4 <= 1) by (split; [apply pow_le; lra|]; replace (F ^ 4) with ((F * F) * (F * F)) by ring; assert (0 <= F * F <= 1) by nra; nra).
  eapply Rle_trans; [apply Rabs_triang|]. rewrite !Rabs_mult, (Rabs_right (F ^ 4)) by lra.
  pose proof (Rabs_pos (f ^ 4 - F ^ 4)). pose proof (Rabs_pos (dot4 g x' y' z' w')). pose proof (Rabs_pos (dot4 g x' y' z' w' - dot4 g ox oy oz ow)).
  assert (Rabs (f ^ 4 - F ^ 4) * Rabs (dot4 g x' y' z' w') <= 4 * (r2 + 1/1000) ^ 3 * (2 / 1000000) * (4 * (3 + 6/100000000))) by (apply Rmult_le_compat; auto).
  assert (F ^ 4 * Rabs (dot4 g x' y' z' w' - dot4 g ox oy oz ow) <= 1 * (4 * (6/100000000))) by (apply Rmult_le_compat; lra).
  lra.
Qed.
Lemma root_close4 : forall r2 r2' ox oy oz ow x' y' z' w' (g' : R), Rabs ox <= 2 -> Rabs oy <= 2 -> Rabs oz <= 2 -> Rabs ow <= 2 ->
  Rabs (x' - ox) <= D1 -> Rabs (y' - oy) <= D1 -> Rabs (z' - oz) <= D1 -> Rabs (w' - ow) <= D1 ->
  Rabs (r2' - r2) <= 3 / 100000000 -> g' = r2' - (x' * x' + y' * y' + z' * z' + w' * w') -> Rabs (g' - (r2 - (ox * ox + oy * oy + oz * oz + ow * ow))) <= 1 / 1000000.
Proof.
  intros r2 r2' ox oy oz ow x' y' z' w' g' Bx By Bz Bw Hx Hy Hz Hw Hr ->. unfold D1 in *.
  pose proof (sq_close _ _ _ _ Hx Bx) as A. pose proof (sq_close _ _ _ _ Hy By) as B. pose proof (sq_close _ _ _ _ Hz Bz) as C. pose proof (sq_close _ _ _ _ Hw Bw) as D.
  replace (r2' - (x' * x' + y' * y' + z' * z' + w' * w') - (r2 - (ox * ox + oy * oy + oz * oz + ow * ow)))
    with ((r2' - r2) - ((x' * x' - ox * ox) + (y' * y' - oy * oy) + (z' * z' - oz * oz) + (w' * w' - ow * ow))) by ring.
  revert Hr A B C D. generalize (r2' - r2) (x' * x' - ox * ox) (y' * y' - oy * oy) (z' * z' - oz * oz) (w' * w' - ow * ow). intros r a b c d Hr A B C D.
  apply Rabs_le. revert Hr A B C D. unfold Rabs. repeat destruct (Rcase_abs _); lra.
Qed.
Lemma sum5 : forall ft seed r2 x y z w (cs : list (contrib S_ scalar)) vs, 0 < r2 <= 4/5 -> Forall2 (near_visit4 1 r2 D1 D2 x y z w) cs vs -> length cs = 5%nat ->
  Rabs (value4 ft seed cs - bumps r2 (unskew 4) seed [x; y; z; w] vs) <= 5 * DT r2.
Proof.
  intros ft seed r2 x y z w cs vs Hr H Hn.
  assert (T : forall c v, near_visit4 1 r2 D1 D2 x y z w c v -> Rabs (fmul (s:=S_) (W:=scalar) (cf c) (ramp ft seed c) - bump r2 (unskew 4) seed [x; y; z; w] v) <= DT r2).
  { intros c v Hc. pose proof (near_term4 ft seed 1 r2 x y z w c v Hr Hc) as T. rewrite pow1, !Rmult_1_l in T. exact T. }
  destruct H as [|c0 v0 cs vs H0 H]; [discriminate|]. destruct H as [|c1 v1 cs vs H1 H]; [discriminate|]. destruct H as [|c2 v2 cs vs H2 H]; [discriminate|]. destruct H as [|c3 v3 cs vs H3 H]; [discriminate|].
  destruct H as [|c4 v4 cs vs H4 H]; [discriminate|]. destruct H; [|discriminate]. apply T in H0, H1, H2, H3, H4. clear T.
  cbn [value4]. unfold bumps. cbn [map]. rewrite !sum_cons, sum_nil.
  match goal with |- Rabs (?a - ?b) <= _ => replace (a - b) with
    ((fmul (s:=S_) (W:=scalar) (cf c0) (ramp ft seed c0) - bump r2 (unskew 4) seed [x; y; z; w] v0) + (fmul (s:=S_) (W:=scalar) (cf c1) (ramp ft seed c1) - bump r2 (unskew 4) seed [x; y; z; w] v1) +
     (fmul (s:=S_) (W:=scalar) (cf c2) (ramp ft seed c2) - bump r2 (unskew 4) seed [x; y; z; w] v2) + (fmul (s:=S_) (W:=scalar) (cf c3) (ramp ft seed c3) - bump r2 (unskew 4) seed [x; y; z; w] v3) +
     (fmul (s:=S_) (W:=scalar) (cf c4) (ramp ft seed c4) - bump r2 (unskew 4) seed [x; y; z; w] v4)) by (sunf; toR; ring) end.
  apply abs5; assumption.
Qed.
(** one corner of the simplex around the position *)
Lemma corner_near : forall r n m l o (x y z w : R) (bx by_ bz bw : bool) (j : Z) (ku ju : R), 0 <= x - IZR n < 1 -> 0 <= y - IZR m < 1 -> 0 <= z - IZR l < 1 -> 0 <= w - IZR o < 1 ->
  (b2z bx + b2z by_ + b2z bz + b2z bw = j)%Z -> Rabs (ku - unskew 4) <= 8 / 1000000000 -> Rabs (ju - unskew 4 * IZR j) <= 25 / 1000000000 ->
  let s := ku * (x - IZR n + (y - IZR m) + (z - IZR l) + (w - IZR o)) in
  let X := x - IZR n + s - IZR (b2z bx) - ju in let Y := y - IZR m + s - IZR (b2z by_) - ju in let Z := z - IZR l + s - IZR (b2z bz) - ju in let W := w - IZR o + s - IZR (b2z bw) - ju in
  forall (g f : R), Rabs (g - (r - (X * X + Y * Y + Z * Z + W * W))) <= 1 / 1000000 -> f = Rmax 0 g ^ 4 ->
  near_visit4 1 r D1 D2 x y z w
    (@mkc S_ scalar [z_mul (n + b2z bx) PrimeX; z_mul (m + b2z by_) PrimeY; z_mul (l + b2z bz) PrimeZ; z_mul (o + b2z bw) PrimeW] [X; Y; Z; W] f)
    [n + b2z bx; m + b2z by_; l + b2z bz; o + b2z bw]%Z.
Proof.
  intros r n m l o x y z w bx by_ bz bw j ku ju Hx Hy Hz Hw Hj Hk Hu s X Y Z W g f Hg Hf.
  set (sx := unskew 4 * (x - IZR (n + b2z bx) + (y - IZR (m + b2z by_)) + (z - IZR (l + b2z bz)) + (w - IZR (o + b2z bw)))).
  assert (C : forall b, IZR (b2z b) = 0 \/ IZR (b2z b) = 1) by (intros []; [right|left]; reflexivity).
  assert (SB : -4 <= x - IZR (n + b2z bx) + (y - IZR (m + b2z by_)) + (z - IZR (l + b2z bz)) + (w - IZR (o + b2z bw)) <= 4).
  { rewrite !plus_IZR. destruct (C bx) as [->| ->], (C by_) as [->| ->], (C bz) as [->| ->], (C bw) as [->| ->]; lra. }
  pose proof unskew4_bounds as UB.
  assert (SX : -6/10 <= sx <= 6/10) by (unfold sx; revert SB; generalize (x - IZR (n + b2z bx) + (y - IZR (m + b2z by_)) + (z - IZR (l + b2z bz)) + (w - IZR (o + b2z bw))); intros; nra).
  assert (DS : Rabs (s - ju - sx) <= D1).
  { replace (s - ju - sx) with ((ku - unskew 4) * (x - IZR n + (y - IZR m) + (z - IZR l) + (w - IZR o)) - (ju - unskew 4 * IZR j)).
    2: { unfold s, sx. rewrite <- Hj, !plus_IZR. generalize (unskew 4). intros. ring. }
    apply Rabs_le. assert (B1 := Rabs_def2_le _ _ Hk). assert (B2 := Rabs_def2_le _ _ Hu).
    pose proof (prod_small (ku - unskew 4) (x - IZR n + (y - IZR m) + (z - IZR l) + (w - IZR o)) 4 (8 / 1000000000) ltac:(lra) ltac:(lra)). unfold D1. lra. }
  exists (n + b2z bx)%Z, (m + b2z by_)%Z, (l + b2z bz)%Z, (o + b2z bw)%Z, (x - IZR (n + b2z bx) + sx), (y - IZR (m + b2z by_) + sx), (z - IZR (l + b2z bz) + sx), (w - IZR (o + b2z bw) + sx), X, Y, Z, W, (Rmax 0 g).
  assert (EX : X - (x - IZR (n + b2z bx) + sx) = s - ju - sx) by (unfold X; rewrite plus_IZR; ring).
  assert (EY : Y - (y - IZR (m + b2z by_) + sx) = s - ju - sx) by (unfold Y; rewrite plus_IZR; ring).
  assert (EZ : Z - (z - IZR (l + b2z bz) + sx) = s - ju - sx) by (unfold Z; rewrite plus_IZR; ring).
  assert (EW : W - (w - IZR (o + b2z bw) + sx) = s - ju - sx) by (unfold W; rewrite plus_IZR; ring).
  assert (BB : forall t k b, 0 <= t - IZR k < 1 -> Rabs (t - IZR (k + b2z b) + sx) <= 2) by (intros t k b Ht; apply Rabs_le; rewrite plus_IZR; destruct (C b) as [->| ->]; lra).
  pose proof (BB x n bx Hx) as BX. pose proof (BB y m by_ Hy) as BY. pose proof (BB z l bz Hz) as BZ. pose proof (BB w o bw Hw) as BW. clear BB.
  rewrite EX, EY, EZ, EW. split; [reflexivity|]. split; [cbn [primed PrimesLookup cp]; reflexivity|]. split; [apply off4|]. split; [reflexivity|].
  split; [lra|]. split; [lra|]. split; [lra|]. split; [lra|]. split; [exact DS|]. split; [exact DS|]. split; [exact DS|]. split; [exact DS|].
  split; [cbn [cf]; rewrite Rmult_1_l; exact Hf|]. apply max0_close.
  rewrite <- EX in DS. pose proof DS as DY. rewrite EX, <- EY in DY. pose proof DY as DZ. rewrite EY, <- EZ in DZ. pose proof DZ as DW. rewrite EZ, <- EW in DW.
  pose proof (root_close4 r r _ _ _ _ X Y Z W _ BX BY BZ BW DS DY DZ DW ltac:(rewrite Rminus_diag_eq, Rabs_R0 by reflexivity; lra) eq_refl) as RC.
  revert Hg RC. match goal with |- Rabs (g - ?a) <= _ -> Rabs (_ - ?b) <= _ -> _ => generalize a b end. intros a b Hg RC. replace (g - b) with ((g - a) + (a - b)) by ring.
  eapply Rle_trans; [apply Rabs_triang|]. unfold D2. lra.
Qed.
Lemma near_conv : forall q r e1 e2 x y z w p p' (d d' : list R) (f : R) v v', near_visit4 q r e1 e2 x y z w (@mkc S_ scalar p d f) v -> p' = p -> d' = d -> v' = v ->
  near_visit4 q r e1 e2 x y z w (@mkc S_ scalar p' d' f) v'.
Proof. intros. subst. assumption. Qed.
Lemma litR : forall a k, (0 <= k)%Z -> @lit S_ a (- k) = IZR a / IZR (2 ^ k). Proof. intros. cbn [lit Rops]. rewrite pow2_neg by lia. reflexivity. Qed.
Definition kU4 : R := -9274217 / 67108864.
Lemma kU4_close : Rabs (kU4 - unskew 4) <= 8 / 1000000000. Proof. pose proof unskew4_bounds. apply Rabs_le. unfold kU4. lra. Qed.
Lemma shortcut4 : forall r X Y Z W (ku kf km u : R), 0 <= X < 1 -> 0 <= Y < 1 -> 0 <= Z < 1 -> 0 <= W < 1 -> 20 * u * u + 10 * u + 1 = 0 -> -14/100 <= u <= -13/100 ->
  Rabs (ku - u) <= 8 / 1000000000 -> Rabs (ku * kf - 2 / 5) <= 6 / 100000000 -> Rabs (km + 4 / 5) <= 3 / 100000000 ->
  forall ju, Rabs (ju - u * 4) <= 25 / 1000000000 ->
  let s := ku * (X + Y + Z + W) in
  let q a b c d := a * a + b * b + c * c + d * d in
  Rabs (r - q (X + s) (Y + s) (Z + s) (W + s) + (s * kf + km) - (r - q (X + s - 1 - ju) (Y + s - 1 - ju) (Z + s - 1 - ju) (W + s - 1 - ju))) <= 1 / 1000000.
Proof.
  intros r X Y Z W ku kf km u HX HY HZ HW E HU Hk Hf Hm ju Hj s q. unfold q, s. clear q s.
  apply Rabs_def2_le in Hk, Hf, Hm, Hj. set (S := X + Y + Z + W) in *. assert (HS : 0 <= S < 4) by (unfold S; lra).
  set (a := ku - u) in *. set (b := ku * kf - 2 / 5) in *. set (c := km + 4 / 5) in *. set (d := ju - u * 4) in *.
  replace (ku * S * kf) with ((b + 2/5) * S) by (unfold b; ring). replace km with (c - 4 / 5) by (unfold c; ring).
  replace ju with (d + u * 4) by (unfold d; ring). replace ku with (a + u) by (unfold a; ring). clearbody a b c d.
  match goal with |- Rabs ?e <= _ => replace e with (b * S + c - 2 * (1 + 4 * u) * (4 * a * S) - 2 * d * ((1 + 4 * u) * S - 4 * (1 + 4 * u)) - 8 * a * d * S + 4 * d * d - (8 / 5) * (S - 2) * (20 * u * u + 10 * u + 1)) end.
  2: { unfold S. field. }
  rewrite E, Rmult_0_r, Rminus_0_r. clear E.
  assert (V : 44/100 <= 1 + 4 * u <= 1/2) by lra. set (v := 1 + 4 * u) in *. clearbody v. clear u HU. apply Rabs_le.
  assert (B1 : -(24 / 100000000) <= b * S <= 24 / 100000000) by (pose proof (prod_small b S 4 (6/100000000) ltac:(lra) ltac:(lra)); lra).
  assert (B2 : -(128 / 1000000000) <= 4 * a * S <= 128 / 1000000000) by (pose proof (prod_small a S 4 (8/1000000000) ltac:(lra) ltac:(lra)); lra).
  assert (B3 : -(64 / 1000000000) <= v * (4 * a * S) <= 64 / 1000000000) by (pose proof (prod_small v (4 * a * S) (128 / 1000000000) (1/2) ltac:(lra) ltac:(lra)); lra).
  assert (B4 : -2 <= v * (S - 4) <= 2) by (pose proof (prod_small v (S - 4) 4 (1/2) ltac:(lra) ltac:(lra)); lra).
  assert (B5 : -(50 / 1000000000) <= d * (v * (S - 4)) <= 50 / 1000000000) by (pose proof (prod_small d (v * (S - 4)) 2 (25/1000000000) ltac:(lra) ltac:(lra)); lra).
  assert (B6 : -(1 / 1000000000) <= d * (4 * a * S) <= 1 / 1000000000) by (pose proof (prod_small d (4 * a * S) (128/1000000000) (25/1000000000) ltac:(lra) ltac:(lra)); lra).
  assert (B7 : -(1 / 1000000000) <= d * d <= 1 / 1000000000) by (pose proof (prod_small d d (25/1000000000) (25/1000000000) ltac:(lra) ltac:(lra)); lra).
  lra.
Qed.
Lemma sx4_code_visits : forall n m l o (x y z w : R), let X := x - IZR n in let Y := y - IZR m in let Z := z - IZR l in let W := w - IZR o in
  0 <= X < 1 -> 0 <= Y < 1 -> 0 <= Z < 1 -> 0 <= W < 1 ->
  Forall2 (near_visit4 1 kR06 D1 D2 x y z w)
    (simplex4_at (s:=S_) (W:=scalar) sx4k_code (z_mul n PrimeX) (z_mul m PrimeY) (z_mul l PrimeZ) (z_mul o PrimeW) X Y Z W)
    (sx4_vertices n m l o (Rleb Y X) (Rleb Z X) (Rleb W X) (Rleb Z Y) (Rleb W Y) (Rleb W Z)).
Proof.
  intros n m l o x y z w X Y Z W HX HY HZ HW. unfold simplex4_at, slet, sx4_vertices, sx4_corner. cbn [sx4k_code sx4_kSkew sx4_kU sx4_k2U sx4_k3U sx4_k4U1 sx4_kR sx4_kFall sx4_kM].
  change (-20)%Z with (- (20))%Z. change (-23)%Z with (- (23))%Z. change (-24)%Z with (- (24))%Z. change (-25)%Z with (- (25))%Z. change (-26)%Z with (- (26))%Z.
  rewrite !litR by lia. change (IZR (2 ^ 20)) with 1048576. change (IZR (2 ^ 23)) with 8388608. change (IZR (2 ^ 24)) with 16777216. change (IZR (2 ^ 25)) with 33554432. change (IZR (2 ^ 26)) with 67108864.
  fold kU4. fold kR06.
  rewrite !(shift_ge inf bits).
  pose proof (ranks (Rleb Y X) (Rleb Z X) (Rleb W X) (Rleb Z Y) (Rleb W Y) (Rleb W Z)) as RK.
  assert (TR : forall a b c : R, (Rleb b a = true -> Rleb c b = true -> Rleb c a = true) /\ (Rleb b a = false -> Rleb c b = false -> Rleb c a = false)) by (intros; unfold Rleb; repeat destruct (Rle_dec _ _); split; auto; lra).
  specialize (RK (proj1 (TR X Y Z)) (proj2 (TR X Y Z)) (proj1 (TR X Y W)) (proj2 (TR X Y W)) (proj1 (TR X Z W)) (proj2 (TR X Z W)) (proj1 (TR Y Z W)) (proj2 (TR Y Z W))). clear TR.
  revert RK. generalize (Rleb Y X) (Rleb Z X) (Rleb W X) (Rleb Z Y) (Rleb W Y) (Rleb W Z). intros xy xz xw yz yw zw.
  assert (RX : imasked_inc (W:=scalar) xw (imasked_inc (W:=scalar) xz (imasked_inc (W:=scalar) xy (iv (W:=scalar) 0))) = rk xy xz xw) by (destruct xy, xz, xw; reflexivity).
  assert (RY : imasked_inc (W:=scalar) yw (imasked_inc (W:=scalar) yz (imasked_inc (W:=scalar) (mnot (W:=scalar) xy) (iv (W:=scalar) 0))) = rk (negb xy) yz yw) by (destruct xy, yz, yw; reflexivity).
  assert (RZ : imasked_inc (W:=scalar) zw (imasked_inc (W:=scalar) (mnot (W:=scalar) yz) (imasked_inc (W:=scalar) (mnot (W:=scalar) xz) (iv (W:=scalar) 0))) = rk (negb xz) (negb yz) zw) by (destruct xz, yz, zw; reflexivity).
  assert (RW : imasked_inc (W:=scalar) (mnot (W:=scalar) zw) (imasked_inc (W:=scalar) (mnot (W:=scalar) yw) (imasked_inc (W:=scalar) (mnot (W:=scalar) xw) (iv (W:=scalar) 0))) = rk (negb xw) (negb yw) (negb zw)) by (destruct xw, yw, zw; reflexivity).
  rewrite RX, RY, RZ, RW. clear RX RY RZ RW. cbv zeta.
  generalize (rk xy xz xw) (rk (negb xy) yz yw) (rk (negb xz) (negb yz) zw) (rk (negb xw) (negb yw) (negb zw)). intros rx ry rz rw (K1 & K2 & K3). clear xy xz xw yz yw zw.
  assert (GT : forall a j, s32 j = j -> igt (W:=scalar) a (iv (W:=scalar) j) = (j <? a)%Z) by (intros a j Hj; sunf; rewrite Hj; apply Z.gtb_ltb).
  rewrite !(GT _ 2%Z eq_refl), !(GT _ 1%Z eq_refl), !(GT _ 0%Z eq_refl). clear GT.
  unfold prX, prY, prZ, prW. rewrite !(msub inf bits), !madd. unfold X, Y, Z, W in *. clear X Y Z W.
  assert (DS : fmul (s:=S_) (W:=scalar) (fv (s:=S_) (W:=scalar) kU4) (fadd (s:=S_) (W:=scalar) (fadd (s:=S_) (W:=scalar) (fadd (s:=S_) (W:=scalar) (x - IZR n) (y - IZR m)) (z - IZR l)) (w - IZR o)) = kU4 * (x - IZR n + (y - IZR m) + (z - IZR l) + (w - IZR o))) by reflexivity.
  rewrite DS. clear DS.
  assert (AD : forall a b, fadd (s:=S_) (W:=scalar) a b = (a : R) + b) by reflexivity.
  rewrite !AD. clear AD.
  assert (NM : forall a b c : R, fnmadd (s:=S_) (W:=scalar) a b c = c - a * b) by (intros; sunf; toR; ring).
  rewrite !NM. clear NM.
  pose proof unskew4_bounds as UB. pose proof kU4_close as UC.
  assert (C1 : Rabs (kU4 - unskew 4 * IZR 1) <= 25 / 1000000000) by (rewrite Rmult_1_r; lra).
  assert (C2 : Rabs (-9274217 / 33554432 - unskew 4 * IZR 2) <= 25 / 1000000000) by (apply Rabs_le; lra).
  assert (C3 : Rabs (-13911325 / 33554432 - unskew 4 * IZR 3) <= 25 / 1000000000) by (apply Rabs_le; lra).
  assert (C4 : Rabs ((7502999 / 16777216 - 1) - unskew 4 * IZR 4) <= 25 / 1000000000) by (apply Rabs_le; lra).
  assert (C0 : Rabs (0 - unskew 4 * IZR 0) <= 25 / 1000000000) by (rewrite Rmult_0_r, Rminus_0_r, Rabs_R0; lra).
  assert (ZR : forall a b : R, a = b -> Rabs (a - b) <= 1 / 1000000) by (intros a b ->; rewrite Rminus_diag_eq, Rabs_R0 by reflexivity; lra).
  repeat (apply Forall2_cons); try apply Forall2_nil.
  - eapply near_conv; [eapply (corner_near kR06 n m l o x y z w false false false false 0 kU4 0 HX HY HZ HW eq_refl UC C0); [|apply quart]| | |].
    + cbn [b2z]. apply ZR. sunf. toR. ring.
    + cbn [b2z]. rewrite !Z.add_0_r. reflexivity.
    + cbn [b2z]. repeat (apply (f_equal2 cons)); try reflexivity; sunf; toR; ring.
    + cbn [b2z]. rewrite !Z.add_0_r. reflexivity.
  - eapply (corner_near kR06 n m l o x y z w _ _ _ _ _ kU4 _ HX HY HZ HW K1 UC C1); [|apply quart]. apply ZR. sunf. toR. ring.
  - eapply (corner_near kR06 n m l o x y z w _ _ _ _ _ kU4 _ HX HY HZ HW K2 UC C2); [|apply quart]. apply ZR. sunf. toR. ring.
  - eapply (corner_near kR06 n m l o x y z w _ _ _ _ _ kU4 _ HX HY HZ HW K3 UC C3); [|apply quart]. apply ZR. sunf. toR. ring.
  - eapply near_conv; [eapply (corner_near kR06 n m l o x y z w true true true true 4 kU4 _ HX HY HZ HW eq_refl UC C4); [|apply quart]| | |].
    + cbn [b2z].
      pose proof (shortcut4 kR06 (x - IZR n) (y - IZR m) (z - IZR l) (w - IZR o) kU4 (-3035027 / 1048576) (-13421773 / 16777216) (unskew 4) HX HY HZ HW unskew4_eq ltac:(lra) UC
        ltac:(apply Rabs_le; unfold kU4; lra) ltac:(apply Rabs_le; lra) (7502999 / 16777216 - 1) C4) as SC.
      cbv zeta in SC. eapply Rle_trans; [|exact SC]. right. f_equal. sunf. toR. ring.
    + cbn [b2z]. primes.
    + cbn [b2z]. repeat (apply (f_equal2 cons)); try reflexivity; sunf; toR; ring.
    + reflexivity.
Qed.
Definition kSk4 : R := 5184445 / 16777216.
(** The node as the library builds it, with all constants of the code: within 1/300 of half the output range of the sum over the corners of a simplex around the position. *)
Theorem C60_simplex4_code : forall ft so (freq lo hi : R) (seed : Z) (x y z w : R), exists vs,
  simplex_around (skewed kSk4 freq [x; y; z; w]) vs /\
  Rabs (SimplexGen (s:=S_) (W:=scalar) ft so freq (out_range inf bits lo hi) seed [x; y; z; w] -
        rescale lo hi (kSimplex 4) (bumps kR06 (unskew 4) (z_add seed (s32 so)) (skewed kSk4 freq [x; y; z; w]) vs)) <= Rabs (hi - lo) / 2 / 300.
Proof.
  intros ft so freq lo hi seed x y z w. exists (simplex4_taken (skewed kSk4 freq [x; y; z; w])). split.
  { rewrite skewed4. cbv zeta. cbn [simplex4_taken]. cbv zeta.
    match goal with |- simplex_around [?a; ?b; ?c; ?d] _ => pose proof (Rfloor_spec a); pose proof (Rfloor_spec b); pose proof (Rfloor_spec c); pose proof (Rfloor_spec d) end. apply sx4_simplex; lra. }
  cbn [SimplexGen]. unfold SimplexGen4, slet.
  assert (B : (@kBoundSimplex4 S_ : R) <> 0) by (rewrite kS4; pose proof (kSimplex_pos 4); lra).
  rewrite (ScaleOutput_eq _ _ _ _ _ _ B), kS4.
  eapply Rle_trans; [apply (rescale_close lo hi (kSimplex 4) _ _ (5 * DT kR06)); [apply kSimplex_pos|]|].
  2: { replace (Rabs (hi - lo) / 2 / 300) with (Rabs (hi - lo) * (1 / 600)) by field. apply Rmult_le_compat_l; [apply Rabs_pos|]. unfold kSimplex, DT, kR06. lra. }
  rewrite so_eq. rewrite skewed4. cbv zeta.
  change (x * freq) with (fmul (s:=S_) (W:=scalar) x (fv (s:=S_) (W:=scalar) freq)). change (y * freq) with (fmul (s:=S_) (W:=scalar) y (fv (s:=S_) (W:=scalar) freq)).
  change (z * freq) with (fmul (s:=S_) (W:=scalar) z (fv (s:=S_) (W:=scalar) freq)). change (w * freq) with (fmul (s:=S_) (W:=scalar) w (fv (s:=S_) (W:=scalar) freq)).
  generalize (fmul (s:=S_) (W:=scalar) x (fv (s:=S_) (W:=scalar) freq)) (fmul (s:=S_) (W:=scalar) y (fv (s:=S_) (W:=scalar) freq)) (fmul (s:=S_) (W:=scalar) z (fv (s:=S_) (W:=scalar) freq)) (fmul (s:=S_) (W:=scalar) w (fv (s:=S_) (W:=scalar) freq)).
  clear x y z w. intros X Y Z W.
  unfold simplex4, slet. cbn [sx4k_code sx4_kSkew]. change (@lit S_ 5184445 (-24)) with (@lit S_ 5184445 (- (24))). rewrite litR by lia. change (IZR (2 ^ 24)) with 16777216. fold kSk4.
  change (fmul (s:=S_) (W:=scalar) (fv (s:=S_) (W:=scalar) kSk4) (fadd (s:=S_) (W:=scalar) (fadd (s:=S_) (W:=scalar) (fadd (s:=S_) (W:=scalar) X Y) Z) W)) with (kSk4 * (X + Y + Z + W)).
  change (fadd (s:=S_) (W:=scalar) X (kSk4 * (X + Y + Z + W))) with (X + kSk4 * (X + Y + Z + W)). change (fadd (s:=S_) (W:=scalar) Y (kSk4 * (X + Y + Z + W))) with (Y + kSk4 * (X + Y + Z + W)).
  change (fadd (s:=S_) (W:=scalar) Z (kSk4 * (X + Y + Z + W))) with (Z + kSk4 * (X + Y + Z + W)). change (fadd (s:=S_) (W:=scalar) W (kSk4 * (X + Y + Z + W))) with (W + kSk4 * (X + Y + Z + W)).
  generalize (X + kSk4 * (X + Y + Z + W)) (Y + kSk4 * (X + Y + Z + W)) (Z + kSk4 * (X + Y + Z + W)) (W + kSk4 * (X + Y + Z + W)). clear X Y Z W. intros x y z w.
  unfold prX, prY, prZ, prW. rewrite !lower, !frac0. cbn [simplex4_taken]. cbv zeta.
  pose proof (Rfloor_spec x). pose proof (Rfloor_spec y). pose proof (Rfloor_spec z). pose proof (Rfloor_spec w).
  apply sum5; [unfold kR06; lra|apply sx4_code_visits; lra|reflexivity].
Qed.
Theorem C67_simplex4 : forall ft so (freq lo hi : R) (seed : Z) (x y z w : R), in_range (1/40) lo hi (SimplexGen (s:=S_) (W:=scalar) ft so freq (out_range inf bits lo hi) seed [x; y; z; w]).
Proof.
  intros. destruct (C60_simplex4_code ft so freq lo hi seed x y z w) as (vs & A & C).
  assert (Lq : length (skewed kSk4 freq [x; y; z; w]) = 4%nat) by reflexivity. apply simplex_distinct in A. rewrite Lq in A.
  pose proof (rescale_range (1/50) lo hi (kSimplex 4) _ (kSimplex_pos 4) (sx4_bumps (z_add seed (s32 so)) _ vs Lq A)) as I0.
  assert (N : in_range (1/50 + 1/300) lo hi (SimplexGen (s:=S_) (W:=scalar) ft so freq (out_range inf bits lo hi) seed [x; y; z; w])).
  { eapply in_range_near; [exact I0|]. eapply Rle_trans; [exact C|]. right. field. }
  unfold in_range in *. eapply Rle_trans; [exact N|]. pose proof (Rabs_pos (hi - lo)). lra.
Qed.
End C4.
Print Assumptions C60_simplex4_code.
Print Assumptions C67_simplex4.
(** a concrete case: frequency 0.02, the default range -1 to 1, position (100, 250, -3, 7.5) *)
Example C67_simplex4_case : forall inf bits ft, -1.025 <= SimplexGen (s:=Rops inf bits) (W:=scalar) ft 0%Z 0.02 (out_range inf bits (-1) 1) 1337%Z [100; 250; -3; 7.5] <= 1.025.
Proof. intros. pose proof (C67_simplex4 inf bits ft 0%Z 0.02 (-1) 1 1337%Z 100 250 (-3) 7.5) as H. apply C67_meaning in H; lra. Qed.
