(** The 2D nodes with the float constants of the code stay close to the exact construction. *)
From Coq Require Import Reals ZArith List Bool Lia Lra Psatz.
From Verif Require Import Prelude Simd_Model Utils_Model Nodes_Model Setters_Model Simd_R Bits P_Hash P_Grad P_Blend P_Lattice Lattice Simplex_Model Simplex_Spec Simplex_Geom Simplex_2D P_Simplex.
Import ListNotations.
Open Scope R_scope.

Lemma sqrt3_lo : 17320508075 / 10000000000 < sqrt 3.
Proof. apply Rsqr_incrst_0; [|lra|apply sqrt_pos]. unfold Rsqr. rewrite sqrt_sqrt by lra. lra. Qed.
Lemma sqrt3_hi : sqrt 3 < 17320508076 / 10000000000.
Proof. apply Rsqr_incrst_0; [|apply sqrt_pos|lra]. unfold Rsqr. rewrite sqrt_sqrt by lra. lra. Qed.
Lemma unskew2_bounds : -2113248655 / 10000000000 < unskew 2 < -2113248653 / 10000000000.
Proof.
  pose proof sqrt3_lo. pose proof sqrt3_hi. cbn [unskew]. set (t := sqrt 3) in *.
  assert (E : - (1) / (t + 3) * (t + 3) = -1) by (field; lra). set (u := - (1) / (t + 3)) in *. clearbody u t.
  split; nra.
Qed.
Lemma kFall2_val : - (4) * (sqrt 3 + 2) / (sqrt 3 + 3) = - (2 / 3) * (sqrt 3 + 3).
Proof.
  pose proof sqrt3_pos. pose proof sqrt3_sq. set (t := sqrt 3) in *. clearbody t.
  replace (- (4) * (t + 2) / (t + 3)) with (- (2/3) * ((6 * t + 12) / (t + 3))) by (field; lra). f_equal.
  replace (6 * t + 12) with ((t + 3) * (t + 3)) by nra. field. lra.
Qed.

(** ** One term *)
Lemma pow4_close : forall F e f f', Rabs f <= F -> Rabs f' <= F -> Rabs (f' - f) <= e -> Rabs (f' ^ 4 - f ^ 4) <= 4 * F ^ 3 * e.
Proof.
  intros F e f f' H H' He. replace (f' ^ 4 - f ^ 4) with ((f' - f) * ((f' + f) * (f' * f' + f * f))) by ring. rewrite !Rabs_mult.
  pose proof (Rabs_pos (f' - f)). pose proof (Rabs_pos f). pose proof (Rabs_pos f').
  assert (A : Rabs (f' + f) <= 2 * F) by (eapply Rle_trans; [apply Rabs_triang|lra]).
  assert (B : Rabs (f' * f' + f * f) <= 2 * F * F).
  { eapply Rle_trans; [apply Rabs_triang|]. rewrite !Rabs_mult. nra. }
  replace (4 * F ^ 3 * e) with (e * ((2 * F) * (2 * F * F))) by ring.
  apply Rmult_le_compat; auto; [apply Rmult_le_pos; apply Rabs_pos|]. apply Rmult_le_compat; auto; apply Rabs_pos.
Qed.
Lemma max0_close : forall g g' e, Rabs (g' - g) <= e -> Rabs (Rmax 0 g' - Rmax 0 g) <= e.
Proof. intros g g' e H. unfold Rmax, Rabs in *. repeat destruct (Rle_dec _ _); repeat destruct (Rcase_abs _); lra. Qed.
Lemma sq_close : forall x x' e B, Rabs (x' - x) <= e -> Rabs x <= B -> Rabs (x' * x' - x * x) <= e * (2 * B + e).
Proof.
  intros x x' e B H HB. replace (x' * x' - x * x) with ((x' - x) * (2 * x + (x' - x))) by ring. rewrite Rabs_mult.
  apply Rmult_le_compat; auto; try apply Rabs_pos. eapply Rle_trans; [apply Rabs_triang|]. rewrite Rabs_mult, (Rabs_right 2) by lra. lra.
Qed.
Lemma dot2_lip : forall h x y B, Rabs x <= B -> Rabs y <= B -> Rabs (dot2 (perlin2_grad h) x y) <= 7/2 * B.
Proof.
  intros h x y B Hx Hy. eapply Rle_trans; [apply perlin2_bound|]. unfold reach2.
  assert (root2 < 1.4143) by (unfold root2; change (IZR (2^23)) with 8388608; lra). pose proof root2_pos.
  assert (Rmax (Rabs x) (Rabs y) <= B) by (apply Rmax_lub; auto). assert (Rmin (Rabs x) (Rabs y) <= B) by (eapply Rle_trans; [apply Rmin_l|auto]).
  pose proof (Rabs_pos x). assert (0 <= Rmax (Rabs x) (Rabs y)) by (eapply Rle_trans; [|apply Rmax_l]; auto). nra.
Qed.
Lemma dot2_minus : forall g x y x' y', dot2 g x' y' - dot2 g x y = dot2 g (x' - x) (y' - y).
Proof. intros [a b] x y x' y'. unfold dot2. cbn [fst snd]. ring. Qed.

Section C2.
Variable inf : R.
Variable bits : R -> Z.
Notation S_ := (Rops inf bits).

(** the code's visit of a vertex: right vertex, offset off by at most e1, falloff root off by at most e2 *)
Definition near_visit (r2 e1 e2 : R) (x y : R) (c : contrib S_ scalar) (v : list Z) : Prop :=
  exists a b (ox oy x' y' f : R), v = [a; b] /\ cp c = primed PrimesLookup v /\ offset (unskew 2) [x; y] v = [ox; oy] /\
    (cd c : list R) = [x'; y'] /\ Rabs ox <= 2 /\ Rabs oy <= 2 /\ Rabs (x' - ox) <= e1 /\ Rabs (y' - oy) <= e1 /\
    (cf c : R) = f ^ 4 /\ Rabs (f - Rmax 0 (r2 - (ox * ox + oy * oy))) <= e2.
Definition E1 : R := 3 / 100000000.
Definition E2 : R := 4 / 10000000.
Definition ET (r2 : R) : R := 4 * (r2 + 1/1000) ^ 3 * (4 / 10000000) * (7/2 * (2 + 3/100000000)) + 3 / 100000000.
Lemma near_term : forall ft seed r2 x y c v, 0 < r2 <= 2/3 -> near_visit r2 E1 E2 x y c v ->
  Rabs (fmul (s:=S_) (W:=scalar) (cf c) (ramp ft seed c) - bump r2 (unskew 2) seed [x; y] v) <= ET r2.
Proof.
  intros ft seed r2 x y c v Hr (a & b & ox & oy & x' & y' & f & -> & Hp & Ho & Hd & Bx & By & Hx & Hy & Hf & He).
  assert (Rr : (ramp ft seed c : R) = dot2 (perlin2_grad (hash31 seed [a; b])) x' y').
  { unfold ramp. change (cd c) with (cd c : list R). rewrite Hd, Hp. apply C32_perlin2. }
  unfold bump, falloff, sqlen. rewrite Ho. cbn [map perlin_corner]. rewrite !sum_cons, sum_nil, Rplus_0_r.
  set (g := perlin2_grad (hash31 seed [a; b])) in *. set (F := Rmax 0 (r2 - (ox * ox + oy * oy))) in *.
  assert (HF : 0 <= F <= r2) by (unfold F, Rmax; destruct (Rle_dec _ _); nra).
  match goal with |- Rabs ?e <= _ => replace e with ((f ^ 4 - F ^ 4) * dot2 g x' y' + F ^ 4 * (dot2 g x' y' - dot2 g ox oy)) end.
  2: { rewrite <- Hf, <- Rr. sunf. toR. ring. }
  unfold E1, E2, ET in *.
  assert (A1 : Rabs (f ^ 4 - F ^ 4) <= 4 * (r2 + 1/1000) ^ 3 * (4 / 10000000)).
  { apply pow4_close; auto. rewrite Rabs_right; lra. revert He. unfold Rabs. repeat destruct (Rcase_abs _); lra. }
  assert (A2 : Rabs (dot2 g x' y') <= 7/2 * (2 + 3/100000000)).
  { unfold g. apply dot2_lip; revert Bx By Hx Hy; unfold Rabs; repeat destruct (Rcase_abs _); lra. }
  assert (A3 : Rabs (dot2 g x' y' - dot2 g ox oy) <= 7/2 * (3/100000000)).
  { rewrite dot2_minus. unfold g. apply dot2_lip; auto. }
  assert (A4 : 0 <= F ^ 4 <= 1/4) by (split; [apply pow_le; lra|]; replace (F ^ 4) with ((F * F) * (F * F)) by ring; assert (0 <= F * F <= 1/2) by nra; nra).
  eapply Rle_trans; [apply Rabs_triang|]. rewrite !Rabs_mult, (Rabs_right (F ^ 4)) by lra.
  pose proof (Rabs_pos (f ^ 4 - F ^ 4)). pose proof (Rabs_pos (dot2 g x' y')). pose proof (Rabs_pos (dot2 g x' y' - dot2 g ox oy)). 
  assert (Rabs (f ^ 4 - F ^ 4) * Rabs (dot2 g x' y') <= 4 * (r2 + 1/1000) ^ 3 * (4 / 10000000) * (7/2 * (2 + 3/100000000))) by (apply Rmult_le_compat; auto).
  assert (F ^ 4 * Rabs (dot2 g x' y' - dot2 g ox oy) <= 1/4 * (7/2 * (3/100000000))) by (apply Rmult_le_compat; lra).
  lra.
Qed.
(** the code's falloff root against the exact one *)
Lemma root_close : forall r2 r2' ox oy x' y' (g' : R), Rabs ox <= 2 -> Rabs oy <= 2 -> Rabs (x' - ox) <= E1 -> Rabs (y' - oy) <= E1 ->
  Rabs (r2' - r2) <= 2 / 100000000 -> g' = r2' - (x' * x' + y' * y') -> Rabs (g' - (r2 - (ox * ox + oy * oy))) <= 27 / 100000000.
Proof.
  intros r2 r2' ox oy x' y' g' Bx By Hx Hy Hr ->. unfold E1 in *.
  pose proof (sq_close _ _ _ _ Hx Bx) as A. pose proof (sq_close _ _ _ _ Hy By) as B.
  replace (r2' - (x' * x' + y' * y') - (r2 - (ox * ox + oy * oy))) with ((r2' - r2) - ((x' * x' - ox * ox) + (y' * y' - oy * oy))) by ring.
  eapply Rle_trans; [apply Rabs_triang|]. rewrite Rabs_Ropp. pose proof (Rabs_triang (x' * x' - ox * ox) (y' * y' - oy * oy)). lra.
Qed.
Lemma near_intro : forall r2 r2' x y (p : list Z) (x' y' g' f' : R) a b (ox oy : R),
  p = primed PrimesLookup [a; b] -> offset (unskew 2) [x; y] [a; b] = [ox; oy] ->
  Rabs ox <= 2 -> Rabs oy <= 2 -> Rabs (x' - ox) <= E1 -> Rabs (y' - oy) <= E1 -> Rabs (r2' - r2) <= 2 / 100000000 ->
  g' = r2' - (x' * x' + y' * y') -> f' = Rmax 0 g' ^ 4 -> near_visit r2 E1 E2 x y (@mkc S_ scalar p [x'; y'] f') [a; b].
Proof.
  intros r2 r2' x y p x' y' g' f' a b ox oy Hp Ho Bx By Hx Hy Hr Hg Hf. exists a, b, ox, oy, x', y', (Rmax 0 g').
  repeat split; auto. apply max0_close. apply Rle_trans with (27/100000000); [|unfold E2; lra]. eapply root_close; eauto.
Qed.
(** the same when the falloff is computed another way, with an error of its own, or without the clamp *)
Lemma near_intro' : forall r2 x y (p : list Z) (x' y' g' f' : R) a b (ox oy : R),
  p = primed PrimesLookup [a; b] -> offset (unskew 2) [x; y] [a; b] = [ox; oy] ->
  Rabs ox <= 2 -> Rabs oy <= 2 -> Rabs (x' - ox) <= E1 -> Rabs (y' - oy) <= E1 ->
  Rabs (g' - (r2 - (ox * ox + oy * oy))) <= E2 -> (f' = Rmax 0 g' ^ 4 \/ 0 <= r2 - (ox * ox + oy * oy) /\ f' = g' ^ 4) ->
  near_visit r2 E1 E2 x y (@mkc S_ scalar p [x'; y'] f') [a; b].
Proof.
  intros r2 x y p x' y' g' f' a b ox oy Hp Ho Bx By Hx Hy Hg [Hf|[Hp' Hf]].
  - exists a, b, ox, oy, x', y', (Rmax 0 g'). repeat split; auto. apply max0_close. auto.
  - exists a, b, ox, oy, x', y', g'. repeat split; auto. rewrite Rmax_right by auto. auto.
Qed.

Lemma off2 : forall a b x y, offset (unskew 2) [x; y] [a; b] = [x - IZR a + unskew 2 * (x - IZR a + (y - IZR b)); y - IZR b + unskew 2 * (x - IZR a + (y - IZR b))].
Proof. intros. unfold offset. cbn [offs map]. rewrite !sum_cons, sum_nil, Rplus_0_r. reflexivity. Qed.
Lemma L22 : forall m, @lit S_ m (-22) = IZR m / 4194304. Proof. intros. cbn [lit Rops]. change (-22)%Z with (- (22))%Z. rewrite pow2_neg by lia. reflexivity. Qed.
Lemma L23 : forall m, @lit S_ m (-23) = IZR m / 8388608. Proof. intros. cbn [lit Rops]. change (-23)%Z with (- (23))%Z. rewrite pow2_neg by lia. reflexivity. Qed.
Lemma L24 : forall m, @lit S_ m (-24) = IZR m / 16777216. Proof. intros. cbn [lit Rops]. change (-24)%Z with (- (24))%Z. rewrite pow2_neg by lia. reflexivity. Qed.
Lemma L25 : forall m, @lit S_ m (-25) = IZR m / 33554432. Proof. intros. cbn [lit Rops]. change (-25)%Z with (- (25))%Z. rewrite pow2_neg by lia. reflexivity. Qed.
(** the skew factor of the code *)
Definition kSkew2 : R := 12281775 / 33554432.

Lemma abs_le : forall x b, - b <= x <= b -> Rabs x <= b. Proof. intros. apply Rabs_le. auto. Qed.
(** bounds of products with the small constant errors *)
Lemma prod_small : forall e s B c, - c <= e <= c -> - B <= s <= B -> - (c * B) <= e * s <= c * B.
Proof. intros e s B c H1 H2. split; nra. Qed.

Lemma near_shift : forall x n k, x - IZR (n + k) = x - IZR n - IZR k. Proof. intros. rewrite plus_IZR. ring. Qed.
Ltac ndiv := unfold Rdiv; cbn [Z.opp]; rewrite ?opp_IZR.
(** the exact relation behind the shortcut for the opposite vertex *)
Lemma opposite : forall u X Y r2, 6 * u * u + 6 * u + 1 = 0 ->
  r2 - ((X - 1 + u * (X - 1 + (Y - 1))) * (X - 1 + u * (X - 1 + (Y - 1))) + (Y - 1 + u * (X - 1 + (Y - 1))) * (Y - 1 + u * (X - 1 + (Y - 1)))) =
  r2 - ((X + u * (X + Y)) * (X + u * (X + Y)) + (Y + u * (X + Y)) * (Y + u * (X + Y))) + 2 / 3 * (X + Y) - 2 / 3.
Proof.
  intros u X Y r2 H. apply Rminus_diag_uniq. match goal with |- ?e = 0 => replace e with ((4 / 3) * (6 * u * u + 6 * u + 1) * (X + Y - 1)) by field end. rewrite H. ring.
Qed.
Lemma shortcut : forall r2 u X Y (ku g0 : R), 6 * u * u + 6 * u + 1 = 0 -> 0 <= X < 1 -> 0 <= Y < 1 ->
  Rabs (g0 - (r2 - ((X + u * (X + Y)) * (X + u * (X + Y)) + (Y + u * (X + Y)) * (Y + u * (X + Y))))) <= 27 / 100000000 ->
  - (11 / 100000000) <= ku <= 11 / 100000000 ->
  Rabs (g0 + (2 / 3 * (X + Y) - 2 / 3 + ku) - (r2 - ((X - 1 + u * (X - 1 + (Y - 1))) * (X - 1 + u * (X - 1 + (Y - 1))) + (Y - 1 + u * (X - 1 + (Y - 1))) * (Y - 1 + u * (X - 1 + (Y - 1)))))) <= E2.
Proof.
  intros r2 u X Y ku g0 HU HX HY H0 Hk. rewrite (opposite u X Y r2 HU). unfold E2.
  match type of H0 with Rabs ?e <= _ => set (d := e) in * end.
  match goal with |- Rabs ?e <= _ => replace e with (d + ku) by (unfold d; ring) end.
  apply abs_le. revert H0. unfold Rabs. destruct (Rcase_abs d); lra.
Qed.
Lemma sx2_code_visits : forall n m (x y : R), 0 <= x - IZR n < 1 -> 0 <= y - IZR m < 1 ->
  Forall2 (near_visit (1/2) E1 E2 x y)
    (simplex2_at (s:=S_) (W:=scalar) sx2k_code (z_mul n PrimeX) (z_mul m PrimeY) (x - IZR n) (y - IZR m))
    (sx2_vertices n m (Rleb (y - IZR m) (x - IZR n))).
Proof.
  intros n m x y HX HY. unfold simplex2_at, slet, sx2_vertices.
  change (fge (s:=S_) (W:=scalar) (x - IZR n) (y - IZR m)) with (Rleb (y - IZR m) (x - IZR n)).
  cbn [sx2k_code sx2_kSkew sx2_kU sx2_kU1 sx2_k2U1 sx2_kFall sx2_kM]. rewrite L22, L23, !L24.
  pose proof unskew2_eq as UE. pose proof unskew2_bounds as UB.
  assert (P1 : forall X Y, 0 <= X < 1 -> 0 <= Y < 1 -> - (12 / 1000000000) <= (-3545443 / 16777216 - unskew 2) * (X + Y) <= 12 / 1000000000).
  { intros X Y H1 H2. replace (12 / 1000000000) with (6 / 1000000000 * 2) by field. apply prod_small; lra. }
  assert (P2 : forall X Y, -1 <= X <= 1 -> -1 <= Y <= 1 -> - (6 / 10) <= unskew 2 * (X + Y) <= 6 / 10).
  { intros X Y H1 H2. replace (6 / 10) with (3 / 10 * 2) by field. apply prod_small; lra. }
  constructor; [|constructor; [|constructor; [|constructor]]].
  - eapply (near_intro (1/2) (1/2)); [primes|apply off2| | | | | | |apply quart]; unfold E1; pose proof (P1 _ _ HX HY); pose proof (P2 (x - IZR n) (y - IZR m) ltac:(lra) ltac:(lra)).
    1-4: apply abs_le; sunf; lra. 1: apply abs_le; lra. reals.
  - destruct (Rleb (y - IZR m) (x - IZR n)); (eapply (near_intro (1/2) (1/2)); [primes|apply off2| | | | | | |apply quart]); unfold E1; rewrite ?near_shift.
    + pose proof (P2 (x - IZR n - 1) (y - IZR m) ltac:(lra) ltac:(lra)). apply abs_le. lra.
    + pose proof (P2 (x - IZR n - 1) (y - IZR m) ltac:(lra) ltac:(lra)). apply abs_le. lra.
    + pose proof (P1 _ _ HX HY). apply abs_le. sunf. cbn [negb]. lra.
    + pose proof (P1 _ _ HX HY). apply abs_le. sunf. rlit. lra.
    + apply abs_le; lra.
    + reals.
    + pose proof (P2 (x - IZR n) (y - IZR m - 1) ltac:(lra) ltac:(lra)). apply abs_le. lra.
    + pose proof (P2 (x - IZR n) (y - IZR m - 1) ltac:(lra) ltac:(lra)). apply abs_le. lra.
    + pose proof (P1 _ _ HX HY). apply abs_le. sunf. cbn [negb]. rlit. lra.
    + pose proof (P1 _ _ HX HY). apply abs_le. sunf. rlit. lra.
    + apply abs_le; lra.
    + reals.
  - eapply near_intro'; [primes|apply off2| | | | | |left; apply quart]; unfold E1; rewrite ?near_shift; pose proof (P1 _ _ HX HY); pose proof (P2 (x - IZR n - 1) (y - IZR m - 1) ltac:(lra) ltac:(lra)).
    1-4: apply abs_le; sunf; lra.
    eapply Rle_trans; [|apply (shortcut (1/2) (unskew 2) (x - IZR n) (y - IZR m)
        ((-3545443 / 16777216 * (-13231773 / 4194304) - 2 / 3) * (x - IZR n + (y - IZR m)) + (-11184811 / 16777216 + 2 / 3))
        (1/2 - ((x - IZR n + -3545443 / 16777216 * (x - IZR n + (y - IZR m))) * (x - IZR n + -3545443 / 16777216 * (x - IZR n + (y - IZR m))) + (y - IZR m + -3545443 / 16777216 * (x - IZR n + (y - IZR m))) * (y - IZR m + -3545443 / 16777216 * (x - IZR n + (y - IZR m))))) UE HX HY)].
    + right. f_equal. sunf. rlit. toR. field.
    + pose proof (P2 (x - IZR n) (y - IZR m) ltac:(lra) ltac:(lra)). eapply (root_close (1/2) (1/2)); [| | | | |reflexivity]; unfold E1; apply abs_le; lra.
    + pose proof (prod_small (-3545443 / 16777216 * (-13231773 / 4194304) - 2 / 3) (x - IZR n + (y - IZR m)) 2 (3/100000000) ltac:(lra) ltac:(lra)). lra.
Qed.

Lemma quartx : forall g : R, fmul (s:=S_) (W:=scalar) (fmul (s:=S_) (W:=scalar) g g) (fmul (s:=S_) (W:=scalar) g g) = g ^ 4.
Proof. intros. sunf. toR. ring. Qed.
Lemma ss2_code_visits : forall n m (x y : R), 0 <= x - IZR n < 1 -> 0 <= y - IZR m < 1 ->
  let fxy := Rltb 1 (x - IZR n + (y - IZR m)) in let bnd := if fxy then -1 else 0 in
  Forall2 (near_visit (2/3) E1 E2 x y)
    (supersimplex2_at (s:=S_) (W:=scalar) ss2k_code (z_mul n PrimeX) (z_mul m PrimeY) (x - IZR n) (y - IZR m))
    (ss2_vertices n m fxy (Rltb ((x - IZR n) * -2 + (y - IZR m)) bnd) (Rltb ((y - IZR m) * -2 + (x - IZR n)) bnd)).
Proof.
  intros n m x y HX HY fxy bnd. pose proof (fun a b => sqlen2 x y a b) as SQ. unfold supersimplex2_at, supersimplex2_v1, supersimplex2_v2, supersimplex2_v3, slet, ss2_vertices.
  replace (fgt (s:=S_) (W:=scalar) _ _) with fxy by (unfold fxy; sunf; rlit; reflexivity).
  replace (flt (s:=S_) (W:=scalar) (fmadd (s:=S_) (W:=scalar) (x - IZR n) _ _) _) with (Rltb ((x - IZR n) * -2 + (y - IZR m)) bnd) by (unfold bnd; sunf; rlit; destruct fxy; rewrite ?Rmult_0_l; reflexivity).
  replace (flt (s:=S_) (W:=scalar) (fmadd (s:=S_) (W:=scalar) (y - IZR m) _ _) _) with (Rltb ((y - IZR m) * -2 + (x - IZR n)) bnd) by (unfold bnd; sunf; rlit; destruct fxy; rewrite ?Rmult_0_l; reflexivity).
  assert (FX : let fx := Rltb ((x - IZR n) * -2 + (y - IZR m)) bnd in fxy = true -> fx = true -> 1/2 <= x - IZR n).
  { cbv zeta. unfold bnd. intros E C. rewrite E in C. apply Rltb_lt in C. lra. }
  assert (FY : let fy := Rltb ((y - IZR m) * -2 + (x - IZR n)) bnd in fxy = true -> fy = true -> 1/2 <= y - IZR m).
  { cbv zeta. unfold bnd. intros E C. rewrite E in C. apply Rltb_lt in C. lra. }
  assert (FX' : let fx := Rltb ((x - IZR n) * -2 + (y - IZR m)) bnd in fxy = false -> fx = false -> x - IZR n <= 1/2).
  { cbv zeta. unfold bnd. intros E C. rewrite E in C. apply Rltb_ge in C. lra. }
  assert (FY' : let fy := Rltb ((y - IZR m) * -2 + (x - IZR n)) bnd in fxy = false -> fy = false -> y - IZR m <= 1/2).
  { cbv zeta. unfold bnd. intros E C. rewrite E in C. apply Rltb_ge in C. lra. }
  cbv zeta in FX, FY, FX', FY'.
  generalize dependent (Rltb ((x - IZR n) * -2 + (y - IZR m)) bnd). generalize dependent (Rltb ((y - IZR m) * -2 + (x - IZR n)) bnd). clearbody fxy. clear bnd. intros fy FY FY' fx FX FX'.
  cbn [ss2k_code ss2_kSkew ss2_kU ss2_kR ss2_k2U1 ss2_kFall ss2_kU1 ss2_kmU ss2_k2U]. rewrite L22, !L23, !L24.
  pose proof unskew2_eq as UE. pose proof unskew2_bounds as UB.
  assert (P1 : forall X Y, 0 <= X < 1 -> 0 <= Y < 1 -> - (12 / 1000000000) <= (-3545443 / 16777216 - unskew 2) * (X + Y) <= 12 / 1000000000).
  { intros X Y H1 H2. replace (12 / 1000000000) with (6 / 1000000000 * 2) by field. apply prod_small; lra. }
  assert (P2 : forall X Y, -3/2 <= X <= 3/2 -> -3/2 <= Y <= 3/2 -> - (66 / 100) <= unskew 2 * (X + Y) <= 66 / 100).
  { intros X Y H1 H2. replace (66 / 100) with (22 / 100 * 3) by field. apply prod_small; lra. }
  assert (G0 : Rabs (2796202750 / 4194304000 * 0 + (11184811 / 16777216 - ((x - IZR n + -3545443 / 16777216 * (x - IZR n + (y - IZR m))) * (x - IZR n + -3545443 / 16777216 * (x - IZR n + (y - IZR m))) + (y - IZR m + -3545443 / 16777216 * (x - IZR n + (y - IZR m))) * (y - IZR m + -3545443 / 16777216 * (x - IZR n + (y - IZR m)))))
      - (2/3 - ((x - IZR n + unskew 2 * (x - IZR n + (y - IZR m))) * (x - IZR n + unskew 2 * (x - IZR n + (y - IZR m))) + (y - IZR m + unskew 2 * (x - IZR n + (y - IZR m))) * (y - IZR m + unskew 2 * (x - IZR n + (y - IZR m)))))) <= 27 / 100000000).
  { pose proof (P1 _ _ HX HY). pose proof (P2 (x - IZR n) (y - IZR m) ltac:(lra) ltac:(lra)). rewrite Rmult_0_r, Rplus_0_l.
    eapply (root_close (2/3) (11184811 / 16777216)); [| | | | |reflexivity]; unfold E1; apply abs_le; lra. }
  rewrite Rmult_0_r, Rplus_0_l in G0.
  constructor; [|constructor; [|constructor; [|constructor; [|constructor]]]].
  - eapply near_intro'; [primes|apply off2| | | | | |right; split; [|apply quartx]]; unfold E1; pose proof (P1 _ _ HX HY); pose proof (P2 (x - IZR n) (y - IZR m) ltac:(lra) ltac:(lra)).
    1-4: apply abs_le; sunf; lra.
    + apply Rle_trans with (27/100000000); [|unfold E2; lra]. eapply Rle_trans; [|exact G0]. right. f_equal. sunf. toR. ring.
    + specialize (SQ n m). rewrite off2 in SQ. unfold sqlen in SQ. cbn [map] in SQ. rewrite !sum_cons, sum_nil, Rplus_0_r in SQ. rewrite SQ. clear - HX HY. set (a := x - IZR n) in *. set (b := y - IZR m) in *. clearbody a b. nra.
  - eapply near_intro'; [primes|apply off2| | | | | |right; split; [|apply quartx]]; unfold E1; rewrite ?near_shift; pose proof (P1 _ _ HX HY); pose proof (P2 (x - IZR n - 1) (y - IZR m - 1) ltac:(lra) ltac:(lra)).
    1-4: apply abs_le; sunf; lra.
    + eapply Rle_trans; [|apply (shortcut (2/3) (unskew 2) (x - IZR n) (y - IZR m)
          ((-3545443 / 16777216 * (-13231773 / 4194304) - 2 / 3) * (x - IZR n + (y - IZR m)) + (2 / 3 - 11184811 / 16777216)) _ UE HX HY G0)].
      * right. f_equal. sunf. rlit. toR. field.
      * pose proof (prod_small (-3545443 / 16777216 * (-13231773 / 4194304) - 2 / 3) (x - IZR n + (y - IZR m)) 2 (3/100000000) ltac:(lra) ltac:(lra)). lra.
    + specialize (SQ (n + 1)%Z (m + 1)%Z). rewrite off2 in SQ. unfold sqlen in SQ. cbn [map] in SQ. rewrite !sum_cons, sum_nil, Rplus_0_r in SQ. rewrite !near_shift in SQ. rewrite SQ. clear - HX HY. set (a := x - IZR n) in *. set (b := y - IZR m) in *. clearbody a b. nra.
  - pose proof (P1 _ _ HX HY).
    destruct fxy, fx; (eapply (near_intro (2/3) (11184811 / 16777216)); [primes|apply off2| | | | | | |apply quart]); unfold E1, Z.sub; rewrite ?near_shift.
    1,2,7,8,13,14,19,20: cbn [Z.opp]; try (specialize (FX eq_refl eq_refl)); try (specialize (FX' eq_refl eq_refl)); match goal with |- Rabs (_ + _ * (?a + ?b)) <= _ => pose proof (P2 a b ltac:(lra) ltac:(lra)) end; apply abs_le; lra.
    all: try (apply abs_le; cbn [Z.opp]; sunf; rlit; lra). all: reals.
  - pose proof (P1 _ _ HX HY).
    destruct fxy, fy; (eapply (near_intro (2/3) (11184811 / 16777216)); [primes|apply off2| | | | | | |apply quart]); unfold E1, Z.sub; rewrite ?near_shift.
    1,2,7,8,13,14,19,20: cbn [Z.opp]; try (specialize (FY eq_refl eq_refl)); try (specialize (FY' eq_refl eq_refl)); match goal with |- Rabs (_ + _ * (?a + ?b)) <= _ => pose proof (P2 a b ltac:(lra) ltac:(lra)) end; apply abs_le; lra.
    all: try (apply abs_le; cbn [Z.opp]; sunf; rlit; lra). all: reals.
Qed.
(** ** The nodes *)
Lemma near_fold : forall ft seed r2 x y (cs : list (contrib S_ scalar)) vs, 0 < r2 <= 2/3 -> Forall2 (near_visit r2 E1 E2 x y) cs vs -> forall acc acc' : R,
  Rabs (fold_left (fun value c => fmadd (s:=S_) (W:=scalar) (cf c) (ramp ft seed c) value) cs acc - (acc' + bumps r2 (unskew 2) seed [x; y] vs)) <= Rabs (acc - acc') + INR (length cs) * ET r2.
Proof.
  intros ft seed r2 x y cs vs Hr H. induction H as [|c v cs vs Hc H IH]; intros acc acc'.
  - unfold bumps. cbn [fold_left map length INR]. rewrite sum_nil. right. rewrite Rmult_0_l, !Rplus_0_r. reflexivity.
  - cbn [fold_left length]. rewrite S_INR. unfold bumps in *. cbn [map]. rewrite sum_cons, <- Rplus_assoc.
    eapply Rle_trans; [apply IH|]. pose proof (near_term ft seed r2 x y c v Hr Hc) as T.
    match goal with |- Rabs ?e + _ <= _ => replace e with ((acc - acc') + (fmul (s:=S_) (W:=scalar) (cf c) (ramp ft seed c) - bump r2 (unskew 2) seed [x; y] v)) by (sunf; toR; ring) end.
    pose proof (Rabs_triang (acc - acc') (fmul (s:=S_) (W:=scalar) (cf c) (ramp ft seed c) - bump r2 (unskew 2) seed [x; y] v)). lra.
Qed.
Lemma rescale_close : forall lo hi B v v' e, 0 < B -> Rabs (v' - v) <= e -> Rabs (rescale lo hi B v' - rescale lo hi B v) <= Rabs (hi - lo) * (e / (2 * B)).
Proof.
  intros lo hi B v v' e HB H. unfold rescale.
  replace (lo + (hi - lo) * ((v' + B) / (2 * B)) - (lo + (hi - lo) * ((v + B) / (2 * B)))) with ((hi - lo) * ((v' - v) * / (2 * B))) by (field; lra).
  rewrite Rabs_mult. apply Rmult_le_compat_l; [apply Rabs_pos|]. rewrite Rabs_mult. unfold Rdiv. rewrite (Rabs_right (/ (2 * B))) by (left; apply Rinv_0_lt_compat; lra).
  apply Rmult_le_compat_r; auto. left. apply Rinv_0_lt_compat. lra.
Qed.
Theorem C59_simplex2_code : forall ft so (freq lo hi : R) (seed : Z) (x y : R) L,
  reaching (1/2) (unskew 2) (skewed kSkew2 freq [x; y]) L ->
  Rabs (SimplexGen (s:=S_) (W:=scalar) ft so freq (out_range inf bits lo hi) seed [x; y]
        - rescale lo hi (kSimplex 2) (bumps (1/2) (unskew 2) (z_add seed (s32 so)) (skewed kSkew2 freq [x; y]) L))
  <= Rabs (hi - lo) / 10000.
Proof.
  intros ft so freq lo hi seed x y L HL. cbn [SimplexGen]. unfold SimplexGen2, slet.
  assert (B : (@kBoundSimplex2 S_ : R) <> 0) by (rewrite kS2; pose proof (kSimplex_pos 2); lra).
  rewrite (ScaleOutput_eq _ _ _ _ _ _ B), kS2. 
  eapply Rle_trans; [apply (rescale_close lo hi (kSimplex 2) _ _ (3 * ET (1/2))); [apply kSimplex_pos|]|].
  2: { unfold Rdiv at 3. apply Rmult_le_compat_l; [apply Rabs_pos|]. unfold kSimplex, ET. lra. }
  rewrite so_eq. rewrite skewed2 in *.
  change (x * freq) with (fmul (s:=S_) (W:=scalar) x (fv (s:=S_) (W:=scalar) freq)) in *. change (y * freq) with (fmul (s:=S_) (W:=scalar) y (fv (s:=S_) (W:=scalar) freq)) in *.
  generalize dependent (fmul (s:=S_) (W:=scalar) x (fv (s:=S_) (W:=scalar) freq)). generalize (fmul (s:=S_) (W:=scalar) y (fv (s:=S_) (W:=scalar) freq)). clear x y. intros Y X. intros HL.
  unfold simplex2, slet. cbn [sx2k_code sx2_kSkew]. rewrite L25. fold kSkew2.
  change (fadd (s:=S_) (W:=scalar) X (fmul (s:=S_) (W:=scalar) (fv (s:=S_) (W:=scalar) kSkew2) (fadd (s:=S_) (W:=scalar) X Y))) with (X + kSkew2 * (X + Y)).
  change (fadd (s:=S_) (W:=scalar) Y (fmul (s:=S_) (W:=scalar) (fv (s:=S_) (W:=scalar) kSkew2) (fadd (s:=S_) (W:=scalar) X Y))) with (Y + kSkew2 * (X + Y)).
  generalize dependent (X + kSkew2 * (X + Y)). generalize (Y + kSkew2 * (X + Y)). clear X Y. intros y x HL. unfold prX, prY. rewrite !lower, !frac0.
  rewrite (bumps_reaching _ _ _ _ _ _ HL (sx2_reaching x y)).
  pose proof (Rfloor_spec x). pose proof (Rfloor_spec y).
  pose proof (sx2_code_visits (Rfloor x) (Rfloor y) x y ltac:(lra) ltac:(lra)) as V.
  match type of V with Forall2 _ ?l ?w => change l with (simplex2_at (s:=S_) (W:=scalar) sx2k_code (z_mul (Rfloor x) PrimeX) (z_mul (Rfloor y) PrimeY) (x - IZR (Rfloor x)) (y - IZR (Rfloor y))) in V; set (cs := l) in *; set (vs := w) in * end.
  assert (LC : length cs = 3%nat) by reflexivity. clearbody cs vs.
  destruct V as [|c0 v0 cs vs V0 V]; [discriminate|]. destruct V as [|c1 v1 cs vs V1 V]; [discriminate|]. destruct V as [|c2 v2 cs vs V2 V]; [discriminate|]. destruct V; [|discriminate].
  cbn [value2]. unfold bumps. cbn [map]. rewrite !sum_cons, sum_nil.
  assert (R12 : 0 < 1/2 <= 2/3) by lra.
  pose proof (near_term ft (z_add seed (s32 so)) _ _ _ _ _ R12 V0) as T0. pose proof (near_term ft (z_add seed (s32 so)) _ _ _ _ _ R12 V1) as T1. pose proof (near_term ft (z_add seed (s32 so)) _ _ _ _ _ R12 V2) as T2.
  revert T0 T1 T2. generalize (bump (1 / 2) (unskew 2) (z_add seed (s32 so)) [x; y] v0) (bump (1 / 2) (unskew 2) (z_add seed (s32 so)) [x; y] v1) (bump (1 / 2) (unskew 2) (z_add seed (s32 so)) [x; y] v2).
  generalize (ET (1/2)). intros E b0 b1 b2.
  generalize (ramp (s:=S_) (W:=scalar) ft (z_add seed (s32 so)) c0) (ramp (s:=S_) (W:=scalar) ft (z_add seed (s32 so)) c1) (ramp (s:=S_) (W:=scalar) ft (z_add seed (s32 so)) c2) (cf c0) (cf c1) (cf c2). sunf. intros r0 r1 r2 f0 f1 f2 T0 T1 T2.
  match goal with |- Rabs ?e <= _ => replace e with ((f0 * r0 - b0) + ((f1 * r1 - b1) + (f2 * r2 - b2))) by ring end.
  eapply Rle_trans; [apply Rabs_triang|]. pose proof (Rabs_triang (f1 * r1 - b1) (f2 * r2 - b2)). lra.
Qed.
Theorem C59_supersimplex2_code : forall ft so (freq lo hi : R) (seed : Z) (x y : R) L,
  reaching (2/3) (unskew 2) (skewed kSkew2 freq [x; y]) L ->
  Rabs (SuperSimplexGen (s:=S_) (W:=scalar) ft so freq (out_range inf bits lo hi) seed [x; y]
        - rescale lo hi (kSuper 2) (bumps (2/3) (unskew 2) (z_add seed (s32 so)) (skewed kSkew2 freq [x; y]) L))
  <= Rabs (hi - lo) / 10000.
Proof.
  intros ft so freq lo hi seed x y L HL. cbn [SuperSimplexGen]. unfold SuperSimplexGen2, slet.
  assert (B : (@kBoundSuper2 S_ : R) <> 0) by (rewrite kSS2; pose proof (kSuper_pos 2); lra).
  rewrite (ScaleOutput_eq _ _ _ _ _ _ B), kSS2. 
  eapply Rle_trans; [apply (rescale_close lo hi (kSuper 2) _ _ (4 * ET (2/3))); [apply kSuper_pos|]|].
  2: { unfold Rdiv at 3. apply Rmult_le_compat_l; [apply Rabs_pos|]. unfold kSuper, ET. lra. }
  rewrite so_eq. rewrite skewed2 in *.
  change (x * freq) with (fmul (s:=S_) (W:=scalar) x (fv (s:=S_) (W:=scalar) freq)) in *. change (y * freq) with (fmul (s:=S_) (W:=scalar) y (fv (s:=S_) (W:=scalar) freq)) in *.
  generalize dependent (fmul (s:=S_) (W:=scalar) x (fv (s:=S_) (W:=scalar) freq)). generalize (fmul (s:=S_) (W:=scalar) y (fv (s:=S_) (W:=scalar) freq)). clear x y. intros Y X. intros HL.
  unfold supersimplex2, slet. cbn [ss2k_code ss2_kSkew]. rewrite L25. fold kSkew2.
  change (fadd (s:=S_) (W:=scalar) X (fmul (s:=S_) (W:=scalar) (fv (s:=S_) (W:=scalar) kSkew2) (fadd (s:=S_) (W:=scalar) X Y))) with (X + kSkew2 * (X + Y)).
  change (fadd (s:=S_) (W:=scalar) Y (fmul (s:=S_) (W:=scalar) (fv (s:=S_) (W:=scalar) kSkew2) (fadd (s:=S_) (W:=scalar) X Y))) with (Y + kSkew2 * (X + Y)).
  generalize dependent (X + kSkew2 * (X + Y)). generalize (Y + kSkew2 * (X + Y)). clear X Y. intros y x HL. unfold prX, prY. rewrite !lower, !frac0.
  rewrite (bumps_reaching _ _ _ _ _ _ HL (ss2_reaching x y)).
  pose proof (Rfloor_spec x). pose proof (Rfloor_spec y).
  pose proof (ss2_code_visits (Rfloor x) (Rfloor y) x y ltac:(lra) ltac:(lra)) as V. cbv zeta in V.
  match type of V with Forall2 _ ?l ?w => change l with (supersimplex2_at (s:=S_) (W:=scalar) ss2k_code (z_mul (Rfloor x) PrimeX) (z_mul (Rfloor y) PrimeY) (x - IZR (Rfloor x)) (y - IZR (Rfloor y))) in V; set (cs := l) in *; set (vs := w) in * end.
  assert (LC : length cs = 4%nat) by reflexivity. clearbody cs vs.
  destruct V as [|c0 v0 cs vs V0 V]; [discriminate|]. cbn [value_acc].
  assert (R23 : 0 < 2/3 <= 2/3) by lra. injection LC as LC.
  unfold bumps. cbn [map]. rewrite sum_cons. eapply Rle_trans; [apply (near_fold ft (z_add seed (s32 so)) _ x y cs vs R23 V)|].
  rewrite LC. pose proof (near_term ft (z_add seed (s32 so)) _ _ _ _ _ R23 V0) as T0. cbn [INR]. lra.
Qed.

(** no seams: across any border the output of the code moves by at most 1/5000 of the output range *)
Lemma no_seams2 : forall r2 B lo hi e freq seed (f : list R -> R) x y, r2 <= 2/3 ->
  (forall x y L, reaching r2 (unskew 2) (skewed kSkew2 freq [x; y]) L -> Rabs (f [x; y] - rescale lo hi B (bumps r2 (unskew 2) seed (skewed kSkew2 freq [x; y]) L)) <= e) ->
  forall eps, 0 < eps -> exists d, 0 < d /\ forall ys, near d [x; y] ys -> Rabs (f ys - f [x; y]) < eps + 2 * e.
Proof.
  intros r2 B lo hi e freq seed f x y Hr Hf eps He. destruct (local_vertices2 kSkew2 freq x y) as (d & L & Hd & HL & HR).
  set (g := fun pos => rescale lo hi B (bumps r2 (unskew 2) seed (skewed kSkew2 freq [nth 0 pos 0; nth 1 pos 0]) L)).
  assert (Cg : continuous_at g [x; y]) by (apply cont_rescale, bumps2_cont; auto).
  destruct (Cg eps He) as (d' & Hd' & Q). exists (Rmin d d'). split; [apply Rmin_pos; auto|]. intros ys N.
  specialize (Q ys (near_le _ _ _ _ (Rmin_r _ _) N)). apply (near_le _ _ _ _ (Rmin_l _ _)) in N. apply near2 in N as (x' & y' & -> & Hx & Hy).
  pose proof (Hf x' y' L (HR x' y' r2 Hr Hx Hy)) as A.
  assert (Rabs (x - x) < d /\ Rabs (y - y) < d) as [Zx Zy] by (rewrite !Rminus_diag_eq, Rabs_R0 by reflexivity; auto).
  pose proof (Hf x y L (HR x y r2 Hr Zx Zy)) as A0. unfold g in Q. cbn [nth] in Q.
  revert Q A A0. generalize (f [x'; y']) (f [x; y]). match goal with |- context [rescale lo hi B ?a - rescale lo hi B ?b] => generalize (rescale lo hi B a) (rescale lo hi B b) end.
  intros p q p' q' Q A A0. replace (p' - q') with ((p' - p) + (p - q) + - (q' - q)) by ring.
  eapply Rle_lt_trans; [apply Rabs_triang|]. rewrite Rabs_Ropp. pose proof (Rabs_triang (p' - p) (p - q)). lra.
Qed.
Theorem C59_simplex2_code_seams : forall ft so (freq lo hi : R) (seed : Z) (x y : R) eps, 0 < eps -> exists d, 0 < d /\ forall pos, near d [x; y] pos ->
  Rabs (SimplexGen (s:=S_) (W:=scalar) ft so freq (out_range inf bits lo hi) seed pos - SimplexGen (s:=S_) (W:=scalar) ft so freq (out_range inf bits lo hi) seed [x; y])
  < eps + Rabs (hi - lo) / 5000.
Proof.
  intros ft so freq lo hi seed x y eps He.
  destruct (no_seams2 (1/2) (kSimplex 2) lo hi (Rabs (hi - lo) / 10000) freq (z_add seed (s32 so)) (fun pos => SimplexGen (s:=S_) (W:=scalar) ft so freq (out_range inf bits lo hi) seed pos) x y ltac:(lra)) with (eps := eps) as (d & Hd & H); auto.
  { intros. apply C59_simplex2_code; auto. }
  exists d. split; auto. intros pos N. specialize (H pos N). lra.
Qed.
Theorem C59_supersimplex2_code_seams : forall ft so (freq lo hi : R) (seed : Z) (x y : R) eps, 0 < eps -> exists d, 0 < d /\ forall pos, near d [x; y] pos ->
  Rabs (SuperSimplexGen (s:=S_) (W:=scalar) ft so freq (out_range inf bits lo hi) seed pos - SuperSimplexGen (s:=S_) (W:=scalar) ft so freq (out_range inf bits lo hi) seed [x; y])
  < eps + Rabs (hi - lo) / 5000.
Proof.
  intros ft so freq lo hi seed x y eps He.
  destruct (no_seams2 (2/3) (kSuper 2) lo hi (Rabs (hi - lo) / 10000) freq (z_add seed (s32 so)) (fun pos => SuperSimplexGen (s:=S_) (W:=scalar) ft so freq (out_range inf bits lo hi) seed pos) x y ltac:(lra)) with (eps := eps) as (d & Hd & H); auto.
  { intros. apply C59_supersimplex2_code; auto. }
  exists d. split; auto. intros pos N. specialize (H pos N). lra.
Qed.
End C2.
Print Assumptions C59_supersimplex2_code_seams.
