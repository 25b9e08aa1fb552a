(** SuperSimplex in 3D: the closest vertex of the unit cell and the 7 vertices around it are all that reach. *)
From Coq Require Import Reals ZArith List Bool Lia Lra Psatz.
From Verif Require Import Prelude Simd_Model Utils_Model Nodes_Model Setters_Model Simd_R Bits P_Hash P_Grad P_Blend P_Lattice Lattice Simplex_Model Simplex_Spec Simplex_Geom Simplex_2D P_Simplex.
Import ListNotations.
Open Scope R_scope.

(** squared length of an offset in skewed coordinates *)
Definition Q3 (x y z : R) : R := x * x + y * y + z * z - (x + y + z) * (x + y + z) / 4.
Lemma off3 : forall X Y Z a b c, offset (unskew 3) [X; Y; Z] [a; b; c] =
  [X - IZR a - ((X - IZR a) + (Y - IZR b) + (Z - IZR c)) / 2; Y - IZR b - ((X - IZR a) + (Y - IZR b) + (Z - IZR c)) / 2; Z - IZR c - ((X - IZR a) + (Y - IZR b) + (Z - IZR c)) / 2].
Proof.
  intros. unfold offset. cbn [offs map unskew]. rewrite !sum_cons, sum_nil. repeat (apply (f_equal2 cons)); try reflexivity; field.
Qed.
Lemma sqlen3 : forall X Y Z a b c, sqlen (offset (unskew 3) [X; Y; Z] [a; b; c]) = Q3 (X - IZR a) (Y - IZR b) (Z - IZR c).
Proof. intros. rewrite off3. unfold sqlen, Q3. cbn [map]. rewrite !sum_cons, sum_nil. field. Qed.
Lemma Q3_pos : forall x y z, 0 <= Q3 x y z.
Proof. intros. unfold Q3. pose proof (Rle_0_sqr (x - y)). pose proof (Rle_0_sqr (y - z)). pose proof (Rle_0_sqr (x - z)). pose proof (Rle_0_sqr x). pose proof (Rle_0_sqr y). pose proof (Rle_0_sqr z). unfold Rsqr in *. lra. Qed.
Lemma Q3_x : forall x y z, x * x / 2 <= Q3 x y z.
Proof. intros. unfold Q3. pose proof (Rle_0_sqr (x - y - z)). pose proof (Rle_0_sqr (y - z)). unfold Rsqr in *. lra. Qed.
Lemma Q3_y : forall x y z, y * y / 2 <= Q3 x y z.
Proof. intros. unfold Q3. pose proof (Rle_0_sqr (y - x - z)). pose proof (Rle_0_sqr (x - z)). unfold Rsqr in *. lra. Qed.
Lemma Q3_z : forall x y z, z * z / 2 <= Q3 x y z.
Proof. intros. unfold Q3. pose proof (Rle_0_sqr (z - x - y)). pose proof (Rle_0_sqr (x - y)). unfold Rsqr in *. lra. Qed.
Lemma Q3_xy : forall x y z, (x - y) * (x - y) / 2 <= Q3 x y z.
Proof. intros. unfold Q3. pose proof (Rle_0_sqr (x + y - z)). pose proof (Rle_0_sqr z). unfold Rsqr in *. lra. Qed.
Lemma Q3_xz : forall x y z, (x - z) * (x - z) / 2 <= Q3 x y z.
Proof. intros. unfold Q3. pose proof (Rle_0_sqr (x + z - y)). pose proof (Rle_0_sqr y). unfold Rsqr in *. lra. Qed.
Lemma Q3_yz : forall x y z, (y - z) * (y - z) / 2 <= Q3 x y z.
Proof. intros. unfold Q3. pose proof (Rle_0_sqr (y + z - x)). pose proof (Rle_0_sqr x). unfold Rsqr in *. lra. Qed.
(** the point is at least as close to the origin as to the 14 vertices around it *)
Definition cell3 (x y z : R) : Prop :=
  let s := (x + y + z) / 4 in
  -3/8 <= s <= 3/8 /\ -3/8 <= x - s <= 3/8 /\ -3/8 <= y - s <= 3/8 /\ -3/8 <= z - s <= 3/8 /\
  -1/2 <= (x - s) + (y - s) <= 1/2 /\ -1/2 <= (x - s) + (z - s) <= 1/2 /\ -1/2 <= (y - s) + (z - s) <= 1/2.

Section S3.
Variable inf : R.
Variable bits : R -> Z.
Notation S_ := (Rops inf bits).

Definition bit (b : Z) (k : Z) : Z := if Z.eqb (Z.land b k) 0 then 0 else 1.
Lemma lit2 : forall m, @lit S_ m (-2) = IZR m / 4. Proof. intros. cbn [lit Rops]. change (-2)%Z with (- (2))%Z. rewrite pow2_neg by lia. reflexivity. Qed.
Lemma lit3 : forall m, @lit S_ m (-3) = IZR m / 8. Proof. intros. cbn [lit Rops]. change (-3)%Z with (- (3))%Z. rewrite pow2_neg by lia. reflexivity. Qed.
Lemma lit1 : forall m, @lit S_ m (-1) = IZR m / 2. Proof. intros. cbn [lit Rops]. rewrite pow2_m1. reflexivity. Qed.
Lemma max_cons : forall (a b : R) (f : bool -> R -> Prop),
  (a < b -> f true b) -> (b <= a -> f false a) -> f (Rltb a b) (Rmax a b).
Proof.
  intros a b f H1 H2. unfold Rltb. destruct (Rlt_dec a b).
  - rewrite Rmax_right by lra. auto.
  - rewrite Rmax_left by lra. apply H2. lra.
Qed.
(** the search as a function of its scores *)
Definition near3 (xyz xN yN zN : R) : Z :=
  let m := 3/8 in
  let b := if Rltb m xyz then (-1)%Z else 0%Z in let m := Rmax m xyz in
  let b := if Rltb m xN then 1%Z else b in let m := Rmax m xN in
  let b := if Rltb m yN then 2%Z else b in let m := Rmax m yN in
  let b := if Rltb m zN then 4%Z else b in let m := Rmax m zN in
  let m := m + (1/8 - xyz) in
  let b := if Rltb m (- zN) then 3%Z else b in let m := Rmax m (- zN) in
  let b := if Rltb m (- yN) then 5%Z else b in let m := Rmax m (- yN) in
  let b := if Rltb m (- xN) then 6%Z else b in b.
Lemma near3_eq : forall X Y Z : R, supersimplex3_near (s:=S_) (W:=scalar) X Y Z =
  near3 ((X + Y + Z) / 4) (X - (X + Y + Z) / 4) (Y - (X + Y + Z) / 4) (Z - (X + Y + Z) / 4).
Proof.
  intros X Y Z. unfold supersimplex3_near, near3, slet. rewrite ?lit2, ?lit3.
  assert (E : fmul (s:=S_) (W:=scalar) (fv (s:=S_) (W:=scalar) (-1 / 4)) (fadd (s:=S_) (W:=scalar) (fadd (s:=S_) (W:=scalar) X Y) Z) = - ((X + Y + Z) / 4)) by (sunf; toR; field).
  rewrite E. set (s := (X + Y + Z) / 4). sunf. rewrite Ropp_involutive. reflexivity.
Qed.
(** the first five candidates, and the last three *)
Definition five (xyz xN yN zN : R) (b : Z) (m : R) : Prop :=
  (b, m) = (0%Z, 3/8) \/ (b, m) = ((-1)%Z, xyz) \/ (b, m) = (1%Z, xN) \/ (b, m) = (2%Z, yN) \/ (b, m) = (4%Z, zN).
Lemma near3_best : forall xyz xN yN zN, exists b m, five xyz xN yN zN b m /\ 3/8 <= m /\ xyz <= m /\ xN <= m /\ yN <= m /\ zN <= m /\
  let m' := m + (1/8 - xyz) in
  let r := near3 xyz xN yN zN in
  (r = b /\ - zN <= m' /\ - yN <= m' /\ - xN <= m') \/ (r = 3%Z /\ m' <= - zN /\ - yN <= - zN /\ - xN <= - zN) \/
  (r = 5%Z /\ m' <= - yN /\ - zN <= - yN /\ - xN <= - yN) \/ (r = 6%Z /\ m' <= - xN /\ - zN <= - xN /\ - yN <= - xN).
Proof.
  intros xyz xN yN zN. unfold near3. cbv zeta.
  set (m1 := Rmax (3/8) xyz). set (b1 := if Rltb (3/8) xyz then (-1)%Z else 0%Z).
  assert (H1 : five xyz xN yN zN b1 m1 /\ 3/8 <= m1 /\ xyz <= m1).
  { unfold m1, b1. pattern (Rltb (3/8) xyz), (Rmax (3/8) xyz). apply max_cons; intros; unfold five; (split; [tauto|lra]). }
  clearbody m1 b1. destruct H1 as (F1 & A1 & B1).
  set (m2 := Rmax m1 xN). set (b2 := if Rltb m1 xN then 1%Z else b1).
  assert (H2 : five xyz xN yN zN b2 m2 /\ m1 <= m2 /\ xN <= m2).
  { unfold m2, b2. pattern (Rltb m1 xN), (Rmax m1 xN). apply max_cons; intros; (split; [try exact F1; unfold five; tauto|lra]). }
  clearbody m2 b2. destruct H2 as (F2 & A2 & B2).
  set (m3 := Rmax m2 yN). set (b3 := if Rltb m2 yN then 2%Z else b2).
  assert (H3 : five xyz xN yN zN b3 m3 /\ m2 <= m3 /\ yN <= m3).
  { unfold m3, b3. pattern (Rltb m2 yN), (Rmax m2 yN). apply max_cons; intros; (split; [try exact F2; unfold five; tauto|lra]). }
  clearbody m3 b3. destruct H3 as (F3 & A3 & B3).
  set (m4 := Rmax m3 zN). set (b4 := if Rltb m3 zN then 4%Z else b3).
  assert (H4 : five xyz xN yN zN b4 m4 /\ m3 <= m4 /\ zN <= m4).
  { unfold m4, b4. pattern (Rltb m3 zN), (Rmax m3 zN). apply max_cons; intros; (split; [try exact F3; unfold five; tauto|lra]). }
  clearbody m4 b4. destruct H4 as (F4 & A4 & B4).
  exists b4, m4. split; [exact F4|]. do 5 (split; [lra|]). set (m' := m4 + (1/8 - xyz)). clearbody m'.
  pattern (Rltb m' (- zN)), (Rmax m' (- zN)). apply max_cons; intros C1.
  - pattern (Rltb (- zN) (- yN)), (Rmax (- zN) (- yN)). apply max_cons; intros C2; unfold Rltb; destruct (Rlt_dec _ _); [right; right; right|right; right; left|right; right; right|right; left]; repeat split; lra.
  - pattern (Rltb m' (- yN)), (Rmax m' (- yN)). apply max_cons; intros C2; unfold Rltb; destruct (Rlt_dec _ _); [right; right; right|right; right; left|right; right; right|left]; repeat split; lra.
Qed.
Lemma near3_spec : forall X Y Z, 0 <= X < 1 -> 0 <= Y < 1 -> 0 <= Z < 1 ->
  let b := near3 ((X + Y + Z) / 4) (X - (X + Y + Z) / 4) (Y - (X + Y + Z) / 4) (Z - (X + Y + Z) / 4) in
  cell3 (X - IZR (bit b 1)) (Y - IZR (bit b 2)) (Z - IZR (bit b 4)).
Proof.
  intros X Y Z HX HY HZ b. destruct (near3_best ((X + Y + Z) / 4) (X - (X + Y + Z) / 4) (Y - (X + Y + Z) / 4) (Z - (X + Y + Z) / 4)) as (b0 & m & F & M0 & M1 & M2 & M3 & M4 & R).
  cbv zeta in R. fold b in R. clearbody b. unfold five in F.
  destruct R as [(-> & R)|[(-> & R)|[(-> & R)|(-> & R)]]]; destruct F as [F|[F|[F|[F|F]]]]; injection F as -> ->;
    cbv [bit Z.land Z.eqb Pos.land N.land Z.of_N Pos.ldiff Pos.lor Z.to_N N.ldiff N.lor Pos.pred_N Pos.pred_double N.succ_pos N.double Pos.Ndouble Pos.Nsucc_double]; unfold cell3; lra.
Qed.

(** visited vertices; the code works with half of r^2 - d^2, so its falloffs are 1/16 of the full ones *)
Definition visits16 (r2 u : R) (qs : list R) (c : contrib S_ scalar) (v : list Z) : Prop :=
  cp c = primed PrimesLookup v /\ (cd c : list R) = offset u qs v /\ (cf c : R) = falloff r2 (offset u qs v) / 16.
Lemma visits16_intro : forall r2 u qs v p (d : list R) (f h : R), p = primed PrimesLookup v -> d = offset u qs v ->
  h = (r2 - sqlen (offset u qs v)) / 2 -> (f = (Rmax 0 h) ^ 4) -> visits16 r2 u qs (@mkc S_ scalar p d f) v.
Proof.
  intros. subst. unfold visits16. cbn [cp cd cf]. repeat split. unfold falloff. set (g := r2 - _).
  replace (Rmax 0 (g / 2)) with (Rmax 0 g / 2); [field|]. unfold Rmax. repeat destruct (Rle_dec _ _); lra.
Qed.
Lemma quartmin : forall g : R, fmul (s:=S_) (W:=scalar) (fmul (s:=S_) (W:=scalar) (fmin (s:=S_) (W:=scalar) g (num (s:=S_) (W:=scalar) 0)) (fmin (s:=S_) (W:=scalar) g (num (s:=S_) (W:=scalar) 0))) (fmul (s:=S_) (W:=scalar) (fmin (s:=S_) (W:=scalar) g (num (s:=S_) (W:=scalar) 0)) (fmin (s:=S_) (W:=scalar) g (num (s:=S_) (W:=scalar) 0))) = Rmax 0 (- g) ^ 4.
Proof.
  intros. sunf. rewrite Rmult_0_l. replace (Rmax 0 (- g)) with (- Rmin g 0); [toR; ring|]. unfold Rmax, Rmin. repeat destruct (Rle_dec _ _); lra.
Qed.
Definition sg (b : bool) : Z := if b then (-1)%Z else 1%Z.
Definition ss3_vertices (n m l : Z) (s1 s2 s3 s4 s5 s6 s7 : bool) : list (list Z) :=
  [[n; m; l];
   [n + sg s1; m + sg s1; l + sg s1];
   [n + sg s2; m + sg s2; l];
   [n + sg s3; m; l + sg s3];
   [n; m + sg s4; l + sg s4];
   [n + sg s5; m; l];
   [n; m + sg s6; l];
   [n; m; l + sg s7]]%Z.
Lemma cell3_close : forall X Y Z, cell3 X Y Z -> Q3 X Y Z <= 9/16.
Proof.
  intros X Y Z C. unfold cell3 in C. cbv zeta in C. unfold Q3. set (s := (X + Y + Z) / 4) in *.
  replace (X * X + Y * Y + Z * Z - (X + Y + Z) * (X + Y + Z) / 4) with ((X - s) * (X - s) + (Y - s) * (Y - s) + (Z - s) * (Z - s) + s * s) by (unfold s; field).
  assert (B : forall a, -3/8 <= a <= 3/8 -> a * a <= 9/64) by (intros; nra). pose proof (B s). pose proof (B (X - s)). pose proof (B (Y - s)). pose proof (B (Z - s)). lra.
Qed.
Ltac off := rewrite off3; unfold fneg_if; sunf; rlit; repeat (apply (f_equal2 cons)); try reflexivity; toR; rewrite ?plus_IZR; field.
Lemma ss3_at_visits : forall n m l (x y z : R), cell3 (x - IZR n) (y - IZR m) (z - IZR l) ->
  let X := x - IZR n in let Y := y - IZR m in let Z := z - IZR l in let s := (X + Y + Z) / 4 in
  Forall2 (visits16 (3/4) (unskew 3) [x; y; z])
    (supersimplex3_at (s:=S_) (W:=scalar) (z_mul n PrimeX) (z_mul m PrimeY) (z_mul l PrimeZ) X Y Z)
    (ss3_vertices n m l (Rltb s 0) (Rltb s (Z - s)) (Rltb s (Y - s)) (Rltb s (X - s)) (Rltb (X - s) 0) (Rltb (Y - s) 0) (Rltb (Z - s) 0)).
Proof.
  intros n m l x y z HC X Y Z s. apply cell3_close in HC.
  unfold supersimplex3_at, supersimplex3_v1, supersimplex3_v2, supersimplex3_v3, supersimplex3_v4, supersimplex3_v5, supersimplex3_v6, supersimplex3_v7, slet, ss3_vertices.
  rewrite ?lit2, ?lit3, ?lit1. 
  assert (E : fmul (s:=S_) (W:=scalar) (fv (s:=S_) (W:=scalar) (-1 / 4)) (fadd (s:=S_) (W:=scalar) (fadd (s:=S_) (W:=scalar) X Y) Z) = - s) by (unfold s; sunf; toR; field).
  rewrite E. change (fneg (s:=S_) (W:=scalar) (- s)) with (- - s). rewrite Ropp_involutive.
  change (fadd (s:=S_) (W:=scalar) X (- s)) with (X - s). change (fadd (s:=S_) (W:=scalar) Y (- s)) with (Y - s). change (fadd (s:=S_) (W:=scalar) Z (- s)) with (Z - s).
  assert (N0 : num (s:=S_) (W:=scalar) 0 = 0) by (sunf; rlit; reflexivity).
  assert (LT0 : forall a, flt (s:=S_) (W:=scalar) a (num (s:=S_) (W:=scalar) 0) = Rltb a 0) by (intros; rewrite N0; reflexivity).
  rewrite !LT0. change (flt (s:=S_) (W:=scalar)) with Rltb.
  assert (XN : forall k, x - IZR (n + k) = X - IZR k) by (intros; unfold X; rewrite plus_IZR; ring).
  assert (YN : forall k, y - IZR (m + k) = Y - IZR k) by (intros; unfold Y; rewrite plus_IZR; ring).
  assert (ZN : forall k, z - IZR (l + k) = Z - IZR k) by (intros; unfold Z; rewrite plus_IZR; ring).
  repeat (apply Forall2_cons); try apply Forall2_nil.
  - eapply visits16_intro; [primes| |reflexivity|].
    + rewrite off3. fold X Y Z. unfold fneg_if; sunf; rlit; repeat (apply (f_equal2 cons)); try reflexivity; toR; field.
    + rewrite sqlen3. fold X Y Z. fold X Y Z in HC. assert (G : (3/4 - Q3 X Y Z) / 2 = (fmul (s:=S_) (W:=scalar) (fnmadd (s:=S_) (W:=scalar) (fadd (s:=S_) (W:=scalar) Z (-1/2 * (X + Y + Z))) (fadd (s:=S_) (W:=scalar) Z (-1/2 * (X + Y + Z))) (fnmadd (s:=S_) (W:=scalar) (fadd (s:=S_) (W:=scalar) Y (-1/2 * (X + Y + Z))) (fadd (s:=S_) (W:=scalar) Y (-1/2 * (X + Y + Z))) (fnmadd (s:=S_) (W:=scalar) (fadd (s:=S_) (W:=scalar) X (-1/2 * (X + Y + Z))) (fadd (s:=S_) (W:=scalar) X (-1/2 * (X + Y + Z))) (3/4)))) (1/2))).
      { unfold Q3. sunf. toR. field. }
      rewrite G. apply (quart0 inf bits). eapply Rle_trans; [|apply (Req_le _ _ G)]. lra.
  - destruct (Rltb s 0); cbn [sg]; (eapply visits16_intro; [primes| | |apply quart]);
    [rewrite off3|rewrite sqlen3|rewrite off3|rewrite sqlen3]; rewrite ?XN, ?YN, ?ZN; fold X Y Z; unfold Q3, fneg_if; sunf; rlit; repeat (apply (f_equal2 cons)); try reflexivity; toR; field.
  - destruct (Rltb s (Z - s)); cbn [sg]; (eapply visits16_intro; [primes| | |apply quartmin]);
    [rewrite off3|rewrite sqlen3|rewrite off3|rewrite sqlen3]; rewrite ?XN, ?YN, ?ZN; fold X Y Z; unfold Q3, fneg_if; sunf; rlit; repeat (apply (f_equal2 cons)); try reflexivity; toR; field.
  - destruct (Rltb s (Y - s)); cbn [sg]; (eapply visits16_intro; [primes| | |apply quartmin]);
    [rewrite off3|rewrite sqlen3|rewrite off3|rewrite sqlen3]; rewrite ?XN, ?YN, ?ZN; fold X Y Z; unfold Q3, fneg_if; sunf; rlit; repeat (apply (f_equal2 cons)); try reflexivity; toR; field.
  - destruct (Rltb s (X - s)); cbn [sg]; (eapply visits16_intro; [primes| | |apply quartmin]);
    [rewrite off3|rewrite sqlen3|rewrite off3|rewrite sqlen3]; rewrite ?XN, ?YN, ?ZN; fold X Y Z; unfold Q3, fneg_if; sunf; rlit; repeat (apply (f_equal2 cons)); try reflexivity; toR; field.
  - destruct (Rltb (X - s) 0); cbn [sg]; (eapply visits16_intro; [primes| | |apply quart]);
    [rewrite off3|rewrite sqlen3|rewrite off3|rewrite sqlen3]; rewrite ?XN, ?YN, ?ZN; fold X Y Z; unfold Q3, fneg_if; sunf; rlit; repeat (apply (f_equal2 cons)); try reflexivity; toR; field.
  - destruct (Rltb (Y - s) 0); cbn [sg]; (eapply visits16_intro; [primes| | |apply quart]);
    [rewrite off3|rewrite sqlen3|rewrite off3|rewrite sqlen3]; rewrite ?XN, ?YN, ?ZN; fold X Y Z; unfold Q3, fneg_if; sunf; rlit; repeat (apply (f_equal2 cons)); try reflexivity; toR; field.
  - destruct (Rltb (Z - s) 0); cbn [sg]; (eapply visits16_intro; [primes| | |apply quart]);
    [rewrite off3|rewrite sqlen3|rewrite off3|rewrite sqlen3]; rewrite ?XN, ?YN, ?ZN; fold X Y Z; unfold Q3, fneg_if; sunf; rlit; repeat (apply (f_equal2 cons)); try reflexivity; toR; field.
Qed.
Ltac pk := left; unfold Rltb; destruct (Rlt_dec _ _); cbn [sg]; first [reflexivity|exfalso; lra].
Ltac pk1 := right; pk. Ltac pk2 := right; pk1. Ltac pk3 := right; pk2. Ltac pk4 := right; pk3. Ltac pk5 := right; pk4. Ltac pk6 := right; pk5. Ltac pk7 := right; pk6.
Lemma ss3_reaching : forall n m l (x y z : R), cell3 (x - IZR n) (y - IZR m) (z - IZR l) ->
  let X := x - IZR n in let Y := y - IZR m in let Z := z - IZR l in let s := (X + Y + Z) / 4 in
  reaching (3/4) (unskew 3) [x; y; z]
    (ss3_vertices n m l (Rltb s 0) (Rltb s (Z - s)) (Rltb s (Y - s)) (Rltb s (X - s)) (Rltb (X - s) 0) (Rltb (Y - s) 0) (Rltb (Z - s) 0)).
Proof.
  intros n m l x y z HC X Y Z s. split; [|split].
  - unfold ss3_vertices.
    assert (G : forall s1 s2 s3 s4 s5 s6 s7, NoDup (ss3_vertices n m l s1 s2 s3 s4 s5 s6 s7)).
    { assert (SG : forall b, (sg b <> 0)%Z) by (intros []; discriminate). intros s1 s2 s3 s4 s5 s6 s7.
      pose proof (SG s1). pose proof (SG s2). pose proof (SG s3). pose proof (SG s4). pose proof (SG s5). pose proof (SG s6). pose proof (SG s7). unfold ss3_vertices.
      repeat (constructor; [intros C; cbn [In] in C; repeat destruct C as [C|C]; try contradiction; injection C; lia|]); constructor. }
    apply G.
  - intros v. unfold ss3_vertices. cbn [In]; intros C; repeat destruct C as [<-|C]; auto; contradiction.
  - intros [|a [|b [|c [|? ?]]]] L D; try discriminate L. clear L. rewrite sqlen3 in D.
    assert (exists i, a = (n + i)%Z) as [i ->] by (exists (a - n)%Z; lia). assert (exists j, b = (m + j)%Z) as [j ->] by (exists (b - m)%Z; lia). assert (exists k, c = (l + k)%Z) as [k ->] by (exists (c - l)%Z; lia).
    rewrite !plus_IZR in D. fold X Y Z in HC.
    replace (x - (IZR n + IZR i)) with (X - IZR i) in D by (unfold X; ring). replace (y - (IZR m + IZR j)) with (Y - IZR j) in D by (unfold Y; ring). replace (z - (IZR l + IZR k)) with (Z - IZR k) in D by (unfold Z; ring).
    clearbody X Y Z. pose proof (Q3_pos X Y Z) as QP.
    unfold cell3 in HC. cbv zeta in HC. fold s in HC. assert (HS : X + Y + Z = 4 * s) by (unfold s; field). clearbody s.
    assert (SQ : forall t, t * t / 2 < 3/4 -> -5/4 < t < 5/4) by (intros; split; nra).
    assert (A1 := SQ _ (Rle_lt_trans _ _ _ (Q3_x _ _ _) D)). assert (A2 := SQ _ (Rle_lt_trans _ _ _ (Q3_y _ _ _) D)). assert (A3 := SQ _ (Rle_lt_trans _ _ _ (Q3_z _ _ _) D)).
    assert (A4 := SQ _ (Rle_lt_trans _ _ _ (Q3_xy _ _ _) D)). assert (A5 := SQ _ (Rle_lt_trans _ _ _ (Q3_xz _ _ _) D)). assert (A6 := SQ _ (Rle_lt_trans _ _ _ (Q3_yz _ _ _) D)). clear SQ.
    assert (Ri : (-2 < i < 2)%Z) by (split; apply lt_IZR; lra). assert (Rj : (-2 < j < 2)%Z) by (split; apply lt_IZR; lra). assert (Rk : (-2 < k < 2)%Z) by (split; apply lt_IZR; lra).
    assert (Rij : (-2 < i - j < 2)%Z) by (split; apply lt_IZR; rewrite minus_IZR; lra). assert (Rik : (-2 < i - k < 2)%Z) by (split; apply lt_IZR; rewrite minus_IZR; lra). assert (Rjk : (-2 < j - k < 2)%Z) by (split; apply lt_IZR; rewrite minus_IZR; lra).
    assert (Ci : i = (-1)%Z \/ i = 0%Z \/ i = 1%Z) by lia. assert (Cj : j = (-1)%Z \/ j = 0%Z \/ j = 1%Z) by lia. assert (Ck : k = (-1)%Z \/ k = 0%Z \/ k = 1%Z) by lia.
    clear A1 A2 A3 A4 A5 A6 Ri Rj Rk.
    destruct Ci as [->|[->| ->]], Cj as [->|[->| ->]], Ck as [->|[->| ->]]; try (exfalso; lia); clear Rij Rik Rjk; rewrite ?Z.add_0_r; unfold ss3_vertices; cbn [In]; unfold Q3 in *.
    all: try (left; reflexivity).
    all: first [pk1|pk2|pk3|pk4|pk5|pk6|pk7].
Qed.
End S3.
