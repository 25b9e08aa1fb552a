(** C59: 3D SuperSimplex noise, with the constants of the code. Real arithmetic, one lane. *)
From Coq Require Import Reals ZArith List Bool Lia Lra Psatz.
From Verif Require Import Prelude Simd_Model Utils_Model Nodes_Model Setters_Model Simd_R Bits P_Hash P_Grad P_Blend P_Lattice Lattice Simplex_Model Simplex_Spec Simplex_Geom Simplex_2D P_Simplex Simplex_3D.
Import ListNotations.
Open Scope R_scope.

Section P.
Variable inf : R.
Variable bits : R -> Z.
Notation S_ := (Rops inf bits).

Lemma term16 : forall ft seed r2 u qs (c : contrib S_ scalar) v, (2 <= length qs <= 4)%nat -> length v = length qs -> visits16 inf bits r2 u qs c v ->
  fmul (s:=S_) (W:=scalar) (cf c) (ramp ft seed c) = bump r2 u seed qs v / 16.
Proof.
  intros ft seed r2 u qs c v Hq Hl (Hp & Hd & Hf).
  pose proof (ramp_eq inf bits ft seed (@mkc S_ scalar (cp c) (cd c) (falloff r2 (offset u qs v))) r2 u qs v Hq Hl (conj Hp (conj Hd eq_refl))) as E.
  unfold bump. refine (eq_trans (f_equal2 Rmult Hf E) _). field.
Qed.
Lemma fold16 : forall ft seed r2 u qs (cs : list (contrib S_ scalar)) vs, (2 <= length qs <= 4)%nat ->
  Forall2 (visits16 inf bits r2 u qs) cs vs -> (forall v, In v vs -> length v = length qs) -> forall acc : R,
  fold_left (fun value c => fmadd (s:=S_) (W:=scalar) (cf c) (ramp ft seed c) value) cs acc = acc + bumps r2 u seed qs vs / 16.
Proof.
  intros ft seed r2 u qs cs vs Hq H. induction H as [|c v cs vs Hc H IH]; intros Hl acc; cbn [fold_left].
  - unfold bumps. cbn [map]. rewrite sum_nil. lra.
  - unfold bumps in *. cbn [map]. rewrite sum_cons.
    refine (eq_trans (IH _ _) _); [intros; apply Hl; right; auto|].
    pose proof (term16 ft seed r2 u qs c v Hq (Hl v (or_introl eq_refl)) Hc) as E. revert E. sunf. intros E. rewrite E. field.
Qed.
Lemma acc16 : forall ft seed r2 u qs (cs : list (contrib S_ scalar)) vs, (2 <= length qs <= 4)%nat ->
  Forall2 (visits16 inf bits r2 u qs) cs vs -> cs <> [] -> (forall v, In v vs -> length v = length qs) ->
  value_acc ft seed cs = bumps r2 u seed qs vs / 16.
Proof.
  intros ft seed r2 u qs cs vs Hq H Hn Hl. destruct H as [|c v cs vs Hc H]; [contradiction|]. cbn [value_acc].
  refine (eq_trans (fold16 ft seed r2 u qs cs vs Hq H _ _) _); [intros; apply Hl; right; auto|].
  unfold bumps. cbn [map]. rewrite sum_cons, (term16 ft seed r2 u qs c v Hq (Hl v (or_introl eq_refl)) Hc). toR. field.
Qed.
Lemma skewed3 : forall k freq x y z, skewed k freq [x; y; z] =
  [x * freq + k * (x * freq + y * freq + z * freq); y * freq + k * (x * freq + y * freq + z * freq); z * freq + k * (x * freq + y * freq + z * freq)].
Proof. intros. unfold skewed, skew, scale. cbn [map]. rewrite !sum_cons, sum_nil, !Rplus_0_r, <- !Rplus_assoc. reflexivity. Qed.
Lemma kSS3 : (@kBoundSuper3 S_ : R) = kSuper 3.
Proof. unfold kBoundSuper3, kSuper; cbn [lit Rops]; change (-31)%Z with (- (31))%Z; rewrite (pow2_neg 31) by lia; reflexivity. Qed.
Lemma rescale16 : forall lo hi B v, 0 < B -> rescale lo hi B (v / 16) = rescale lo hi (16 * B) v.
Proof. intros. unfold rescale. field. lra. Qed.
(** the step to the closest vertex of the cell *)
Lemma bitb : forall b k, s32 k = k -> (if ine (W:=scalar) (iand (W:=scalar) b (iv (W:=scalar) k)) (iv (W:=scalar) 0) then 1 else 0)%Z = bit b k.
Proof. intros b k Hk. unfold bit. sunf. rewrite Hk. change (s32 0) with 0%Z. destruct (Z.land b k =? 0)%Z; reflexivity. Qed.
Lemma move_p : forall (c : bool) X p, imul (W:=scalar) (to_int (s:=S_) (W:=scalar) (fmasked_inc (s:=S_) (W:=scalar) c (ffloor (s:=S_) (W:=scalar) X))) (iv (W:=scalar) p) = z_mul (Rfloor X + (if c then 1 else 0)) p.
Proof.
  intros c X p. assert (E : fmasked_inc (s:=S_) (W:=scalar) c (ffloor (s:=S_) (W:=scalar) X) = IZR (Rfloor X + (if c then 1 else 0))).
  { destruct c; sunf; rlit; rewrite plus_IZR; toR; ring. }
  rewrite E. sunf. rewrite Rnear_IZR. apply mul_prime.
Qed.
Lemma move_d : forall (c : bool) (X : R), fmasked_dec (s:=S_) (W:=scalar) c (fsub (s:=S_) (W:=scalar) X (ffloor (s:=S_) (W:=scalar) X)) = X - IZR (Rfloor X + (if c then 1 else 0)).
Proof. intros c X. destruct c; sunf; rlit; rewrite plus_IZR; toR; ring. Qed.
Definition kSkew3 : R := 11184811 / 33554432.

Theorem C59_supersimplex3_all_vertices : forall ft so (freq lo hi : R) (seed : Z) (x y z : R) L,
  reaching (3/4) (unskew 3) (skewed kSkew3 freq [x; y; z]) L ->
  SuperSimplexGen (s:=S_) (W:=scalar) ft so freq (out_range inf bits lo hi) seed [x; y; z] =
  rescale lo hi (16 * kSuper 3) (bumps (3/4) (unskew 3) (z_add seed (s32 so)) (skewed kSkew3 freq [x; y; z]) L).
Proof.
  intros ft so freq lo hi seed x y z L HL. cbn [SuperSimplexGen]. unfold SuperSimplexGen3, slet.
  assert (B : (@kBoundSuper3 S_ : R) <> 0) by (rewrite kSS3; pose proof (kSuper_pos 3); lra).
  refine (eq_trans (ScaleOutput_eq _ _ _ _ _ _ B) _). rewrite kSS3, <- rescale16 by apply kSuper_pos. f_equal. rewrite so_eq.
  rewrite skewed3 in *.
  change (x * freq) with (fmul (s:=S_) (W:=scalar) x (fv (s:=S_) (W:=scalar) freq)) in *. change (y * freq) with (fmul (s:=S_) (W:=scalar) y (fv (s:=S_) (W:=scalar) freq)) in *. change (z * freq) with (fmul (s:=S_) (W:=scalar) z (fv (s:=S_) (W:=scalar) freq)) in *.
  generalize dependent (fmul (s:=S_) (W:=scalar) x (fv (s:=S_) (W:=scalar) freq)). generalize (fmul (s:=S_) (W:=scalar) y (fv (s:=S_) (W:=scalar) freq)) (fmul (s:=S_) (W:=scalar) z (fv (s:=S_) (W:=scalar) freq)). clear x y z. intros Y Z X. intros HL.
  unfold supersimplex3, slet. cbn [ss3k_code ss3_kSkew].
  assert (K : @lit S_ 11184811 (-25) = kSkew3) by (unfold kSkew3; cbn [lit Rops]; change (-25)%Z with (- (25))%Z; rewrite (pow2_neg 25) by lia; reflexivity).
  rewrite K.
  change (fadd (s:=S_) (W:=scalar) X (fmul (s:=S_) (W:=scalar) (fv (s:=S_) (W:=scalar) kSkew3) (fadd (s:=S_) (W:=scalar) (fadd (s:=S_) (W:=scalar) X Y) Z))) with (X + kSkew3 * (X + Y + Z)).
  change (fadd (s:=S_) (W:=scalar) Y (fmul (s:=S_) (W:=scalar) (fv (s:=S_) (W:=scalar) kSkew3) (fadd (s:=S_) (W:=scalar) (fadd (s:=S_) (W:=scalar) X Y) Z))) with (Y + kSkew3 * (X + Y + Z)).
  change (fadd (s:=S_) (W:=scalar) Z (fmul (s:=S_) (W:=scalar) (fv (s:=S_) (W:=scalar) kSkew3) (fadd (s:=S_) (W:=scalar) (fadd (s:=S_) (W:=scalar) X Y) Z))) with (Z + kSkew3 * (X + Y + Z)).
  generalize dependent (X + kSkew3 * (X + Y + Z)). generalize (Y + kSkew3 * (X + Y + Z)) (Z + kSkew3 * (X + Y + Z)). clear X Y Z. intros y z x HL.
  unfold prX, prY, prZ. rewrite !move_p, !move_d.
  rewrite !frac0, near3_eq.
  pose proof (Rfloor_spec x) as Fx. pose proof (Rfloor_spec y) as Fy. pose proof (Rfloor_spec z) as Fz.
  pose proof (near3_spec inf bits (x - IZR (Rfloor x)) (y - IZR (Rfloor y)) (z - IZR (Rfloor z)) ltac:(lra) ltac:(lra) ltac:(lra)) as C. cbv zeta in C.
  set (b := near3 _ _ _ _) in *. clearbody b.
  rewrite !(bitb b 1), !(bitb b 2), !(bitb b 4) by reflexivity.
  replace (x - IZR (Rfloor x) - IZR (bit b 1)) with (x - IZR (Rfloor x + bit b 1)) in C by (rewrite plus_IZR; ring).
  replace (y - IZR (Rfloor y) - IZR (bit b 2)) with (y - IZR (Rfloor y + bit b 2)) in C by (rewrite plus_IZR; ring).
  replace (z - IZR (Rfloor z) - IZR (bit b 4)) with (z - IZR (Rfloor z + bit b 4)) in C by (rewrite plus_IZR; ring).
  set (n := (Rfloor x + bit b 1)%Z) in *. set (m := (Rfloor y + bit b 2)%Z) in *. set (l := (Rfloor z + bit b 4)%Z) in *. clearbody n m l.
  pose proof (ss3_reaching n m l x y z C) as RE. cbv zeta in RE.
  rewrite (bumps_reaching _ _ _ _ _ _ HL RE).
  apply acc16; [cbn; lia| |discriminate|apply RE]. apply ss3_at_visits. exact C.
Qed.

(** ** Continuity *)
Lemma cont_bump3 : forall r2 u seed a b c f g h xs, continuous_at f xs -> continuous_at g xs -> continuous_at h xs ->
  continuous_at (fun ys => bump r2 u seed [f ys; g ys; h ys] [a; b; c]) xs.
Proof.
  intros r2 u seed a b c f g h xs Hf Hg Hh.
  assert (A : continuous_at (fun ys => f ys - IZR a) xs) by (apply cont_minus; auto using cont_const).
  assert (B : continuous_at (fun ys => g ys - IZR b) xs) by (apply cont_minus; auto using cont_const).
  assert (C : continuous_at (fun ys => h ys - IZR c) xs) by (apply cont_minus; auto using cont_const).
  assert (S : continuous_at (fun ys => u * (f ys - IZR a + (g ys - IZR b + (h ys - IZR c + 0)))) xs) by (repeat first [apply cont_mult | apply cont_plus | apply cont_const | assumption]).
  assert (A' : continuous_at (fun ys => f ys - IZR a + u * (f ys - IZR a + (g ys - IZR b + (h ys - IZR c + 0)))) xs) by (apply cont_plus; auto).
  assert (B' : continuous_at (fun ys => g ys - IZR b + u * (f ys - IZR a + (g ys - IZR b + (h ys - IZR c + 0)))) xs) by (apply cont_plus; auto).
  assert (C' : continuous_at (fun ys => h ys - IZR c + u * (f ys - IZR a + (g ys - IZR b + (h ys - IZR c + 0)))) xs) by (apply cont_plus; auto).
  unfold bump, falloff, sqlen, offset. cbn [offs map]. cbn [sum fold_right].
  apply cont_mult.
  - apply cont_pow, cont_max0. apply cont_minus; [apply cont_const|]. repeat first [apply cont_plus | apply cont_const | apply cont_mult; assumption].
  - unfold perlin_corner, dot3. destruct (common_grad _) as [[? ?] ?]. repeat first [apply cont_plus | apply cont_mult | apply cont_const | assumption].
Qed.
Lemma box3_reaching : forall r2 x y z X Y Z, r2 <= 3/4 -> Rabs (X - x) < 1 -> Rabs (Y - y) < 1 -> Rabs (Z - z) < 1 ->
  reaching r2 (unskew 3) [X; Y; Z] (box [Rfloor x; Rfloor y; Rfloor z]).
Proof.
  intros r2 x y z X Y Z Hr HX HY HZ. split; [apply box_nodup|]. split; [intros v H; rewrite (box_length _ _ H); reflexivity|].
  intros [|a [|b [|c [|? ?]]]] L D; try discriminate L. rewrite sqlen3 in D. apply box_in.
  set (p := X - IZR a) in *. set (q := Y - IZR b) in *. set (r := Z - IZR c) in *.
  pose proof (Q3_x p q r). pose proof (Q3_y p q r). pose proof (Q3_z p q r).
  assert (Rabs p <= 3/2) by (apply Rabs_le; split; nra). assert (Rabs q <= 3/2) by (apply Rabs_le; split; nra). assert (Rabs r <= 3/2) by (apply Rabs_le; split; nra).
  repeat constructor; eapply IZR_floor_close; eauto; lra.
Qed.
Lemma skew_small3 : forall k freq, exists d, 0 < d /\ forall x y z x' y' z', Rabs (x' - x) < d -> Rabs (y' - y) < d -> Rabs (z' - z) < d ->
  Rabs (x' * freq + k * (x' * freq + y' * freq + z' * freq) - (x * freq + k * (x * freq + y * freq + z * freq))) < 1.
Proof.
  intros k freq. set (M := Rabs freq * (1 + 3 * Rabs k) + 1).
  assert (HM : 0 < M) by (unfold M; pose proof (Rabs_pos freq); pose proof (Rabs_pos k); nra).
  exists (/ M). split; [apply Rinv_0_lt_compat; auto|]. intros x y z x' y' z' Hx Hy Hz.
  replace (x' * freq + k * (x' * freq + y' * freq + z' * freq) - (x * freq + k * (x * freq + y * freq + z * freq))) with (freq * ((x' - x) + k * ((x' - x) + (y' - y) + (z' - z)))) by ring.
  rewrite Rabs_mult. set (a := x' - x) in *. set (b := y' - y) in *. set (c := z' - z) in *.
  assert (Rabs (a + k * (a + b + c)) <= / M * (1 + 3 * Rabs k)).
  { eapply Rle_trans; [apply Rabs_triang|]. rewrite Rabs_mult. pose proof (Rabs_triang a b). pose proof (Rabs_triang (a + b) c). pose proof (Rabs_pos k). nra. }
  pose proof (Rabs_pos freq). apply Rle_lt_trans with (Rabs freq * (/ M * (1 + 3 * Rabs k))); [apply Rmult_le_compat_l; auto|].
  replace 1 with (/ M * M) at 2 by (field; lra). replace (Rabs freq * (/ M * (1 + 3 * Rabs k))) with (/ M * (Rabs freq * (1 + 3 * Rabs k))) by ring.
  apply Rmult_lt_compat_l; [apply Rinv_0_lt_compat; auto|]. unfold M. lra.
Qed.
Lemma near3l : forall d x y z ys, near d [x; y; z] ys -> exists x' y' z', ys = [x'; y'; z'] /\ Rabs (x' - x) < d /\ Rabs (y' - y) < d /\ Rabs (z' - z) < d.
Proof.
  intros d x y z ys N. inversion N as [|? a ? l H1 N1]; subst. inversion N1 as [|? b ? l' H2 N2]; subst. inversion N2 as [|? c ? l'' H3 N3]; subst. inversion N3; subst. eauto 10.
Qed.
Lemma local_vertices3 : forall k freq x y z, exists d L, 0 < d /\ (forall v, In v L -> length v = 3%nat) /\
  forall x' y' z' r2, r2 <= 3/4 -> Rabs (x' - x) < d -> Rabs (y' - y) < d -> Rabs (z' - z) < d -> reaching r2 (unskew 3) (skewed k freq [x'; y'; z']) L.
Proof.
  intros k freq x y z. destruct (skew_small3 k freq) as (d & Hd & H).
  exists d, (box [Rfloor (x * freq + k * (x * freq + y * freq + z * freq)); Rfloor (y * freq + k * (x * freq + y * freq + z * freq)); Rfloor (z * freq + k * (x * freq + y * freq + z * freq))]).
  split; [exact Hd|]. split; [intros v Hv; rewrite (box_length _ _ Hv); reflexivity|].
  intros x' y' z' r2 Hr Hx Hy Hz. rewrite skewed3. apply box3_reaching; auto.
  - replace (y' * freq + k * (x' * freq + y' * freq + z' * freq)) with (y' * freq + k * (y' * freq + x' * freq + z' * freq)) by ring.
    replace (y * freq + k * (x * freq + y * freq + z * freq)) with (y * freq + k * (y * freq + x * freq + z * freq)) by ring. auto.
  - replace (z' * freq + k * (x' * freq + y' * freq + z' * freq)) with (z' * freq + k * (z' * freq + x' * freq + y' * freq)) by ring.
    replace (z * freq + k * (x * freq + y * freq + z * freq)) with (z * freq + k * (z * freq + x * freq + y * freq)) by ring. auto.
Qed.
Lemma bumps3_cont : forall r2 k freq seed L x y z, (forall v, In v L -> length v = 3%nat) ->
  continuous_at (fun pos => bumps r2 (unskew 3) seed (skewed k freq [nth 0 pos 0; nth 1 pos 0; nth 2 pos 0]) L) [x; y; z].
Proof.
  intros r2 k freq seed L x y z HL. unfold bumps. apply (cont_sum (fun v pos => bump r2 (unskew 3) seed (skewed k freq [nth 0 pos 0; nth 1 pos 0; nth 2 pos 0]) v)).
  intros v Hv. specialize (HL v Hv). destruct v as [|a [|b [|c [|? ?]]]]; try discriminate HL.
  apply (cont_ext (fun pos => let s := nth 0 pos 0 * freq + nth 1 pos 0 * freq + nth 2 pos 0 * freq in bump r2 (unskew 3) seed [nth 0 pos 0 * freq + k * s; nth 1 pos 0 * freq + k * s; nth 2 pos 0 * freq + k * s] [a; b; c])).
  { intros. rewrite skewed3. reflexivity. }
  cbv zeta. apply cont_bump3; repeat first [apply cont_plus | apply cont_mult | apply cont_const | apply cont_nth].
Qed.
Theorem C59_supersimplex3_continuous : forall ft so (freq lo hi : R) (seed : Z) (x y z : R),
  continuous_at (fun pos => SuperSimplexGen (s:=S_) (W:=scalar) ft so freq (out_range inf bits lo hi) seed pos) [x; y; z].
Proof.
  intros. destruct (local_vertices3 kSkew3 freq x y z) as (d & L & Hd & HL & HR).
  apply (cont_local d _ (fun pos => rescale lo hi (16 * kSuper 3) (bumps (3/4) (unskew 3) (z_add seed (s32 so)) (skewed kSkew3 freq [nth 0 pos 0; nth 1 pos 0; nth 2 pos 0]) L))); auto.
  - intros ys N. apply near3l in N as (x' & y' & z' & -> & Hx & Hy & Hz). cbn [nth]. apply C59_supersimplex3_all_vertices. apply HR; auto; lra.
  - apply cont_rescale. apply bumps3_cont. auto.
Qed.

(** ** Neutral at the vertices *)
Lemma sq1 : forall n : Z, n <> 0%Z -> (1 <= n * n)%Z. Proof. intros. nia. Qed.
Lemma reaching_vertex2 : forall r2 a b, r2 <= 2/3 -> reaching r2 (unskew 2) [IZR a; IZR b] [[a; b]].
Proof.
  intros r2 a b Hr. split; [repeat constructor; auto|]. split; [intros v [<-|[]]; reflexivity|].
  intros [|c [|d [|? ?]]] L D; try discriminate L. rewrite sqlen2, <- !minus_IZR in D. left. set (p := (a - c)%Z) in *. set (q := (b - d)%Z) in *.
  assert (E : p = 0%Z /\ q = 0%Z).
  { assert (Q : (p * p - p * q + q * q < 1)%Z) by (apply lt_IZR; rewrite plus_IZR, minus_IZR, !mult_IZR; lra). split; nia. }
  unfold p, q in E. repeat f_equal; lia.
Qed.
Lemma reaching_vertex3 : forall r2 a b c, r2 <= 3/4 -> reaching r2 (unskew 3) [IZR a; IZR b; IZR c] [[a; b; c]].
Proof.
  intros r2 a b c Hr. split; [repeat constructor; auto|]. split; [intros v [<-|[]]; reflexivity|].
  intros [|d [|e [|f [|? ?]]]] L D; try discriminate L. rewrite sqlen3, <- !minus_IZR in D. left. set (p := (a - d)%Z) in *. set (q := (b - e)%Z) in *. set (r := (c - f)%Z) in *.
  assert (E : p = 0%Z /\ q = 0%Z /\ r = 0%Z).
  { assert (Q : (p * p + q * q + r * r + (p - q) * (p - q) + (p - r) * (p - r) + (q - r) * (q - r) < 3)%Z).
    { apply lt_IZR. unfold Q3 in D. rewrite !plus_IZR, !mult_IZR, !minus_IZR. lra. }
    assert (S : forall n : Z, (0 <= n * n)%Z) by (intros; nia).
    assert (Cp : p = 0%Z \/ (1 <= p * p)%Z) by nia. assert (Cq : q = 0%Z \/ (1 <= q * q)%Z) by nia. assert (Cr : r = 0%Z \/ (1 <= r * r)%Z) by nia.
    pose proof (S p). pose proof (S q). pose proof (S r). pose proof (S (p - q)%Z). pose proof (S (p - r)%Z). pose proof (S (q - r)%Z).
    destruct Cp as [->|Cp], Cq as [->|Cq], Cr as [->|Cr]; try lia; exfalso; nia. }
  unfold p, q, r in E. repeat f_equal; lia.
Qed.
Lemma bump_vertex2 : forall r2 seed a b, bumps r2 (unskew 2) seed [IZR a; IZR b] [[a; b]] = 0.
Proof.
  intros. unfold bumps, bump, offset. cbn [map offs perlin_corner]. rewrite !sum_cons, !sum_nil, !Rminus_diag_eq, !Rplus_0_r, !Rmult_0_r, !Rplus_0_r by reflexivity.
  unfold dot2. ring.
Qed.
Lemma bump_vertex3 : forall r2 seed a b c, bumps r2 (unskew 3) seed [IZR a; IZR b; IZR c] [[a; b; c]] = 0.
Proof.
  intros. unfold bumps, bump, offset. cbn [map offs perlin_corner]. rewrite !sum_cons, !sum_nil, !Rminus_diag_eq, !Rplus_0_r, !Rmult_0_r, !Rplus_0_r by reflexivity.
  unfold dot3. destruct (common_grad _) as [[? ?] ?]. ring.
Qed.
Lemma rescale_mid : forall lo hi B, 0 < B -> rescale lo hi B 0 = (lo + hi) / 2.
Proof. intros. unfold rescale. field. lra. Qed.
Theorem C59_vertices_neutral : forall ft so (k freq lo hi : R) (seed : Z) (a b : Z) (x y : R), skewed k freq [x; y] = [IZR a; IZR b] ->
  SimplexGen2 (s:=S_) (W:=scalar) ft (sx2k_exact inf bits k) so freq (out_range inf bits lo hi) seed x y = (lo + hi) / 2 /\
  SuperSimplexGen2 (s:=S_) (W:=scalar) ft (ss2k_exact inf bits k) so freq (out_range inf bits lo hi) seed x y = (lo + hi) / 2.
Proof.
  intros ft so k freq lo hi seed a b x y E. split.
  - rewrite (C59_simplex2_all_vertices inf bits ft so k freq lo hi seed x y [[a; b]]); rewrite E.
    + rewrite bump_vertex2. apply rescale_mid, kSimplex_pos.
    + apply reaching_vertex2. lra.
  - rewrite (C59_supersimplex2_all_vertices inf bits ft so k freq lo hi seed x y [[a; b]]); rewrite E.
    + rewrite bump_vertex2. apply rescale_mid, kSuper_pos.
    + apply reaching_vertex2. lra.
Qed.
Theorem C59_vertices_neutral3 : forall ft so (freq lo hi : R) (seed : Z) (a b c : Z) (x y z : R), skewed kSkew3 freq [x; y; z] = [IZR a; IZR b; IZR c] ->
  SuperSimplexGen (s:=S_) (W:=scalar) ft so freq (out_range inf bits lo hi) seed [x; y; z] = (lo + hi) / 2.
Proof.
  intros ft so freq lo hi seed a b c x y z E. rewrite (C59_supersimplex3_all_vertices ft so freq lo hi seed x y z [[a; b; c]]); rewrite E.
  - rewrite bump_vertex3. apply rescale_mid. pose proof (kSuper_pos 3). lra.
  - apply reaching_vertex3. lra.
Qed.
End P.
Print Assumptions C59_supersimplex3_continuous.
Print Assumptions C59_vertices_neutral.
Print Assumptions C59_vertices_neutral3.
(** concrete cases: position (3, 2, 1) times frequency 1 in 3D, with the vertices it needs found by [local_vertices3] *)
Example C59_case3 : exists L, reaching (3/4) (unskew 3) (skewed kSkew3 1 [3; 2; 1]) L.
Proof.
  destruct (local_vertices3 kSkew3 1 3 2 1) as (d & L & Hd & _ & H). exists L. apply H; [lra| | |]; rewrite Rminus_diag_eq, Rabs_R0 by reflexivity; auto.
Qed.
Example C59_case2 : exists L, reaching (1/2) (unskew 2) (skewed (1/3) 1 [3; 2]) L /\ reaching (2/3) (unskew 2) (skewed (1/3) 1 [3; 2]) L.
Proof.
  destruct (local_vertices2 (1/3) 1 3 2) as (d & L & Hd & _ & H). exists L. split; apply H; try lra; rewrite Rminus_diag_eq, Rabs_R0 by reflexivity; auto.
Qed.
(** the origin, and in 2D (with the skew factor 1/3) the position (4, -1) *)
Example C59_case_vertex3 : skewed kSkew3 (1/2) [0; 0; 0] = [IZR 0; IZR 0; IZR 0].
Proof. rewrite skewed3. repeat (apply (f_equal2 cons)); try reflexivity; field. Qed.
Example C59_case_vertex2 : skewed (1/3) 1 [4; -1] = [IZR 5; IZR 0].
Proof. rewrite skewed2. repeat (apply (f_equal2 cons)); try reflexivity; field. Qed.
