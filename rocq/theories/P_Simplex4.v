(** C60: 4D SuperSimplex noise, with the constants before rounding to float. Real arithmetic, one lane. *)
From Coq Require Import Reals ZArith List Bool Lia Lra Psatz.
From Verif Require Import Prelude Simd_Model Utils_Model Nodes_Model Setters_Model Simd_R Bits P_Hash P_Grad P_Blend P_Lattice Lattice Simplex_Model Simplex_Spec Simplex_Geom Simplex_2D P_Simplex Simplex_3D P_Simplex3 Simplex_Cells Simplex_4D Simplex_4Dmiss.
Import ListNotations.
Open Scope R_scope.

(** the vertices visited for a position *)
Definition ss4_base (qs : list R) : list Z :=
  match qs with
  | [x; y; z; w] => let X := x - IZR (Rfloor x) in let Y := y - IZR (Rfloor y) in let Z := z - IZR (Rfloor z) in let W := w - IZR (Rfloor w) in
    let s := (X + Y + Z + W) / 5 in let b := near4 s (X - s) (Y - s) (Z - s) (W - s) in
    [Rfloor x + bit b 1; Rfloor y + bit b 2; Rfloor z + bit b 4; Rfloor w + bit b 8]%Z
  | _ => []
  end.
Lemma ss4_base_eq : forall x y z w, ss4_base [x; y; z; w] =
  let X := x - IZR (Rfloor x) in let Y := y - IZR (Rfloor y) in let Z := z - IZR (Rfloor z) in let W := w - IZR (Rfloor w) in
    let s := (X + Y + Z + W) / 5 in let b := near4 s (X - s) (Y - s) (Z - s) (W - s) in
    [Rfloor x + bit b 1; Rfloor y + bit b 2; Rfloor z + bit b 4; Rfloor w + bit b 8]%Z.
Proof. reflexivity. Qed.
Definition ss4_from (qs : list R) (base : list Z) : list (list Z) :=
  match qs, base with
  | [x; y; z; w], [n; m; l; o] => let X := x - IZR n in let Y := y - IZR m in let Z := z - IZR l in let W := w - IZR o in let s := (X + Y + Z + W) / 5 in
    ss4_vertices n m l o (Rltb s 0) (Rltb s (W - s)) (Rltb s (Z - s)) (Rltb s (Y - s)) (Rltb s (X - s)) (Rltb (X - s) 0) (Rltb (X - s) (- (Y - s))) (Rltb (X - s) (- (Z - s))) (Rltb (X - s) (- (W - s))) (Rltb (Y - s) 0) (Rltb (Y - s) (- (Z - s))) (Rltb (Y - s) (- (W - s))) (Rltb (Z - s) 0) (Rltb (Z - s) (- (W - s))) (Rltb (W - s) 0)
  | _, _ => []
  end.
Definition ss4_taken (qs : list R) : list (list Z) := ss4_from qs (ss4_base qs).

Section P.
Variable inf : R.
Variable bits : R -> Z.
Notation S_ := (Rops inf bits).
Lemma kSS4 : (@kBoundSuper4 S_ : R) = kSuper 4.
Proof. unfold kBoundSuper4, kSuper; cbn [lit Rops]; change (-30)%Z with (- (30))%Z; rewrite (pow2_neg 30) by lia; reflexivity. Qed.
Lemma ss4_cell : forall x y z w n m l o, ss4_base [x; y; z; w] = [n; m; l; o] -> cell4 (x - IZR n) (y - IZR m) (z - IZR l) (w - IZR o).
Proof.
  intros x y z w n m l o E. cbn [ss4_base] in E. cbv zeta in E.
  pose proof (Rfloor_spec x) as Fx. pose proof (Rfloor_spec y) as Fy. pose proof (Rfloor_spec z) as Fz. pose proof (Rfloor_spec w) as Fw.
  pose proof (near4_spec (x - IZR (Rfloor x)) (y - IZR (Rfloor y)) (z - IZR (Rfloor z)) (w - IZR (Rfloor w)) ltac:(lra) ltac:(lra) ltac:(lra) ltac:(lra)) as C. cbv zeta in C.
  set (b := near4 _ _ _ _ _) in *. clearbody b. injection E as <- <- <- <-. rewrite !plus_IZR.
  replace (x - (IZR (Rfloor x) + IZR (bit b 1))) with (x - IZR (Rfloor x) - IZR (bit b 1)) by ring. replace (y - (IZR (Rfloor y) + IZR (bit b 2))) with (y - IZR (Rfloor y) - IZR (bit b 2)) by ring.
  replace (z - (IZR (Rfloor z) + IZR (bit b 4))) with (z - IZR (Rfloor z) - IZR (bit b 4)) by ring. replace (w - (IZR (Rfloor w) + IZR (bit b 8))) with (w - IZR (Rfloor w) - IZR (bit b 8)) by ring. exact C.
Qed.
Lemma supersimplex4_eq : forall ft so (k freq lo hi : R) (seed : Z) (x y z w : R),
  SuperSimplexGen4 (s:=S_) (W:=scalar) ft (ss4k_exact inf bits k) so freq (out_range inf bits lo hi) seed x y z w =
  rescale lo hi (16 * kSuper 4) (bumps (4/5) (unskew 4) (z_add seed (s32 so)) (skewed k freq [x; y; z; w]) (ss4_taken (skewed k freq [x; y; z; w]))).
Proof.
  intros ft so k freq lo hi seed x y z w. unfold SuperSimplexGen4, slet.
  assert (B : (@kBoundSuper4 S_ : R) <> 0) by (rewrite kSS4; pose proof (kSuper_pos 4); lra).
  refine (eq_trans (ScaleOutput_eq _ _ _ _ _ _ B) _). rewrite kSS4, <- rescale16 by apply kSuper_pos. f_equal. rewrite so_eq.
  rewrite skewed4. cbv zeta.
  change (x * freq) with (fmul (s:=S_) (W:=scalar) x (fv (s:=S_) (W:=scalar) freq)). change (y * freq) with (fmul (s:=S_) (W:=scalar) y (fv (s:=S_) (W:=scalar) freq)). change (z * freq) with (fmul (s:=S_) (W:=scalar) z (fv (s:=S_) (W:=scalar) freq)). change (w * freq) with (fmul (s:=S_) (W:=scalar) w (fv (s:=S_) (W:=scalar) freq)).
  generalize (fmul (s:=S_) (W:=scalar) x (fv (s:=S_) (W:=scalar) freq)) (fmul (s:=S_) (W:=scalar) y (fv (s:=S_) (W:=scalar) freq)) (fmul (s:=S_) (W:=scalar) z (fv (s:=S_) (W:=scalar) freq)) (fmul (s:=S_) (W:=scalar) w (fv (s:=S_) (W:=scalar) freq)). clear x y z w. intros X Y Z W.
  unfold supersimplex4, slet. change (ss4_kSkew (ss4k_exact inf bits k)) with k.
  change (fmul (s:=S_) (W:=scalar) (fv (s:=S_) (W:=scalar) k) (fadd (s:=S_) (W:=scalar) (fadd (s:=S_) (W:=scalar) (fadd (s:=S_) (W:=scalar) X Y) Z) W)) with (k * (X + Y + Z + W)).
  change (fadd (s:=S_) (W:=scalar) X (k * (X + Y + Z + W))) with (X + k * (X + Y + Z + W)). change (fadd (s:=S_) (W:=scalar) Y (k * (X + Y + Z + W))) with (Y + k * (X + Y + Z + W)).
  change (fadd (s:=S_) (W:=scalar) Z (k * (X + Y + Z + W))) with (Z + k * (X + Y + Z + W)). change (fadd (s:=S_) (W:=scalar) W (k * (X + Y + Z + W))) with (W + k * (X + Y + Z + W)).
  generalize (X + k * (X + Y + Z + W)) (Y + k * (X + Y + Z + W)) (Z + k * (X + Y + Z + W)) (W + k * (X + Y + Z + W)). clear X Y Z W. intros x y z w.
  unfold prX, prY, prZ, prW. rewrite !move_p, !move_d, !frac0, near4_eq.
  unfold ss4_taken.
  pose proof (ss4_base_eq x y z w) as E. cbv zeta in E. apply ss4_cell in E as C. rewrite E. clear E.
  set (b := near4 _ _ _ _ _) in *. clearbody b.
  rewrite !(bitb b 1), !(bitb b 2), !(bitb b 4), !(bitb b 8) by reflexivity.
  set (n := (Rfloor x + bit b 1)%Z) in *. set (m := (Rfloor y + bit b 2)%Z) in *. set (l := (Rfloor z + bit b 4)%Z) in *. set (o := (Rfloor w + bit b 8)%Z) in *. clearbody n m l o.
  cbn [ss4_from]. cbv zeta.
  apply acc16; [cbn; lia|apply ss4_at_visits; exact C|discriminate|]. apply (ss4_reaching n m l o x y z w C).
Qed.

(** The output is a sum over lattice vertices that include every vertex at a squared distance below 18/25. *)
Theorem C60_supersimplex4 : forall ft so (k freq lo hi : R) (seed : Z) (x y z w : R), exists vs,
  reaching (18/25) (unskew 4) (skewed k freq [x; y; z; w]) vs /\
  SuperSimplexGen4 (s:=S_) (W:=scalar) ft (ss4k_exact inf bits k) so freq (out_range inf bits lo hi) seed x y z w =
  rescale lo hi (16 * kSuper 4) (bumps (4/5) (unskew 4) (z_add seed (s32 so)) (skewed k freq [x; y; z; w]) vs).
Proof.
  intros. exists (ss4_taken (skewed k freq [x; y; z; w])). split; [|apply supersimplex4_eq]. rewrite skewed4. cbv zeta.
  match goal with |- reaching _ _ [?a; ?b; ?c; ?d] _ => pose proof (ss4_base_eq a b c d) as E; cbv zeta in E; unfold ss4_taken; rewrite E; apply ss4_cell in E; cbn [ss4_from]; cbv zeta; apply ss4_reaching; exact E end.
Qed.
(** At most one vertex within reach is left out, and it is at the border of the reach. *)
Lemma perlin4_three : forall h x y z w, dot4 (perlin4_grad h) x y z w * dot4 (perlin4_grad h) x y z w <= 3 * (x * x + y * y + z * z + w * w).
Proof.
  intros. assert (C : forall a b c d : R, (a + b + c) * (a + b + c) <= 3 * (a * a + b * b + c * c + d * d)).
  { intros. pose proof (sq_0 (a - b)). pose proof (sq_0 (a - c)). pose proof (sq_0 (b - c)). pose proof (sq_0 d). lra. }
  assert (S : forall b : bool, sgn b * sgn b = 1) by (intros []; cbn [sgn]; ring).
  unfold perlin4_grad. destruct ((h / 8) mod 4)%Z as [|[p|[p|p|]|]|p];
  generalize (S (Z.testbit h 0)) (S (Z.testbit h 1)) (S (Z.testbit h 2)); generalize (sgn (Z.testbit h 0)) (sgn (Z.testbit h 1)) (sgn (Z.testbit h 2)); intros a b c A B D; unfold dot4;
  match goal with
  | |- (0 * x + a * y + b * z + c * w) * _ <= _ => pose proof (C (a * y) (b * z) (c * w) x) as E; replace (x * x + y * y + z * z + w * w) with (a * y * (a * y) + b * z * (b * z) + c * w * (c * w) + x * x) by (replace (a * y * (a * y)) with (a * a * (y * y)) by ring; replace (b * z * (b * z)) with (b * b * (z * z)) by ring; replace (c * w * (c * w)) with (c * c * (w * w)) by ring; rewrite A, B, D; ring)
  | |- (a * x + 0 * y + b * z + c * w) * _ <= _ => pose proof (C (a * x) (b * z) (c * w) y) as E; replace (x * x + y * y + z * z + w * w) with (a * x * (a * x) + b * z * (b * z) + c * w * (c * w) + y * y) by (replace (a * x * (a * x)) with (a * a * (x * x)) by ring; replace (b * z * (b * z)) with (b * b * (z * z)) by ring; replace (c * w * (c * w)) with (c * c * (w * w)) by ring; rewrite A, B, D; ring)
  | |- (a * x + b * y + 0 * z + c * w) * _ <= _ => pose proof (C (a * x) (b * y) (c * w) z) as E; replace (x * x + y * y + z * z + w * w) with (a * x * (a * x) + b * y * (b * y) + c * w * (c * w) + z * z) by (replace (a * x * (a * x)) with (a * a * (x * x)) by ring; replace (b * y * (b * y)) with (b * b * (y * y)) by ring; replace (c * w * (c * w)) with (c * c * (w * w)) by ring; rewrite A, B, D; ring)
  | |- (a * x + b * y + c * z + 0 * w) * _ <= _ => pose proof (C (a * x) (b * y) (c * z) w) as E; replace (x * x + y * y + z * z + w * w) with (a * x * (a * x) + b * y * (b * y) + c * z * (c * z) + w * w) by (replace (a * x * (a * x)) with (a * a * (x * x)) by ring; replace (b * y * (b * y)) with (b * b * (y * y)) by ring; replace (c * z * (c * z)) with (c * c * (z * z)) by ring; rewrite A, B, D; ring)
  end; (eapply Rle_trans; [|exact E]; apply Req_le; ring).
Qed.
Lemma bump_small : forall seed qs v, length qs = 4%nat -> length v = 4%nat -> 18/25 <= sqlen (offset (unskew 4) qs v) -> Rabs (bump (4/5) (unskew 4) seed qs v) <= 7/100000.
Proof.
  intros seed qs v Hq Hv D. unfold bump, falloff.
  destruct qs as [|x [|y [|z [|w [|? ?]]]]]; try discriminate Hq. destruct v as [|a [|b [|c [|d [|? ?]]]]]; try discriminate Hv.
  destruct (Rle_lt_dec (4/5) (sqlen (offset (unskew 4) [x; y; z; w] [a; b; c; d]))) as [H|H].
  { rewrite Rmax_left by lra. replace (0 ^ 4 * _) with 0 by ring. rewrite Rabs_R0. lra. }
  rewrite Rmax_right by lra. set (f := 4/5 - _) in *. assert (F : 0 <= f <= 8/100) by (unfold f; lra).
  rewrite off4 in *. cbv zeta in *. unfold perlin_corner. unfold sqlen in *. cbn [map] in *. rewrite !sum_cons, sum_nil in *.
  match goal with |- Rabs (_ * dot4 ?g ?p ?q ?r ?s) <= _ => assert (T : Rabs (dot4 g p q r s) <= 31/20) by (pose proof (perlin4_three (hash31 seed [a; b; c; d]) p q r s) as T; apply Rabs_le; split; nra) end.
  rewrite Rabs_mult. rewrite (Rabs_right (f ^ 4)) by (apply Rle_ge, pow_le; lra).
  assert (G : f ^ 4 <= (8/100) ^ 4) by (apply pow_incr; lra). pose proof (pow_le f 4 (proj1 F)).
  eapply Rle_trans; [apply Rmult_le_compat; [lra|apply Rabs_pos|exact G|exact T]|]. lra.
Qed.
Theorem C60_supersimplex4_all_vertices : forall ft so (k freq lo hi : R) (seed : Z) (x y z w : R) L,
  reaching (4/5) (unskew 4) (skewed k freq [x; y; z; w]) L ->
  Rabs (SuperSimplexGen4 (s:=S_) (W:=scalar) ft (ss4k_exact inf bits k) so freq (out_range inf bits lo hi) seed x y z w -
        rescale lo hi (16 * kSuper 4) (bumps (4/5) (unskew 4) (z_add seed (s32 so)) (skewed k freq [x; y; z; w]) L)) <= Rabs (hi - lo) / 5000.
Proof.
  intros ft so k freq lo hi seed x y z w L HL. rewrite supersimplex4_eq. rewrite skewed4 in *. cbv zeta in *. generalize dependent (x * freq + k * (x * freq + y * freq + z * freq + w * freq)). generalize (y * freq + k * (x * freq + y * freq + z * freq + w * freq)) (z * freq + k * (x * freq + y * freq + z * freq + w * freq)) (w * freq + k * (x * freq + y * freq + z * freq + w * freq)). clear x y z w. intros y z w x HL.
  match type of HL with reaching _ _ [?a; ?b; ?c; ?d] _ => pose proof (ss4_base_eq a b c d) as E; cbv zeta in E; unfold ss4_taken; rewrite E; apply ss4_cell in E as C; set (qs := [a; b; c; d]) in * end.
  match type of E with _ = [?n; ?m; ?l; ?o] => pose proof (ss4_reaching n m l o _ _ _ _ C) as RE; pose proof (ss4_miss n m l o _ _ _ _ C) as MI end.
  cbv zeta in RE, MI. unfold qs at 2. cbn [ss4_from]. cbv zeta. fold qs in RE, MI.
  match type of RE with reaching _ _ _ ?v => set (vs := v) in * end. match type of MI with forall v, _ -> _ -> _ \/ v = ?vv => set (v0 := vv) in * end.
  assert (L0 : length v0 = 4%nat) by reflexivity. clearbody v0 vs. clear C E.
  assert (B : Rabs (bumps (4/5) (unskew 4) (z_add seed (s32 so)) qs vs - bumps (4/5) (unskew 4) (z_add seed (s32 so)) qs L) <= 7/100000).
  { destruct RE as (ND & LEN & RE). destruct (in_dec (list_eq_dec Z.eq_dec) v0 vs) as [I|I].
    - rewrite (bumps_reaching (4/5) _ _ qs L vs HL); [rewrite Rminus_diag_eq by reflexivity; rewrite Rabs_R0; lra|].
      split; [auto|split; [auto|]]. intros v Hv Dv. destruct (MI v Hv Dv) as [?| ->]; auto.
    - rewrite (bumps_reaching (4/5) _ _ qs L (v0 :: vs) HL).
      + unfold bumps. cbn [map]. rewrite sum_cons. match goal with |- Rabs (?a - (?b + ?a)) <= _ => replace (a - (b + a)) with (- b) by ring end. rewrite Rabs_Ropp.
        apply bump_small; auto. apply Rnot_lt_le. intros Q. apply I, RE; auto.
      + split; [constructor; auto|split; [intros v [<-|H]; auto|]]. intros v Hv Dv. destruct (MI v Hv Dv) as [?| ->]; [right|left]; auto. }
  unfold rescale. match goal with |- Rabs (?l0 + ?d * ((?p + ?b) / ?c) - (?l0 + ?d * ((?q + ?b) / ?c))) <= _ => replace (l0 + d * ((p + b) / c) - (l0 + d * ((q + b) / c))) with (d * ((p - q) / c)) by (field; pose proof (kSuper_pos 4); lra) end.
  rewrite Rabs_mult. unfold Rdiv at 2. apply Rmult_le_compat_l; [apply Rabs_pos|]. unfold Rdiv. rewrite Rabs_mult.
  assert (K : Rabs (/ (2 * (16 * kSuper 4))) <= 28/10). { unfold kSuper. rewrite Rabs_right by lra. lra. }
  eapply Rle_trans; [apply Rmult_le_compat; [apply Rabs_pos|apply Rabs_pos|exact B|exact K]|]. lra.
Qed.

(** ** Continuity of a sum of bumps, 4D *)
Lemma cont_bump4 : forall r2 u seed a b c d f g h e xs, continuous_at f xs -> continuous_at g xs -> continuous_at h xs -> continuous_at e xs ->
  continuous_at (fun ys => bump r2 u seed [f ys; g ys; h ys; e ys] [a; b; c; d]) xs.
Proof.
  intros r2 u seed a b c d f g h e xs Hf Hg Hh Hk.
  assert (A : continuous_at (fun ys => f ys - IZR a) xs) by (apply cont_minus; auto using cont_const).
  assert (B : continuous_at (fun ys => g ys - IZR b) xs) by (apply cont_minus; auto using cont_const).
  assert (C : continuous_at (fun ys => h ys - IZR c) xs) by (apply cont_minus; auto using cont_const).
  assert (D : continuous_at (fun ys => e ys - IZR d) xs) by (apply cont_minus; auto using cont_const).
  assert (S : continuous_at (fun ys => u * (f ys - IZR a + (g ys - IZR b + (h ys - IZR c + (e ys - IZR d + 0))))) xs) by (repeat first [apply cont_mult | apply cont_plus | apply cont_const | assumption]).
  assert (A' : continuous_at (fun ys => f ys - IZR a + u * (f ys - IZR a + (g ys - IZR b + (h ys - IZR c + (e ys - IZR d + 0))))) xs) by (apply cont_plus; auto).
  assert (B' : continuous_at (fun ys => g ys - IZR b + u * (f ys - IZR a + (g ys - IZR b + (h ys - IZR c + (e ys - IZR d + 0))))) xs) by (apply cont_plus; auto).
  assert (C' : continuous_at (fun ys => h ys - IZR c + u * (f ys - IZR a + (g ys - IZR b + (h ys - IZR c + (e ys - IZR d + 0))))) xs) by (apply cont_plus; auto).
  assert (D' : continuous_at (fun ys => e ys - IZR d + u * (f ys - IZR a + (g ys - IZR b + (h ys - IZR c + (e ys - IZR d + 0))))) xs) by (apply cont_plus; auto).
  unfold bump, falloff, sqlen, offset. cbn [offs map]. cbn [sum fold_right].
  apply cont_mult.
  - apply cont_pow, cont_max0. apply cont_minus; [apply cont_const|]. repeat first [apply cont_plus | apply cont_const | apply cont_mult; assumption].
  - unfold perlin_corner, dot4. destruct (perlin4_grad _) as [[[? ?] ?] ?]. repeat first [apply cont_plus | apply cont_mult | apply cont_const | assumption].
Qed.
Lemma bumps4_cont : forall r2 k freq seed L x y z w, (forall v, In v L -> length v = 4%nat) ->
  continuous_at (fun pos => bumps r2 (unskew 4) seed (skewed k freq [nth 0 pos 0; nth 1 pos 0; nth 2 pos 0; nth 3 pos 0]) L) [x; y; z; w].
Proof.
  intros r2 k freq seed L x y z w HL. unfold bumps. apply (cont_sum (fun v pos => bump r2 (unskew 4) seed (skewed k freq [nth 0 pos 0; nth 1 pos 0; nth 2 pos 0; nth 3 pos 0]) v)).
  intros v Hv. specialize (HL v Hv). destruct v as [|a [|b [|c [|d [|? ?]]]]]; try discriminate HL.
  apply (cont_ext (fun pos => let s := nth 0 pos 0 * freq + nth 1 pos 0 * freq + nth 2 pos 0 * freq + nth 3 pos 0 * freq in bump r2 (unskew 4) seed [nth 0 pos 0 * freq + k * s; nth 1 pos 0 * freq + k * s; nth 2 pos 0 * freq + k * s; nth 3 pos 0 * freq + k * s] [a; b; c; d])).
  { intros. rewrite skewed4. reflexivity. }
  cbv zeta. apply cont_bump4; repeat first [apply cont_plus | apply cont_mult | apply cont_const | apply cont_nth].
Qed.
Lemma Q4_x : forall x y z w, x * x / 2 <= Q4 x y z w.
Proof. intros. rewrite Q4_diff. set (s := (x + y + z + w) / 5). pose proof (sq_0 (y - s)). pose proof (sq_0 (z - s)). pose proof (sq_0 (w - s)). pose proof (sq_0 ((x - s) - s)). lra. Qed.
Lemma Q4_sym : forall x y z w, Q4 x y z w = Q4 y x z w /\ Q4 x y z w = Q4 z y x w /\ Q4 x y z w = Q4 w y z x.
Proof. intros. unfold Q4. repeat split; field. Qed.
Lemma box4_reaching : forall x y z w X Y Z W, Rabs (X - x) < 1 -> Rabs (Y - y) < 1 -> Rabs (Z - z) < 1 -> Rabs (W - w) < 1 ->
  reaching (4/5) (unskew 4) [X; Y; Z; W] (box [Rfloor x; Rfloor y; Rfloor z; Rfloor w]).
Proof.
  intros x y z w X Y Z W HX HY HZ HW. split; [apply box_nodup|]. split; [intros v H; rewrite (box_length _ _ H); reflexivity|].
  intros [|a [|b [|c [|d [|? ?]]]]] L D; try discriminate L. rewrite sqlen4 in D. apply box_in.
  set (p := X - IZR a) in *. set (q := Y - IZR b) in *. set (r := Z - IZR c) in *. set (t := W - IZR d) in *.
  destruct (Q4_sym p q r t) as (E1 & E2 & E3).
  pose proof (Q4_x p q r t). pose proof (Q4_x q p r t). pose proof (Q4_x r q p t). pose proof (Q4_x t q r p).
  assert (Rabs p <= 3/2) by (apply Rabs_le; split; nra). assert (Rabs q <= 3/2) by (apply Rabs_le; split; nra). assert (Rabs r <= 3/2) by (apply Rabs_le; split; nra). assert (Rabs t <= 3/2) by (apply Rabs_le; split; nra).
  repeat constructor; eapply IZR_floor_close; eauto; lra.
Qed.
Lemma near4l : forall d x y z w ys, near d [x; y; z; w] ys -> exists x' y' z' w', ys = [x'; y'; z'; w'] /\ Rabs (x' - x) < d /\ Rabs (y' - y) < d /\ Rabs (z' - z) < d /\ Rabs (w' - w) < d.
Proof.
  intros d x y z w ys N. inversion N as [|? a ? l H1 N1]; subst. inversion N1 as [|? b ? l' H2 N2]; subst. inversion N2 as [|? c ? l'' H3 N3]; subst. inversion N3 as [|? e ? l3 H4 N4]; subst. inversion N4; subst. eauto 12.
Qed.
Lemma skew_small4 : forall k freq, exists d, 0 < d /\ forall x y z w x' y' z' w', Rabs (x' - x) < d -> Rabs (y' - y) < d -> Rabs (z' - z) < d -> Rabs (w' - w) < d -> forall c c', Rabs (c' - c) < d ->
  Rabs (c' * freq + k * (x' * freq + y' * freq + z' * freq + w' * freq) - (c * freq + k * (x * freq + y * freq + z * freq + w * freq))) < 1.
Proof.
  intros k freq. set (M := Rabs freq * (1 + 4 * Rabs k) + 1).
  assert (HM : 0 < M) by (unfold M; pose proof (Rabs_pos freq); pose proof (Rabs_pos k); nra).
  exists (/ M). split; [apply Rinv_0_lt_compat; auto|]. intros x y z w x' y' z' w' Hx Hy Hz Hw c c' Hc.
  replace (c' * freq + k * (x' * freq + y' * freq + z' * freq + w' * freq) - (c * freq + k * (x * freq + y * freq + z * freq + w * freq))) with (freq * ((c' - c) + k * ((x' - x) + (y' - y) + (z' - z) + (w' - w)))) by ring.
  rewrite Rabs_mult. set (a := x' - x) in *. set (b := y' - y) in *. set (e := z' - z) in *. set (f := w' - w) in *. set (g := c' - c) in *.
  assert (Rabs (g + k * (a + b + e + f)) <= / M * (1 + 4 * Rabs k)).
  { eapply Rle_trans; [apply Rabs_triang|]. rewrite Rabs_mult. pose proof (Rabs_triang a b). pose proof (Rabs_triang (a + b) e). pose proof (Rabs_triang (a + b + e) f). pose proof (Rabs_pos k). nra. }
  pose proof (Rabs_pos freq). apply Rle_lt_trans with (Rabs freq * (/ M * (1 + 4 * Rabs k))); [apply Rmult_le_compat_l; auto|].
  replace 1 with (/ M * M) at 2 by (field; lra). replace (Rabs freq * (/ M * (1 + 4 * Rabs k))) with (/ M * (Rabs freq * (1 + 4 * Rabs k))) by ring.
  apply Rmult_lt_compat_l; [apply Rinv_0_lt_compat; auto|]. unfold M. lra.
Qed.
Lemma local_vertices4 : forall k freq x y z w, exists d L, 0 < d /\ (forall v, In v L -> length v = 4%nat) /\
  forall x' y' z' w', Rabs (x' - x) < d -> Rabs (y' - y) < d -> Rabs (z' - z) < d -> Rabs (w' - w) < d -> reaching (4/5) (unskew 4) (skewed k freq [x'; y'; z'; w']) L.
Proof.
  intros k freq x y z w. destruct (skew_small4 k freq) as (d & Hd & H). set (s := k * (x * freq + y * freq + z * freq + w * freq)).
  exists d, (box [Rfloor (x * freq + s); Rfloor (y * freq + s); Rfloor (z * freq + s); Rfloor (w * freq + s)]).
  split; [exact Hd|]. split; [intros v Hv; rewrite (box_length _ _ Hv); reflexivity|].
  intros x' y' z' w' Hx Hy Hz Hw. rewrite skewed4. cbv zeta. unfold s. apply box4_reaching; auto.
Qed.
(** Near any position the output stays within 1/2500 of the output range. *)
Theorem C60_supersimplex4_seams : forall ft so (k freq lo hi : R) (seed : Z) (x y z w eps : R), 0 < eps -> exists d, 0 < d /\
  forall x' y' z' w', Rabs (x' - x) < d -> Rabs (y' - y) < d -> Rabs (z' - z) < d -> Rabs (w' - w) < d ->
  Rabs (SuperSimplexGen4 (s:=S_) (W:=scalar) ft (ss4k_exact inf bits k) so freq (out_range inf bits lo hi) seed x' y' z' w' -
        SuperSimplexGen4 (s:=S_) (W:=scalar) ft (ss4k_exact inf bits k) so freq (out_range inf bits lo hi) seed x y z w) < eps + Rabs (hi - lo) / 2500.
Proof.
  intros ft so k freq lo hi seed x y z w eps He. destruct (local_vertices4 k freq x y z w) as (d & L & Hd & HL & HR).
  set (g := fun pos => rescale lo hi (16 * kSuper 4) (bumps (4/5) (unskew 4) (z_add seed (s32 so)) (skewed k freq [nth 0 pos 0; nth 1 pos 0; nth 2 pos 0; nth 3 pos 0]) L)).
  assert (Cg : continuous_at g [x; y; z; w]) by (apply cont_rescale, bumps4_cont; auto).
  destruct (Cg eps He) as (d' & Hd' & Q). exists (Rmin d d'). split; [apply Rmin_pos; auto|]. intros x' y' z' w' Hx Hy Hz Hw.
  specialize (Q [x'; y'; z'; w']). assert (N : near d' [x; y; z; w] [x'; y'; z'; w']) by (pose proof (Rmin_r d d'); repeat constructor; lra). specialize (Q N).
  pose proof (Rmin_l d d') as M. assert (Rz : forall c, Rabs (c - c) < d) by (intros; rewrite Rminus_diag_eq, Rabs_R0 by reflexivity; auto).
  pose proof (C60_supersimplex4_all_vertices ft so k freq lo hi seed x' y' z' w' L (HR x' y' z' w' ltac:(lra) ltac:(lra) ltac:(lra) ltac:(lra))) as A.
  pose proof (C60_supersimplex4_all_vertices ft so k freq lo hi seed x y z w L (HR x y z w (Rz x) (Rz y) (Rz z) (Rz w))) as A0. unfold g in Q. cbn [nth] in Q.
  revert Q A A0. match goal with |- Rabs (?a - ?b) < _ -> Rabs (?c - _) <= _ -> Rabs (?d - _) <= _ -> _ => generalize a b c d end.
  intros p q p' q' Q A A0. replace (p' - q') with ((p' - p) + (p - q) + - (q' - q)) by ring.
  eapply Rle_lt_trans; [apply Rabs_triang|]. rewrite Rabs_Ropp. pose proof (Rabs_triang (p' - p) (p - q)). lra.
Qed.
(** a list of all vertices within reach exists for every position, so the hypothesis of the theorems above is met *)
Example C60_case : forall k freq x y z w, exists L, reaching (4/5) (unskew 4) (skewed k freq [x; y; z; w]) L.
Proof.
  intros. destruct (local_vertices4 k freq x y z w) as (d & L & Hd & _ & H). exists L. apply H; rewrite Rminus_diag_eq, Rabs_R0 by reflexivity; auto.
Qed.
End P.
Print Assumptions C60_supersimplex4_all_vertices.
