(** Simplex in 3D and 4D: the vertices visited are those of the simplex around the position. *)
From Coq Require Import Reals ZArith List Bool Lia Lra Psatz.
From Verif Require Import Prelude Simd_Model Utils_Model Nodes_Model Setters_Model Simd_R Bits P_Hash P_Grad P_Blend P_Lattice Lattice Simplex_Model Simplex_Spec Simplex_Geom Simplex_2D P_Simplex Simplex_3D P_Simplex3.
Import ListNotations.
Open Scope R_scope.

Definition b2z (b : bool) : Z := if b then 1%Z else 0%Z.
Definition sx3_vertices (n m l : Z) (xy yz xz : bool) : list (list Z) :=
  [[n; m; l];
   [n + b2z (xy && xz); m + b2z (yz && negb xy); l + b2z (negb (xz || yz))];
   [n + b2z (xy || xz); m + b2z (negb (xy && negb yz)); l + b2z (negb (xz && yz))];
   [n + 1; m + 1; l + 1]]%Z.
Ltac inside_by ws := exists ws; split; [reflexivity|split; [repeat (apply Forall_cons; [lra|]); apply Forall_nil|split; [rewrite !sum_cons, sum_nil; ring|]]];
  intros j Hj; cbn [length] in Hj; destruct j as [|[|[|[|j]]]]; try lia; cbn [nth combine map fst snd]; rewrite !sum_cons, sum_nil, ?plus_IZR; ring.
Lemma sx3_simplex : forall n m l (x y z : R), 0 <= x - IZR n < 1 -> 0 <= y - IZR m < 1 -> 0 <= z - IZR l < 1 ->
  simplex_around [x; y; z] (sx3_vertices n m l (Rleb (y - IZR m) (x - IZR n)) (Rleb (z - IZR l) (y - IZR m)) (Rleb (z - IZR l) (x - IZR n))).
Proof.
  intros n m l x y z Hx Hy Hz. unfold sx3_vertices.
  assert (X : x = IZR n + (x - IZR n)) by ring. assert (Y : y = IZR m + (y - IZR m)) by ring. assert (Z : z = IZR l + (z - IZR l)) by ring.
  set (a := x - IZR n) in *. set (b := y - IZR m) in *. set (c := z - IZR l) in *. clearbody a b c. subst x y z.
  unfold Rleb. destruct (Rle_dec b a), (Rle_dec c b), (Rle_dec c a); try (exfalso; lra); cbn [b2z andb orb negb]; rewrite ?Z.add_0_r.
  all: split; [split; [cbn [steps]; repeat split|cbn [last map]; unfold Z.succ; reflexivity]|split; [intros v Hv; cbn [In] in Hv; decompose [or] Hv; subst; try reflexivity; contradiction|]].
  all: try match goal with |- exists i, _ => first [solve [exists 0%nat; split; [cbn [length]; lia|intros [|[|[|[|j]]]]; cbn [nth Nat.eqb]; lia]]|solve [exists 1%nat; split; [cbn [length]; lia|intros [|[|[|[|j]]]]; cbn [nth Nat.eqb]; lia]]|solve [exists 2%nat; split; [cbn [length]; lia|intros [|[|[|[|j]]]]; cbn [nth Nat.eqb]; lia]]] end.
  - inside_by [1 - a; a - b; b - c; c].
  - inside_by [1 - a; a - c; c - b; b].
  - inside_by [1 - c; c - a; a - b; b].
  - inside_by [1 - b; b - a; a - c; c].
  - inside_by [1 - b; b - c; c - a; a].
  - inside_by [1 - c; c - b; b - a; a].
Qed.

Ltac primesb := cbn [primed PrimesLookup]; unfold prX, prY, prZ, prW, fneg_if, iinvmasked_sub; sunf; cbn [andb orb negb]; repeat (apply (f_equal2 cons)); try reflexivity; zr.
Section S.
Variable inf : R.
Variable bits : R -> Z.
Notation S_ := (Rops inf bits).
Definition kR06 : R := 5033165 / 8388608.
Definition sx3_r (K : sx3k S_) : R := sx3_kR K.
Lemma sx3_at_visits : forall K n m l (x y z : R), let X := x - IZR n in let Y := y - IZR m in let Z := z - IZR l in
  Forall2 (visits inf bits (sx3_r K) (unskew 3) [x; y; z])
    (simplex3_at (s:=S_) (W:=scalar) K (z_mul n PrimeX) (z_mul m PrimeY) (z_mul l PrimeZ) X Y Z)
    (sx3_vertices n m l (Rleb Y X) (Rleb Z Y) (Rleb Z X)).
Proof.
  intros K n m l x y z X Y Z. unfold simplex3_at, slet, sx3_vertices. rewrite ?lit2, ?lit1.
  change (fge (s:=S_) (W:=scalar) X Y) with (Rleb Y X). change (fge (s:=S_) (W:=scalar) Y Z) with (Rleb Z Y). change (fge (s:=S_) (W:=scalar) X Z) with (Rleb Z X).
  assert (C1 : Rleb Y X = true -> Rleb Z Y = true -> Rleb Z X = true) by (unfold Rleb; repeat destruct (Rle_dec _ _); auto; lra).
  assert (C2 : Rleb Y X = false -> Rleb Z Y = false -> Rleb Z X = false) by (unfold Rleb; repeat destruct (Rle_dec _ _); auto; lra).
  revert C1 C2. generalize (Rleb Y X) (Rleb Z Y) (Rleb Z X). intros xy yz xz C1 C2.
  change (sx3_kR K) with (sx3_r K). generalize (sx3_r K). intros r.
  assert (XN : forall k, x - IZR (n + k) = X - IZR k) by (intros; unfold X; rewrite plus_IZR; ring).
  assert (YN : forall k, y - IZR (m + k) = Y - IZR k) by (intros; unfold Y; rewrite plus_IZR; ring).
  assert (ZN : forall k, z - IZR (l + k) = Z - IZR k) by (intros; unfold Z; rewrite plus_IZR; ring).
  repeat (apply Forall2_cons); try apply Forall2_nil.
  - eapply visits_intro; [primes| | |apply quart]; [rewrite off3|rewrite sqlen3]; fold X Y Z; unfold Q3; sunf; rlit; repeat (apply (f_equal2 cons)); try reflexivity; toR; field.
  - destruct xy, yz, xz; try (discriminate (C1 eq_refl eq_refl)); try (discriminate (C2 eq_refl eq_refl)); cbn [b2z andb orb negb]; rewrite ?Z.add_0_r; (eapply visits_intro; [primesb| | |apply quart]; [rewrite off3|rewrite sqlen3]; rewrite ?XN, ?YN, ?ZN; fold X Y Z; unfold Q3; sunf; cbn [andb orb negb]; rlit; repeat (apply (f_equal2 cons)); try reflexivity; toR; field).
  - destruct xy, yz, xz; try (discriminate (C1 eq_refl eq_refl)); try (discriminate (C2 eq_refl eq_refl)); cbn [b2z andb orb negb]; rewrite ?Z.add_0_r; (eapply visits_intro; [primesb| | |apply quart]; [rewrite off3|rewrite sqlen3]; rewrite ?XN, ?YN, ?ZN; fold X Y Z; unfold Q3; sunf; cbn [andb orb negb]; rlit; repeat (apply (f_equal2 cons)); try reflexivity; toR; field).
  - (eapply visits_intro; [primes| | |apply quart]; [rewrite off3|rewrite sqlen3]; rewrite ?XN, ?YN, ?ZN; fold X Y Z; unfold Q3; sunf; rlit; repeat (apply (f_equal2 cons)); try reflexivity; toR; field).
Qed.

Lemma value3_eq : forall ft seed r2 u qs (cs : list (contrib S_ scalar)) vs, (2 <= length qs <= 4)%nat ->
  Forall2 (visits inf bits r2 u qs) cs vs -> length cs = 4%nat -> (forall v, In v vs -> length v = length qs) ->
  value3 ft seed cs = bumps r2 u seed qs vs.
Proof.
  intros ft seed r2 u qs cs vs Hq H Hn Hl.
  destruct H as [|c0 v0 cs vs H0 H]; [discriminate|]. destruct H as [|c1 v1 cs vs H1 H]; [discriminate|]. destruct H as [|c2 v2 cs vs H2 H]; [discriminate|]. destruct H as [|c3 v3 cs vs H3 H]; [discriminate|].
  destruct H; [|discriminate]. cbn [value3]. unfold bumps. cbn [map]. rewrite !sum_cons, sum_nil.
  refine (eq_trans (fma_term inf bits ft seed r2 u qs _ v3 _ Hq (Hl _ _) H3) _); [cbn [In]; auto|].
  rewrite (fma_term inf bits ft seed r2 u qs _ v2 _ Hq (Hl v2 ltac:(cbn [In]; tauto)) H2).
  rewrite (fma_term inf bits ft seed r2 u qs _ v1 _ Hq (Hl v1 ltac:(cbn [In]; tauto)) H1).
  rewrite (mul_term inf bits ft seed r2 u qs _ v0 Hq (Hl v0 ltac:(cbn [In]; tauto)) H0). toR. ring.
Qed.
Lemma value4_eq : forall ft seed r2 u qs (cs : list (contrib S_ scalar)) vs, (2 <= length qs <= 4)%nat ->
  Forall2 (visits inf bits r2 u qs) cs vs -> length cs = 5%nat -> (forall v, In v vs -> length v = length qs) ->
  value4 ft seed cs = bumps r2 u seed qs vs.
Proof.
  intros ft seed r2 u qs cs vs Hq H Hn Hl.
  destruct H as [|c0 v0 cs vs H0 H]; [discriminate|]. destruct H as [|c1 v1 cs vs H1 H]; [discriminate|]. destruct H as [|c2 v2 cs vs H2 H]; [discriminate|]. destruct H as [|c3 v3 cs vs H3 H]; [discriminate|]. destruct H as [|c4 v4 cs vs H4 H]; [discriminate|].
  destruct H; [|discriminate]. cbn [value4]. unfold bumps. cbn [map]. rewrite !sum_cons, sum_nil.
  refine (eq_trans (fma_term inf bits ft seed r2 u qs _ v0 _ Hq (Hl _ _) H0) _); [cbn [In]; auto|].
  rewrite (fma_term inf bits ft seed r2 u qs _ v1 _ Hq (Hl v1 ltac:(cbn [In]; tauto)) H1).
  rewrite (fma_term inf bits ft seed r2 u qs _ v2 _ Hq (Hl v2 ltac:(cbn [In]; tauto)) H2).
  rewrite (fma_term inf bits ft seed r2 u qs _ v3 _ Hq (Hl v3 ltac:(cbn [In]; tauto)) H3).
  rewrite (mul_term inf bits ft seed r2 u qs _ v4 Hq (Hl v4 ltac:(cbn [In]; tauto)) H4). toR. ring.
Qed.
Lemma kS3 : (@kBoundSimplex3 S_ : R) = kSimplex 3.
Proof. unfold kBoundSimplex3, kSimplex; cbn [lit Rops]; change (-27)%Z with (- (27))%Z; rewrite (pow2_neg 27) by lia; reflexivity. Qed.
Lemma kS4 : (@kBoundSimplex4 S_ : R) = kSimplex 4.
Proof. unfold kBoundSimplex4, kSimplex; cbn [lit Rops]; change (-27)%Z with (- (27))%Z; rewrite (pow2_neg 27) by lia; reflexivity. Qed.

(** the vertices taken at a position, with the tie rule of the code *)
Definition simplex3_taken (qs : list R) : list (list Z) :=
  match qs with
  | [x; y; z] => let n := Rfloor x in let m := Rfloor y in let l := Rfloor z in
    sx3_vertices n m l (Rleb (y - IZR m) (x - IZR n)) (Rleb (z - IZR l) (y - IZR m)) (Rleb (z - IZR l) (x - IZR n))
  | _ => []
  end.
Lemma simplex3_eq : forall ft so (freq lo hi : R) (seed : Z) (x y z : R),
  SimplexGen (s:=S_) (W:=scalar) ft so freq (out_range inf bits lo hi) seed [x; y; z] =
  rescale lo hi (kSimplex 3) (bumps kR06 (unskew 3) (z_add seed (s32 so)) (skewed kSkew3 freq [x; y; z]) (simplex3_taken (skewed kSkew3 freq [x; y; z]))).
Proof.
  intros ft so freq lo hi seed x y z. cbn [SimplexGen]. unfold SimplexGen3, slet.
  assert (B : (@kBoundSimplex3 S_ : R) <> 0) by (rewrite kS3; pose proof (kSimplex_pos 3); lra).
  refine (eq_trans (ScaleOutput_eq _ _ _ _ _ _ B) _). rewrite kS3. f_equal. rewrite so_eq.
  rewrite skewed3 in *.
  change (x * freq) with (fmul (s:=S_) (W:=scalar) x (fv (s:=S_) (W:=scalar) freq)) in *. change (y * freq) with (fmul (s:=S_) (W:=scalar) y (fv (s:=S_) (W:=scalar) freq)) in *. change (z * freq) with (fmul (s:=S_) (W:=scalar) z (fv (s:=S_) (W:=scalar) freq)) in *.
  generalize (fmul (s:=S_) (W:=scalar) x (fv (s:=S_) (W:=scalar) freq)) (fmul (s:=S_) (W:=scalar) y (fv (s:=S_) (W:=scalar) freq)) (fmul (s:=S_) (W:=scalar) z (fv (s:=S_) (W:=scalar) freq)). clear x y z. intros X Y Z.
  unfold simplex3, slet. cbn [sx3_kSkew sx3k_code].
  assert (K : @lit S_ 11184811 (-25) = kSkew3) by (unfold kSkew3; cbn [lit Rops]; change (-25)%Z with (- (25))%Z; rewrite (pow2_neg 25) by lia; reflexivity).
  rewrite K.
  change (fadd (s:=S_) (W:=scalar) X (fmul (s:=S_) (W:=scalar) (fv (s:=S_) (W:=scalar) kSkew3) (fadd (s:=S_) (W:=scalar) (fadd (s:=S_) (W:=scalar) X Y) Z))) with (X + kSkew3 * (X + Y + Z)).
  change (fadd (s:=S_) (W:=scalar) Y (fmul (s:=S_) (W:=scalar) (fv (s:=S_) (W:=scalar) kSkew3) (fadd (s:=S_) (W:=scalar) (fadd (s:=S_) (W:=scalar) X Y) Z))) with (Y + kSkew3 * (X + Y + Z)).
  change (fadd (s:=S_) (W:=scalar) Z (fmul (s:=S_) (W:=scalar) (fv (s:=S_) (W:=scalar) kSkew3) (fadd (s:=S_) (W:=scalar) (fadd (s:=S_) (W:=scalar) X Y) Z))) with (Z + kSkew3 * (X + Y + Z)).
  generalize (X + kSkew3 * (X + Y + Z)) (Y + kSkew3 * (X + Y + Z)) (Z + kSkew3 * (X + Y + Z)). clear X Y Z. intros x y z.
  unfold prX, prY, prZ. rewrite !lower, !frac0.
  assert (KR : kR06 = sx3_r sx3k_code) by (unfold kR06, sx3_r; cbn [sx3_kR sx3k_code lit Rops]; change (-23)%Z with (- (23))%Z; rewrite (pow2_neg 23) by lia; reflexivity).
  rewrite KR. unfold simplex3_taken. cbv zeta.
  apply value3_eq; [cbn; lia|apply sx3_at_visits|reflexivity|].
  pose proof (Rfloor_spec x). pose proof (Rfloor_spec y). pose proof (Rfloor_spec z). apply sx3_simplex; lra.
Qed.
Theorem C60_simplex3 : forall ft so (freq lo hi : R) (seed : Z) (x y z : R), exists vs,
  simplex_around (skewed kSkew3 freq [x; y; z]) vs /\
  SimplexGen (s:=S_) (W:=scalar) ft so freq (out_range inf bits lo hi) seed [x; y; z] =
  rescale lo hi (kSimplex 3) (bumps kR06 (unskew 3) (z_add seed (s32 so)) (skewed kSkew3 freq [x; y; z]) vs).
Proof.
  intros. exists (simplex3_taken (skewed kSkew3 freq [x; y; z])). split; [|apply simplex3_eq]. rewrite skewed3. cbn [simplex3_taken]. cbv zeta.
  match goal with |- simplex_around [?a; ?b; ?c] _ => pose proof (Rfloor_spec a); pose proof (Rfloor_spec b); pose proof (Rfloor_spec c) end. apply sx3_simplex; lra.
Qed.
End S.

(** ** 4D *)
Lemma sqrt5_sq : sqrt 5 * sqrt 5 = 5. Proof. apply sqrt_sqrt. lra. Qed.
Lemma sqrt5_pos : 0 < sqrt 5. Proof. apply sqrt_lt_R0. lra. Qed.
Lemma unskew4_eq : 20 * unskew 4 * unskew 4 + 10 * unskew 4 + 1 = 0.
Proof.
  cbn [unskew]. pose proof sqrt5_pos. pose proof sqrt5_sq. set (t := sqrt 5) in *.
  replace (20 * (- (1) / (t + 5)) * (- (1) / (t + 5)) + 10 * (- (1) / (t + 5)) + 1) with ((t * t - 5) / ((t + 5) * (t + 5))) by (field; lra).
  rewrite H0. field. lra.
Qed.
Definition Q4 (x y z w : R) : R := x * x + y * y + z * z + w * w - (x + y + z + w) * (x + y + z + w) / 5.
Lemma off4 : forall X Y Z W a b c d, let s := unskew 4 * ((X - IZR a) + (Y - IZR b) + (Z - IZR c) + (W - IZR d)) in
  offset (unskew 4) [X; Y; Z; W] [a; b; c; d] = [X - IZR a + s; Y - IZR b + s; Z - IZR c + s; W - IZR d + s].
Proof.
  intros. unfold offset. cbn [offs map]. rewrite !sum_cons, sum_nil. unfold s. generalize (unskew 4). intros. repeat (apply (f_equal2 cons)); try reflexivity; ring.
Qed.
Lemma sqlen4 : forall X Y Z W a b c d, sqlen (offset (unskew 4) [X; Y; Z; W] [a; b; c; d]) = Q4 (X - IZR a) (Y - IZR b) (Z - IZR c) (W - IZR d).
Proof.
  intros. rewrite off4. unfold sqlen, Q4. cbn [map]. rewrite !sum_cons, sum_nil. generalize (X - IZR a) (Y - IZR b) (Z - IZR c) (W - IZR d). intros x y z w.
  pose proof unskew4_eq as E. set (u := unskew 4) in *. apply Rminus_diag_uniq.
  match goal with |- ?e = 0 => replace e with ((20 * u * u + 10 * u + 1) * ((x + y + z + w) * (x + y + z + w) / 5)) by field end. rewrite E. ring.
Qed.
Lemma kFall4 : unskew 4 * (- (4) * (sqrt 5 + 3) / (sqrt 5 + 5)) = 2 / 5.
Proof.
  cbn [unskew]. pose proof sqrt5_pos. pose proof sqrt5_sq. set (t := sqrt 5) in *.
  replace (- (1) / (t + 5) * (- (4) * (t + 3) / (t + 5))) with (4 * (t + 3) / (t * t + 10 * t + 25)) by (field; nra).
  rewrite H0. field. lra.
Qed.
Definition rk (a b c : bool) : Z := (b2z a + b2z b + b2z c)%Z.
(** corner k of the simplex: the axes whose rank exceeds 3 - k *)
Definition sx4_corner (n m l o : Z) (rx ry rz rw : Z) (j : Z) : list Z :=
  [n + b2z (j <? rx); m + b2z (j <? ry); l + b2z (j <? rz); o + b2z (j <? rw)]%Z.
Definition sx4_vertices (n m l o : Z) (xy xz xw yz yw zw : bool) : list (list Z) :=
  let rx := rk xy xz xw in let ry := rk (negb xy) yz yw in let rz := rk (negb xz) (negb yz) zw in let rw := rk (negb xw) (negb yw) (negb zw) in
  [[n; m; l; o]; sx4_corner n m l o rx ry rz rw 2; sx4_corner n m l o rx ry rz rw 1; sx4_corner n m l o rx ry rz rw 0; [n + 1; m + 1; l + 1; o + 1]%Z].
Ltac axis := exact I || (match goal with |- _ = _ => reflexivity | |- exists i, _ =>
  first [solve [exists 0%nat; split; [cbn [length]; lia|intros [|[|[|[|[|j]]]]]; cbn [nth Nat.eqb]; lia]] | solve [exists 1%nat; split; [cbn [length]; lia|intros [|[|[|[|[|j]]]]]; cbn [nth Nat.eqb]; lia]]
    | solve [exists 2%nat; split; [cbn [length]; lia|intros [|[|[|[|[|j]]]]]; cbn [nth Nat.eqb]; lia]] | solve [exists 3%nat; split; [cbn [length]; lia|intros [|[|[|[|[|j]]]]]; cbn [nth Nat.eqb]; lia]]] end).
(** the weights are the gaps between the coordinates in descending order *)
Ltac weigh a b c d := first [solve [inside_by [1 - a; a - b; b - c; c - d; d]] | solve [inside_by [1 - a; a - b; b - d; d - c; c]] | solve [inside_by [1 - a; a - c; c - b; b - d; d]] | solve [inside_by [1 - a; a - c; c - d; d - b; b]] | solve [inside_by [1 - a; a - d; d - b; b - c; c]] | solve [inside_by [1 - a; a - d; d - c; c - b; b]] | solve [inside_by [1 - b; b - a; a - c; c - d; d]] | solve [inside_by [1 - b; b - a; a - d; d - c; c]] | solve [inside_by [1 - b; b - c; c - a; a - d; d]] | solve [inside_by [1 - b; b - c; c - d; d - a; a]] | solve [inside_by [1 - b; b - d; d - a; a - c; c]] | solve [inside_by [1 - b; b - d; d - c; c - a; a]] | solve [inside_by [1 - c; c - a; a - b; b - d; d]] | solve [inside_by [1 - c; c - a; a - d; d - b; b]] | solve [inside_by [1 - c; c - b; b - a; a - d; d]] | solve [inside_by [1 - c; c - b; b - d; d - a; a]] | solve [inside_by [1 - c; c - d; d - a; a - b; b]] | solve [inside_by [1 - c; c - d; d - b; b - a; a]] | solve [inside_by [1 - d; d - a; a - b; b - c; c]] | solve [inside_by [1 - d; d - a; a - c; c - b; b]] | solve [inside_by [1 - d; d - b; b - a; a - c; c]] | solve [inside_by [1 - d; d - b; b - c; c - a; a]] | solve [inside_by [1 - d; d - c; c - a; a - b; b]] | solve [inside_by [1 - d; d - c; c - b; b - a; a]]].
Lemma sx4_simplex : forall n m l o (x y z w : R), 0 <= x - IZR n < 1 -> 0 <= y - IZR m < 1 -> 0 <= z - IZR l < 1 -> 0 <= w - IZR o < 1 ->
  simplex_around [x; y; z; w] (sx4_vertices n m l o (Rleb (y - IZR m) (x - IZR n)) (Rleb (z - IZR l) (x - IZR n)) (Rleb (w - IZR o) (x - IZR n))
    (Rleb (z - IZR l) (y - IZR m)) (Rleb (w - IZR o) (y - IZR m)) (Rleb (w - IZR o) (z - IZR l))).
Proof.
  intros n m l o x y z w Hx Hy Hz Hw. unfold sx4_vertices, sx4_corner. cbv zeta.
  assert (X : x = IZR n + (x - IZR n)) by ring. assert (Y : y = IZR m + (y - IZR m)) by ring. assert (Z : z = IZR l + (z - IZR l)) by ring. assert (W : w = IZR o + (w - IZR o)) by ring.
  set (a := x - IZR n) in *. set (b := y - IZR m) in *. set (c := z - IZR l) in *. set (d := w - IZR o) in *. clearbody a b c d. subst x y z w.
  unfold Rleb. destruct (Rle_dec b a), (Rle_dec c a), (Rle_dec d a), (Rle_dec c b), (Rle_dec d b), (Rle_dec d c); try (exfalso; lra);
    repeat match goal with |- context [Z.ltb ?a ?b] => let v := eval vm_compute in (Z.ltb a b) in change (Z.ltb a b) with v end; cbn [b2z]; rewrite ?Z.add_0_r.
  all: split; [split; [cbn [steps]; repeat split; axis|cbn [last map]; unfold Z.succ; reflexivity]|split; [intros v Hv; cbn [In] in Hv; decompose [or] Hv; subst; try reflexivity; contradiction|]].
  all: weigh a b c d.
Qed.
Section S4.
Variable inf : R.
Variable bits : R -> Z.
Notation S_ := (Rops inf bits).
(** the constants of Simplex 4D before rounding to float, with skew factor [k] and squared radius [r] *)
Definition sx4k_exact (k r : R) : sx4k S_ := {|
  sx4_kSkew := (k : V S_); sx4_kU := (unskew 4 : V S_); sx4_k2U := (unskew 4 * 2 : V S_); sx4_k3U := (unskew 4 * 3 : V S_); sx4_k4U1 := (unskew 4 * 4 + 1 : V S_);
  sx4_kR := (r : V S_); sx4_kFall := (- (4) * (sqrt 5 + 3) / (sqrt 5 + 5) : V S_); sx4_kM := (- (4) / 5 : V S_) |}.
Lemma msub : forall (b : bool) (x u : R), fsub (s:=S_) (W:=scalar) (fmasked_sub (s:=S_) (W:=scalar) b x (num (s:=S_) (W:=scalar) 1)) (fv (s:=S_) (W:=scalar) u) = x - IZR (b2z b) - u.
Proof. intros [] x u; sunf; rlit; cbn [b2z]; toR; ring. Qed.
Lemma madd : forall (b : bool) n p, imasked_add (W:=scalar) b (z_mul n p) (iv (W:=scalar) p) = z_mul (n + b2z b) p.
Proof. intros [] n p; cbn [b2z]; sunf; rewrite ?Z.add_0_r; zr. Qed.
Lemma corner_visits : forall r n m l o (x y z w : R) (bx by_ bz bw : bool) (j : Z) (ju : R),
  (b2z bx + b2z by_ + b2z bz + b2z bw = j)%Z -> ju = unskew 4 * IZR j ->
  let s := unskew 4 * (x - IZR n + (y - IZR m) + (z - IZR l) + (w - IZR o)) in
  let X := x - IZR n + s - IZR (b2z bx) - ju in let Y := y - IZR m + s - IZR (b2z by_) - ju in let Z := z - IZR l + s - IZR (b2z bz) - ju in let W := w - IZR o + s - IZR (b2z bw) - ju in
  forall (g f : R), g = r - (X * X + Y * Y + Z * Z + W * W) -> f = Rmax 0 g ^ 4 ->
  visits inf bits r (unskew 4) [x; y; z; w]
    (@mkc S_ scalar [z_mul (n + b2z bx) PrimeX; z_mul (m + b2z by_) PrimeY; z_mul (l + b2z bz) PrimeZ; z_mul (o + b2z bw) PrimeW] [X; Y; Z; W] f)
    [n + b2z bx; m + b2z by_; l + b2z bz; o + b2z bw]%Z.
Proof.
  intros r n m l o x y z w bx by_ bz bw j ju Hj Hu s X Y Z W g f Hg Hf.
  assert (O : [X; Y; Z; W] = offset (unskew 4) [x; y; z; w] [n + b2z bx; m + b2z by_; l + b2z bz; o + b2z bw]%Z).
  { rewrite off4. unfold X, Y, Z, W, s. rewrite Hu, <- Hj, !plus_IZR. generalize (unskew 4). intros. repeat (apply (f_equal2 cons)); try reflexivity; ring. }
  eapply (visits_intro inf bits r (unskew 4) _ _ _ _ _ g); [|exact O| |exact Hf].
  - cbn [primed PrimesLookup]. reflexivity.
  - rewrite <- O. unfold sqlen. cbn [map]. rewrite !sum_cons, sum_nil, Rplus_0_r, Hg. ring.
Qed.
Lemma shift_ge : forall (a b d : R), fge (s:=S_) (W:=scalar) (fadd (s:=S_) (W:=scalar) a d) (fadd (s:=S_) (W:=scalar) b d) = Rleb b a.
Proof. intros. sunf. unfold Rleb. destruct (Rle_dec _ _), (Rle_dec _ _); auto; lra. Qed.
Lemma ranks : forall xy xz xw yz yw zw : bool,
  (xy = true -> yz = true -> xz = true) -> (xy = false -> yz = false -> xz = false) -> (xy = true -> yw = true -> xw = true) -> (xy = false -> yw = false -> xw = false) ->
  (xz = true -> zw = true -> xw = true) -> (xz = false -> zw = false -> xw = false) -> (yz = true -> zw = true -> yw = true) -> (yz = false -> zw = false -> yw = false) ->
  let rx := rk xy xz xw in let ry := rk (negb xy) yz yw in let rz := rk (negb xz) (negb yz) zw in let rw := rk (negb xw) (negb yw) (negb zw) in
  (b2z (2 <? rx) + b2z (2 <? ry) + b2z (2 <? rz) + b2z (2 <? rw) = 1 /\ b2z (1 <? rx) + b2z (1 <? ry) + b2z (1 <? rz) + b2z (1 <? rw) = 2 /\ b2z (0 <? rx) + b2z (0 <? ry) + b2z (0 <? rz) + b2z (0 <? rw) = 3)%Z.
Proof.
  intros [] [] [] [] [] []; intros H1 H2 H3 H4 H5 H6 H7 H8; try (discriminate (H1 eq_refl eq_refl)); try (discriminate (H2 eq_refl eq_refl)); try (discriminate (H3 eq_refl eq_refl)); try (discriminate (H4 eq_refl eq_refl)); try (discriminate (H5 eq_refl eq_refl)); try (discriminate (H6 eq_refl eq_refl)); try (discriminate (H7 eq_refl eq_refl)); try (discriminate (H8 eq_refl eq_refl)); repeat split; reflexivity.
Qed.
Lemma sx4_at_visits : forall k r n m l o (x y z w : R), let X := x - IZR n in let Y := y - IZR m in let Z := z - IZR l in let W := w - IZR o in
  Forall2 (visits inf bits r (unskew 4) [x; y; z; w])
    (simplex4_at (s:=S_) (W:=scalar) (sx4k_exact k r) (z_mul n PrimeX) (z_mul m PrimeY) (z_mul l PrimeZ) (z_mul o PrimeW) X Y Z W)
    (sx4_vertices n m l o (Rleb Y X) (Rleb Z X) (Rleb W X) (Rleb Z Y) (Rleb W Y) (Rleb W Z)).
Proof.
  intros k r n m l o x y z w X Y Z W. unfold simplex4_at, slet, sx4_vertices, sx4_corner. cbn [sx4k_exact sx4_kSkew sx4_kU sx4_k2U sx4_k3U sx4_k4U1 sx4_kR sx4_kFall sx4_kM].
  rewrite !shift_ge.
  pose proof (ranks (Rleb Y X) (Rleb Z X) (Rleb W X) (Rleb Z Y) (Rleb W Y) (Rleb W Z)) as RK.
  assert (TR : forall a b c : R, (Rleb b a = true -> Rleb c b = true -> Rleb c a = true) /\ (Rleb b a = false -> Rleb c b = false -> Rleb c a = false)) by (intros; unfold Rleb; repeat destruct (Rle_dec _ _); split; auto; lra).
  specialize (RK (proj1 (TR X Y Z)) (proj2 (TR X Y Z)) (proj1 (TR X Y W)) (proj2 (TR X Y W)) (proj1 (TR X Z W)) (proj2 (TR X Z W)) (proj1 (TR Y Z W)) (proj2 (TR Y Z W))). clear TR.
  revert RK. generalize (Rleb Y X) (Rleb Z X) (Rleb W X) (Rleb Z Y) (Rleb W Y) (Rleb W Z). intros xy xz xw yz yw zw.
  assert (RX : imasked_inc (W:=scalar) xw (imasked_inc (W:=scalar) xz (imasked_inc (W:=scalar) xy (iv (W:=scalar) 0))) = rk xy xz xw) by (destruct xy, xz, xw; reflexivity).
  assert (RY : imasked_inc (W:=scalar) yw (imasked_inc (W:=scalar) yz (imasked_inc (W:=scalar) (mnot (W:=scalar) xy) (iv (W:=scalar) 0))) = rk (negb xy) yz yw) by (destruct xy, yz, yw; reflexivity).
  assert (RZ : imasked_inc (W:=scalar) zw (imasked_inc (W:=scalar) (mnot (W:=scalar) yz) (imasked_inc (W:=scalar) (mnot (W:=scalar) xz) (iv (W:=scalar) 0))) = rk (negb xz) (negb yz) zw) by (destruct xz, yz, zw; reflexivity).
  assert (RW : imasked_inc (W:=scalar) (mnot (W:=scalar) zw) (imasked_inc (W:=scalar) (mnot (W:=scalar) yw) (imasked_inc (W:=scalar) (mnot (W:=scalar) xw) (iv (W:=scalar) 0))) = rk (negb xw) (negb yw) (negb zw)) by (destruct xw, yw, zw; reflexivity).
  rewrite RX, RY, RZ, RW. clear RX RY RZ RW. cbv zeta.
  generalize (rk xy xz xw) (rk (negb xy) yz yw) (rk (negb xz) (negb yz) zw) (rk (negb xw) (negb yw) (negb zw)). intros rx ry rz rw (K1 & K2 & K3). clear xy xz xw yz yw zw.
  assert (GT : forall a j, s32 j = j -> igt (W:=scalar) a (iv (W:=scalar) j) = (j <? a)%Z) by (intros a j Hj; sunf; rewrite Hj; apply Z.gtb_ltb).
  rewrite !(GT _ 2%Z eq_refl), !(GT _ 1%Z eq_refl), !(GT _ 0%Z eq_refl). clear GT.
  unfold prX, prY, prZ, prW. rewrite !msub, !madd. unfold X, Y, Z, W. clear X Y Z W.
  assert (DS : fmul (s:=S_) (W:=scalar) (fv (s:=S_) (W:=scalar) (unskew 4)) (fadd (s:=S_) (W:=scalar) (fadd (s:=S_) (W:=scalar) (fadd (s:=S_) (W:=scalar) (x - IZR n) (y - IZR m)) (z - IZR l)) (w - IZR o)) = unskew 4 * (x - IZR n + (y - IZR m) + (z - IZR l) + (w - IZR o))) by reflexivity.
  rewrite DS. clear DS.
  assert (AD : forall a b, fadd (s:=S_) (W:=scalar) a b = (a : R) + b) by reflexivity.
  rewrite !AD. clear AD.
  assert (NM : forall a b c : R, fnmadd (s:=S_) (W:=scalar) a b c = c - a * b) by (intros; sunf; toR; ring).
  rewrite !NM. clear NM.
  repeat (apply Forall2_cons); try apply Forall2_nil.
  - eapply visits_intro; [primes| | |apply quart].
    + rewrite off4. repeat (apply (f_equal2 cons)); try reflexivity; toR; ring.
    + rewrite off4. unfold sqlen. cbn [map]. rewrite !sum_cons, sum_nil. sunf. toR. ring.
  - eapply (corner_visits r n m l o x y z w _ _ _ _ _ _ K1); [| |apply quart]; [ring|]. sunf. toR. ring.
  - eapply (corner_visits r n m l o x y z w _ _ _ _ _ _ K2); [| |apply quart]; [ring|]. sunf. toR. ring.
  - eapply (corner_visits r n m l o x y z w _ _ _ _ _ _ K3); [| |apply quart]; [ring|]. sunf. toR. ring.
  - eapply visits_intro; [primes| | |apply quart].
    + rewrite off4, !plus_IZR. change (fv (s:=S_) (W:=scalar) (unskew 4 * 4 + 1)) with (unskew 4 * 4 + 1). sunf. generalize (unskew 4). intros. repeat (apply (f_equal2 cons)); try reflexivity; toR; ring.
    + rewrite sqlen4, !plus_IZR. sunf.
      replace (unskew 4 * (x - IZR n + (y - IZR m) + (z - IZR l) + (w - IZR o)) * (- (4) * (sqrt 5 + 3) / (sqrt 5 + 5))) with (2 / 5 * (x - IZR n + (y - IZR m) + (z - IZR l) + (w - IZR o))) by (rewrite <- kFall4; ring).
      pose proof unskew4_eq as E. set (u := unskew 4) in *. unfold Q4.
      replace (x - (IZR n + 1)) with (x - IZR n - 1) by ring. replace (y - (IZR m + 1)) with (y - IZR m - 1) by ring. replace (z - (IZR l + 1)) with (z - IZR l - 1) by ring. replace (w - (IZR o + 1)) with (w - IZR o - 1) by ring.
      generalize (x - IZR n) (y - IZR m) (z - IZR l) (w - IZR o). clear - E. clearbody u. intros X Y Z W. apply Rminus_diag_uniq.
      match goal with |- ?e = 0 => replace e with (- (20 * u * u + 10 * u + 1) * ((X + Y + Z + W) * (X + Y + Z + W) / 5)) by field end. rewrite E. ring.
Qed.

Lemma skewed4 : forall k freq x y z w, skewed k freq [x; y; z; w] =
  let s := k * (x * freq + y * freq + z * freq + w * freq) in [x * freq + s; y * freq + s; z * freq + s; w * freq + s].
Proof. intros. unfold skewed, skew, scale. cbn [map]. rewrite !sum_cons, sum_nil, !Rplus_0_r, <- !Rplus_assoc. reflexivity. Qed.
Definition simplex4_taken (qs : list R) : list (list Z) :=
  match qs with
  | [x; y; z; w] => let n := Rfloor x in let m := Rfloor y in let l := Rfloor z in let o := Rfloor w in
    sx4_vertices n m l o (Rleb (y - IZR m) (x - IZR n)) (Rleb (z - IZR l) (x - IZR n)) (Rleb (w - IZR o) (x - IZR n))
      (Rleb (z - IZR l) (y - IZR m)) (Rleb (w - IZR o) (y - IZR m)) (Rleb (w - IZR o) (z - IZR l))
  | _ => []
  end.
Lemma simplex4_eq : forall ft so (k r freq lo hi : R) (seed : Z) (x y z w : R),
  SimplexGen4 (s:=S_) (W:=scalar) ft (sx4k_exact k r) so freq (out_range inf bits lo hi) seed x y z w =
  rescale lo hi (kSimplex 4) (bumps r (unskew 4) (z_add seed (s32 so)) (skewed k freq [x; y; z; w]) (simplex4_taken (skewed k freq [x; y; z; w]))).
Proof.
  intros ft so k r freq lo hi seed x y z w. unfold SimplexGen4, slet.
  assert (B : (@kBoundSimplex4 S_ : R) <> 0) by (rewrite kS4; pose proof (kSimplex_pos 4); lra).
  refine (eq_trans (ScaleOutput_eq _ _ _ _ _ _ B) _). rewrite kS4. f_equal. rewrite so_eq.
  rewrite skewed4. cbv zeta.
  change (x * freq) with (fmul (s:=S_) (W:=scalar) x (fv (s:=S_) (W:=scalar) freq)). change (y * freq) with (fmul (s:=S_) (W:=scalar) y (fv (s:=S_) (W:=scalar) freq)). change (z * freq) with (fmul (s:=S_) (W:=scalar) z (fv (s:=S_) (W:=scalar) freq)). change (w * freq) with (fmul (s:=S_) (W:=scalar) w (fv (s:=S_) (W:=scalar) freq)).
  generalize (fmul (s:=S_) (W:=scalar) x (fv (s:=S_) (W:=scalar) freq)) (fmul (s:=S_) (W:=scalar) y (fv (s:=S_) (W:=scalar) freq)) (fmul (s:=S_) (W:=scalar) z (fv (s:=S_) (W:=scalar) freq)) (fmul (s:=S_) (W:=scalar) w (fv (s:=S_) (W:=scalar) freq)). clear x y z w. intros X Y Z W.
  unfold simplex4, slet. change (sx4_kSkew (sx4k_exact k r)) with k.
  change (fmul (s:=S_) (W:=scalar) (fv (s:=S_) (W:=scalar) k) (fadd (s:=S_) (W:=scalar) (fadd (s:=S_) (W:=scalar) (fadd (s:=S_) (W:=scalar) X Y) Z) W)) with (k * (X + Y + Z + W)).
  change (fadd (s:=S_) (W:=scalar) X (k * (X + Y + Z + W))) with (X + k * (X + Y + Z + W)). change (fadd (s:=S_) (W:=scalar) Y (k * (X + Y + Z + W))) with (Y + k * (X + Y + Z + W)).
  change (fadd (s:=S_) (W:=scalar) Z (k * (X + Y + Z + W))) with (Z + k * (X + Y + Z + W)). change (fadd (s:=S_) (W:=scalar) W (k * (X + Y + Z + W))) with (W + k * (X + Y + Z + W)).
  generalize (X + k * (X + Y + Z + W)) (Y + k * (X + Y + Z + W)) (Z + k * (X + Y + Z + W)) (W + k * (X + Y + Z + W)). clear X Y Z W. intros x y z w.
  unfold prX, prY, prZ, prW. rewrite !lower, !frac0. cbn [simplex4_taken]. cbv zeta.
  apply value4_eq; [cbn; lia|apply sx4_at_visits|reflexivity|].
  pose proof (Rfloor_spec x). pose proof (Rfloor_spec y). pose proof (Rfloor_spec z). pose proof (Rfloor_spec w). apply sx4_simplex; lra.
Qed.
Theorem C60_simplex4 : forall ft so (k r freq lo hi : R) (seed : Z) (x y z w : R), exists vs,
  simplex_around (skewed k freq [x; y; z; w]) vs /\
  SimplexGen4 (s:=S_) (W:=scalar) ft (sx4k_exact k r) so freq (out_range inf bits lo hi) seed x y z w =
  rescale lo hi (kSimplex 4) (bumps r (unskew 4) (z_add seed (s32 so)) (skewed k freq [x; y; z; w]) vs).
Proof.
  intros. exists (simplex4_taken (skewed k freq [x; y; z; w])). split; [|apply simplex4_eq]. rewrite skewed4. cbv zeta. cbn [simplex4_taken]. cbv zeta.
  match goal with |- simplex_around [?a; ?b; ?c; ?d] _ => pose proof (Rfloor_spec a); pose proof (Rfloor_spec b); pose proof (Rfloor_spec c); pose proof (Rfloor_spec d) end. apply sx4_simplex; lra.
Qed.
End S4.
