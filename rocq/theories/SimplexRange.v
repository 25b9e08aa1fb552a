(** From the computed bounds (BoxesCases) to sums of bumps. *)
From Coq Require Import Reals ZArith List Bool Lia Lra Psatz Permutation.
From Verif Require Import Prelude Simd_Model Utils_Model Simd_R Bits P_Hash P_Grad P_Lattice Lattice Simplex_Spec Boxes BoxesSound BoxesHeights BoxesAll BoxesCases.
Import ListNotations.
Open Scope R_scope.
Ltac nthz := repeat match goal with |- context [Z.to_nat ?z] => let n := eval compute in (Z.to_nat z) in change (Z.to_nat z) with n end; cbn [nth].

(** ** Distances *)
Lemma sqlen_shift : forall l u s, sqlen (map (fun d => d + u * s) l) = rsq l + 2 * u * s * rsum l + INR (length l) * (u * s) * (u * s).
Proof.
  intros l u s. unfold sqlen, sum, rsq, rsum. induction l as [|a l IH]; [cbn; lra|]. cbn [map fold_right]. rewrite IH. cbn [length]. rewrite S_INR. ring.
Qed.
Definition unskews (n : nat) (u : R) : Prop := INR n * u * u + 2 * u + 1 / (INR n + 1) = 0.
Lemma offs_len : forall q v, length v = length q -> length (offs q v) = length q.
Proof. induction q as [|a q IH]; intros [|b v] L; try discriminate; cbn [offs length]; [reflexivity|]. f_equal. apply IH. cbn in L. lia. Qed.
Lemma sqlen_quad : forall u q v, unskews (length q) u -> length v = length q -> sqlen (offset u q v) = quad (offs q v) / (INR (length q) + 1).
Proof.
  intros u q v U L. unfold offset. rewrite sqlen_shift. unfold quad. rewrite offs_len by exact L. change (sum (offs q v)) with (rsum (offs q v)).
  unfold unskews in U. set (n := INR (length q)) in *. assert (0 <= n) by apply pos_INR. set (s := rsum (offs q v)). set (k := rsq (offs q v)).
  replace (k + 2 * u * s * s + n * (u * s) * (u * s)) with (k + (n * u * u + 2 * u) * (s * s)) by ring.
  replace (n * u * u + 2 * u) with (- (1) / (n + 1)) by (unfold Rdiv in *; lra). field. lra.
Qed.
Lemma unskews2 : unskews 2 (unskew 2).
Proof.
  unfold unskews. change (INR 2) with 2. cbn [unskew]. assert (0 < sqrt 3) by (apply sqrt_lt_R0; lra). assert (E : sqrt 3 * sqrt 3 = 3) by (apply sqrt_sqrt; lra). set (t := sqrt 3) in *.
  replace (2 * (-(1) / (t + 3)) * (-(1) / (t + 3)) + 2 * (-(1) / (t + 3)) + 1 / (2 + 1)) with ((t * t - 3) / (3 * ((t + 3) * (t + 3)))) by (field; lra). rewrite E. field. lra.
Qed.
Lemma unskews3 : unskews 3 (unskew 3).
Proof. unfold unskews. replace (INR 3) with 3 by (cbn; lra). cbn [unskew]. field. Qed.
Lemma unskews4 : unskews 4 (unskew 4).
Proof.
  unfold unskews. replace (INR 4) with 4 by (cbn; lra). cbn [unskew]. assert (0 < sqrt 5) by (apply sqrt_lt_R0; lra). assert (E : sqrt 5 * sqrt 5 = 5) by (apply sqrt_sqrt; lra). set (t := sqrt 5) in *.
  replace (4 * (-(1) / (t + 5)) * (-(1) / (t + 5)) + 2 * (-(1) / (t + 5)) + 1 / (4 + 1)) with ((t * t - 5) / (5 * ((t + 5) * (t + 5)))) by (field; lra). rewrite E. field. lra.
Qed.

(** ** The sum of the bumps *)
Lemma falloff_bump : forall r2 u RR q v h, unskews (length q) u -> length v = length q -> (INR (length q) + 1) * r2 <= radius RR -> 0 <= h ->
  falloff r2 (offset u q v) * h <= bump_at RR (offs q v) h / (INR (length q) + 1) ^ 4.
Proof.
  intros r2 u RR q v h U L HR Hh. unfold falloff, bump_at. rewrite (sqlen_quad u q v U L). set (n1 := INR (length q) + 1) in *. assert (0 < n1) by (pose proof (pos_INR (length q)); unfold n1; lra).
  set (d := quad (offs q v)). replace (Rmax 0 (radius RR - d) ^ 4 * h / n1 ^ 4) with ((Rmax 0 (radius RR - d) / n1) ^ 4 * h) by (field; lra).
  apply Rmult_le_compat_r; [exact Hh|]. apply pow_incr. split; [apply Rmax_l|].
  assert (E : n1 * (r2 - d / n1) = n1 * r2 - d) by (field; lra).
  apply Rmult_le_reg_l with n1; [lra|]. replace (n1 * (Rmax 0 (radius RR - d) / n1)) with (Rmax 0 (radius RR - d)) by (field; lra).
  rewrite <- (RmaxRmult 0 (r2 - d / n1) n1) by lra. rewrite Rmult_0_r, E. apply Rmax_lub; [apply Rmax_l|]. eapply Rle_trans; [|apply Rmax_r]. lra.
Qed.
(** [value v]: what vertex v contributes, before the falloff, at most [hv v] in size *)
Definition blend (r2 u : R) (q : list R) (L : list (list Z)) (value : list Z -> R) : R := sum (map (fun v => falloff r2 (offset u q v) * value v) L).
Theorem blend_bound : forall RR height_form height n fuel lim r2 u, sound height_form height -> symmetric height -> from_zero n height -> (0 < n)%nat ->
  unskews n u -> radius RR <= 2 * (INR n + 1) -> (INR n + 1) * r2 <= radius RR -> run RR height_form n fuel lim = true ->
  forall q L value, length q = n -> NoDup L -> (forall v, In v L -> length v = n) -> (forall v, In v L -> height (offs q v) (Rabs (value v))) ->
  Rabs (blend r2 u q L value) <= IZR lim / IZR (2^B) / (INR n + 1) ^ 4.
Proof.
  intros RR hf height n fuel lim r2 u So Sy Ze Hn U HR Hr Ck q L value Lq N LL HH.
  pose proof (bound_all RR hf height n fuel lim So Sy Ze Hn HR Ck q L (fun v => Rabs (value v)) Lq N LL HH) as T.
  assert (P : 0 < (INR n + 1) ^ 4) by (apply pow_lt; pose proof (pos_INR n); lra).
  apply Rle_trans with (rsum (map (fun v => bump_at RR (offs q v) (Rabs (value v))) L) / (INR n + 1) ^ 4).
  2: { unfold Rdiv. apply Rmult_le_compat_r; [left; apply Rinv_0_lt_compat, P|exact T]. }
  clear T N HH. unfold blend, sum, rsum. induction L as [|v L IH]; cbn [map fold_right].
  - rewrite Rabs_R0. unfold Rdiv. lra.
  - eapply Rle_trans; [apply Rabs_triang|]. specialize (IH (fun w Hw => LL w (or_intror Hw))).
    assert (A : Rabs (falloff r2 (offset u q v) * value v) <= bump_at RR (offs q v) (Rabs (value v)) / (INR n + 1) ^ 4).
    { rewrite Rabs_mult, (Rabs_pos_eq (falloff _ _)) by (apply pow_le, Rmax_l). rewrite <- Lq. rewrite <- Lq in U, Hr. apply falloff_bump; auto using Rabs_pos. rewrite Lq. apply LL. left. reflexivity. }
    unfold Rdiv in *. rewrite Rmult_plus_distr_r. lra.
Qed.

(** ** The heights *)
Lemma real_coords_perm : forall U p p', Permutation p p' -> Permutation (real_coords U p) (real_coords U p').
Proof. intros U p p' P. unfold real_coords. rewrite (rsum_perm p p' P). apply Permutation_map, P. Qed.
Lemma drop_symmetric : forall U, symmetric (drop_height U).
Proof.
  intros U p p' h P (o & I & H). exists o. pose proof (real_coords_perm U p p' P) as Q. split; [exact (Permutation_in _ Q I)|].
  unfold abs_sum in *. rewrite <- (rsum_perm _ _ (Permutation_map Rabs Q)). exact H.
Qed.
Lemma drop_zero : forall U n, (0 < n)%nat -> from_zero n (drop_height U).
Proof.
  intros U n Hn p L. destruct p as [|a p]; [cbn in L; lia|]. unfold drop_height. unfold real_coords. cbn [map]. set (f := fun a0 => a0 + U * rsum (a :: p)). change (a + U * rsum (a :: p)) with (f a). exists (f a). split; [left; reflexivity|].
  unfold abs_sum. cbn [map rsum fold_right]. assert (0 <= fold_right Rplus 0 (map Rabs (map f p))); [|lra]. clear. induction (map f p) as [|b l IH]; cbn [map fold_right]; [lra|]. pose proof (Rabs_pos b). lra.
Qed.
Lemma root_symmetric : symmetric root_height.
Proof. intros p p' h P H. unfold root_height in *. rewrite <- (quad_perm _ _ P). exact H. Qed.
Lemma root_zero : forall n, from_zero n root_height.
Proof. intros n p _. unfold root_height, quad. destruct (cauchy p). nra. Qed.
Definition pairs (gs : list (list Z)) : Prop := Forall (fun g => length g = 2%nat) gs /\ (forall a b, In [a; b] gs -> In [b; a] gs) /\ exists a b, In [a; b] gs /\ In [- a; - b]%Z gs.
Lemma max_symmetric : forall gs, pairs gs -> symmetric (max_height 2 gs).
Proof.
  intros gs (_ & Sw & _) p p' h P (L & g & z & Iz & Hg & Lg & Hh). destruct p as [|a [|b [|? ?]]]; try discriminate.
  apply Permutation_length_2_inv in P. inversion Hg as [|g1 z1 ? ? G1 Hg']; subst; [discriminate|]. inversion Hg' as [|g2 z2 ? ? G2 Hg'']; subst; [discriminate|]. inversion Hg''; subst; [|discriminate].
  destruct P as [->| ->].
  - split; [reflexivity|]. exists [g1; g2], [z1; z2]. auto.
  - split; [reflexivity|]. exists [g2; g1], [z2; z1]. split; [auto|]. split; [auto|]. split; [reflexivity|]. cbn [rdot] in *. lra.
Qed.
Lemma max_zero : forall gs, pairs gs -> from_zero 2 (max_height 2 gs).
Proof.
  intros gs (_ & _ & a & b & I1 & I2) p L. destruct p as [|x [|y [|? ?]]]; try discriminate. split; [reflexivity|].
  assert (C : forall z, coef (IZR z / IZR (2^B)) z) by (intros z; unfold coef; rewrite un_pos; replace (IZR z / 1048576 * 1048576 - IZR z) with 0 by field; rewrite Rabs_R0; lra).
  destruct (Rle_dec 0 (IZR a / IZR (2^B) * x + (IZR b / IZR (2^B) * y + 0))) as [D|D].
  - exists [IZR a / IZR (2^B); IZR b / IZR (2^B)], [a; b]. repeat split; auto.
  - exists [IZR (- a) / IZR (2^B); IZR (- b) / IZR (2^B)], [- a; - b]%Z. repeat split; auto. cbn [rdot]. rewrite !opp_IZR. rewrite un_pos in *. lra.
Qed.

(** ** Gradients *)
Lemma two_of_three : forall (a b c h : R), (h <= Rabs a + Rabs b \/ h <= Rabs a + Rabs c \/ h <= Rabs b + Rabs c) -> exists o, In o [a; b; c] /\ h <= abs_sum [a; b; c] - Rabs o.
Proof.
  intros a b c h H. unfold abs_sum. cbn [map rsum fold_right]. destruct H as [H|[H|H]]; [exists c|exists b|exists a]; (split; [cbn [In]; auto|lra]).
Qed.
Lemma abs_pm : forall x y, Rabs (x + y) <= Rabs x + Rabs y /\ Rabs (- x + y) <= Rabs x + Rabs y /\ Rabs (x - y) <= Rabs x + Rabs y /\ Rabs (- x - y) <= Rabs x + Rabs y.
Proof. intros x y. pose proof (Rabs_triang x y). pose proof (Rabs_triang (- x) y). pose proof (Rabs_triang x (- y)). pose proof (Rabs_triang (- x) (- y)). rewrite !Rabs_Ropp in *. unfold Rminus. lra. Qed.
Lemma perlin3_height : forall seed q v, length q = 3%nat -> length v = 3%nat -> drop_height (unskew 3) (offs q v) (Rabs (perlin_corner seed v (offset (unskew 3) q v))).
Proof.
  intros seed q v Lq Lv. change (real_coords (unskew 3) (offs q v)) with (offset (unskew 3) q v). unfold drop_height. change (real_coords (unskew 3) (offs q v)) with (offset (unskew 3) q v).
  assert (L : length (offset (unskew 3) q v) = 3%nat) by (unfold offset; rewrite map_length, offs_len; lia).
  destruct (offset (unskew 3) q v) as [|x [|y [|z [|? ?]]]]; try discriminate. apply two_of_three. unfold perlin_corner. generalize (hash31 seed v). intros h.
  unfold common_grad. pose proof (Z.mod_pos_bound h 16 ltac:(lia)) as Hr. set (r := (h mod 16)%Z) in *. clearbody r.
  pose proof (abs_pm x y) as A. pose proof (abs_pm x z) as B. pose proof (abs_pm y z) as C.
  enum r Hr; nthz; unfold dot3;
  match goal with |- context [Rabs ?e] => first
   [ left; match goal with |- Rabs ?e <= _ => first [replace e with (x + y) by ring | replace e with (- x + y) by ring | replace e with (x - y) by ring | replace e with (- x - y) by ring] end; lra
   | right; left; match goal with |- Rabs ?e <= _ => first [replace e with (x + z) by ring | replace e with (- x + z) by ring | replace e with (x - z) by ring | replace e with (- x - z) by ring] end; lra
   | right; right; match goal with |- Rabs ?e <= _ => first [replace e with (y + z) by ring | replace e with (- y + z) by ring | replace e with (y - z) by ring | replace e with (- y - z) by ring] end; lra ] end.
Qed.
Lemma sgn_abs : forall b x, Rabs (sgn b * x) = Rabs x.
Proof. intros [] x; unfold sgn; rewrite Rabs_mult; [|rewrite Rabs_R1; ring]. replace (Rabs (-1)) with 1; [ring|]. rewrite Rabs_left; lra. Qed.
Lemma perlin4_height : forall seed q v, length q = 4%nat -> length v = 4%nat -> drop_height (unskew 4) (offs q v) (Rabs (perlin_corner seed v (offset (unskew 4) q v))).
Proof.
  intros seed q v Lq Lv. unfold drop_height. change (real_coords (unskew 4) (offs q v)) with (offset (unskew 4) q v).
  assert (L : length (offset (unskew 4) q v) = 4%nat) by (unfold offset; rewrite map_length, offs_len; lia).
  destruct (offset (unskew 4) q v) as [|x [|y [|z [|w [|? ?]]]]]; try discriminate. unfold perlin_corner, perlin4_grad. generalize (hash31 seed v). intros h. cbn zeta.
  assert (T : forall a b c : R, Rabs (a + b + c) <= Rabs a + Rabs b + Rabs c) by (intros a b c; pose proof (Rabs_triang (a + b) c); pose proof (Rabs_triang a b); lra).
  unfold abs_sum. cbn [map rsum fold_right].
  destruct ((h / 8) mod 4)%Z as [|[p|[]|]|]; unfold dot4;
  match goal with |- context [Rabs (?A * x + ?B * y + ?C * z + ?D * w)] => first
    [ constr_eq A 0; exists x; split; [cbn [In]; auto|]; replace (A * x + B * y + C * z + D * w) with (B * y + C * z + D * w) by ring; eapply Rle_trans; [apply T|]; rewrite !sgn_abs; lra
    | constr_eq B 0; exists y; split; [cbn [In]; auto|]; replace (A * x + B * y + C * z + D * w) with (A * x + C * z + D * w) by ring; eapply Rle_trans; [apply T|]; rewrite !sgn_abs; lra
    | constr_eq C 0; exists z; split; [cbn [In]; auto|]; replace (A * x + B * y + C * z + D * w) with (A * x + B * y + D * w) by ring; eapply Rle_trans; [apply T|]; rewrite !sgn_abs; lra
    | exists w; split; [cbn [In]; auto 6|]; replace (A * x + B * y + C * z + D * w) with (A * x + B * y + C * z) by ring; eapply Rle_trans; [apply T|]; rewrite !sgn_abs; lra ] end.
Qed.
Lemma octagon_pairs : pairs octagon.
Proof.
  split; [|split].
  - unfold octagon. repeat constructor.
  - intros a b I. unfold octagon in *. cbn [In] in *. repeat destruct I as [I|I]; try contradiction; injection I as <- <-; auto 12.
  - exists 1774930%Z, 292020%Z. unfold octagon. cbn [In]. auto 12.
Qed.
Lemma unskew2_num : - 21132487 / 100000000 - 1 / 100000000 <= unskew 2 <= - 21132487 / 100000000 + 1 / 100000000.
Proof.
  cbn [unskew]. assert (1.7320508 <= sqrt 3 <= 1.7320509).
  { split; apply Rsqr_incr_0; unfold Rsqr; try (rewrite sqrt_sqrt by lra); try lra; try apply sqrt_pos. }
  set (t := sqrt 3) in *. split; apply Rmult_le_reg_r with (t + 3); try lra; replace (- (1) / (t + 3) * (t + 3)) with (- (1)) by (field; lra); nra.
Qed.
Lemma perlin2_height : forall seed q v, length q = 2%nat -> length v = 2%nat -> max_height 2 octagon (offs q v) (Rabs (perlin_corner seed v (offset (unskew 2) q v))).
Proof.
  intros seed q v Lq Lv. destruct q as [|x [|y [|? ?]]]; try discriminate. destruct v as [|i [|j [|? ?]]]; try discriminate.
  split; [reflexivity|]. generalize (eq_refl (hash31 seed [i; j])). unfold offset, perlin_corner. cbn [offs map]. unfold sum. cbn [fold_right].
  generalize (hash31 seed [i; j]) at 2 3. intros h _. generalize (x - IZR i) (y - IZR j). intros a b. rewrite Rplus_0_r.
  pose proof unskew2_num as U. set (u := unskew 2) in *. clearbody u. unfold perlin2_grad.
  assert (G : forall g1 g2 k1 k2, In [k1; k2] octagon -> In [- k1; - k2]%Z octagon -> coef (g1 + u * (g1 + g2)) k1 -> coef (g2 + u * (g1 + g2)) k2 ->
    exists g z, In z octagon /\ Forall2 coef g z /\ length g = length [a; b] /\ Rabs (dot2 (g1, g2) (a + u * (a + b)) (b + u * (a + b))) <= rdot g [a; b]).
  { intros g1 g2 k1 k2 I1 I2 C1 C2. unfold dot2. cbn [fst snd].
    replace (g1 * (a + u * (a + b)) + g2 * (b + u * (a + b))) with ((g1 + u * (g1 + g2)) * a + (g2 + u * (g1 + g2)) * b) by ring.
    set (c1 := g1 + u * (g1 + g2)) in *. set (c2 := g2 + u * (g1 + g2)) in *. unfold Rabs. destruct (Rcase_abs _).
    - exists [- c1; - c2], [- k1; - k2]%Z. split; [exact I2|]. split; [|split; [reflexivity|cbn [rdot]; lra]].
      assert (N : forall c k, coef c k -> coef (- c) (- k)%Z) by (intros c k C; unfold coef in *; rewrite opp_IZR, <- Rabs_Ropp; replace (- (- c * IZR (2^B) - - IZR k)) with (c * IZR (2^B) - IZR k) by ring; exact C).
      auto.
    - exists [c1; c2], [k1; k2]%Z. split; [exact I1|]. split; [auto|]. split; [reflexivity|]. cbn [rdot]. lra. }
  pose proof (Z.mod_pos_bound h 8 ltac:(lia)) as Hr. set (r := (h mod 8)%Z) in *. clearbody r.
  enum r Hr; nthz.
  1: apply (G _ _ 1774930 292020)%Z. 5: apply (G _ _ (-2218111) 1361952)%Z. 9: apply (G _ _ 2218111 (-1361952))%Z. 13: apply (G _ _ (-1774930) (-292020))%Z.
  17: apply (G _ _ 292020 1774930)%Z. 21: apply (G _ _ (-1361952) 2218111)%Z. 25: apply (G _ _ 1361952 (-2218111))%Z. 29: apply (G _ _ (-292020) (-1774930))%Z.
  all: try (unfold octagon; cbn [In Z.opp]; auto 12; fail).
  all: unfold coef, root2; rewrite un_pos; change (2^23)%Z with 8388608%Z; apply Rabs_le; lra.
Qed.
