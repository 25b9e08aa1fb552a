(** Bounds of the summed vertex vectors of the simplex domain warps, from the computed bounds (BoxesCases). *)
From Coq Require Import Reals ZArith List Bool Lia Lra Psatz.
From Verif Require Import Prelude Simd_Model Utils_Model Nodes_Model Setters_Model Simplex_Model Warp_Model SimplexWarp_Model Simd_R Bits P_Hash P_Grad P_Lattice Lattice P_Warp
  Simplex_Spec Simplex_Geom Simplex_2D Simplex_3D Simplex_4D Simplex_Cells P_Simplex P_Simplex3 P_Simplex4 SimplexWarp_Spec P_SimplexWarpOrtho P_SimplexWarpNorm P_SimplexWarp
  Boxes BoxesSound BoxesHeights BoxesAll BoxesCases BoxesRun2 BoxesRun3a BoxesRun3b BoxesRun3c BoxesRun4c BoxesRun4d SimplexRange P_SimplexRange.
Import ListNotations.
Open Scope R_scope.
Ltac nthz := repeat match goal with |- context [Z.to_nat ?z] => let n := eval compute in (Z.to_nat z) in change (Z.to_nat z) with n end; cbn [nth].

(** ** From all directions to the length *)
Definition along (n : nat) (e : list R) (p : nat -> R) : R := sum (map (fun i => nth i e 0 * p i) (seq 0 n)).
Lemma sumsq_pos : forall l, 0 <= sumsq l.
Proof. induction l as [|a l IH]; cbn [sumsq fold_right]; [lra|]. unfold sumsq in IH. nra. Qed.
Lemma length_from_directions : forall n p M, 0 <= M -> (forall e, length e = n -> sumsq e = 1 -> Rabs (along n e p) <= M) -> sumsq (map p (seq 0 n)) <= M * M.
Proof.
  intros n p M HM H. set (s := sumsq (map p (seq 0 n))). assert (0 <= s) by apply sumsq_pos.
  destruct (Req_dec s 0) as [->|NZ]; [nra|]. assert (P : 0 < sqrt s) by (apply sqrt_lt_R0; lra). assert (E : sqrt s * sqrt s = s) by (apply sqrt_sqrt; lra). set (t := sqrt s) in *.
  assert (L : length (map (fun i => p i / t) (seq 0 n)) = n) by (rewrite map_length, seq_length; reflexivity).
  assert (G : forall l : list nat, sumsq (map (fun i => p i / t) l) = sumsq (map p l) / (t * t)).
  { induction l as [|a l IH]; unfold sumsq in *; cbn [map fold_right]; [unfold Rdiv; ring|]. rewrite IH. field. lra. }
  assert (A : along n (map (fun i => p i / t) (seq 0 n)) p = t).
  { unfold along. transitivity (sumsq (map p (seq 0 n)) / t); [|fold s; rewrite <- E; field; lra].
    assert (G2 : forall l : list nat, (forall i, In i l -> (i < n)%nat) -> sum (map (fun i => nth i (map (fun i => p i / t) (seq 0 n)) 0 * p i) l) = sumsq (map p l) / t).
    { induction l as [|a l IH]; intros Hl; unfold sumsq, sum in *; cbn [map fold_right]; [unfold Rdiv; ring|]. rewrite IH by (intros; apply Hl; right; auto). rewrite nth_mapseq by (apply Hl; left; auto). field. lra. }
    apply G2. intros i Hi. apply in_seq in Hi. lia. }
  specialize (H _ L). rewrite G, A in H. fold s in H. rewrite E in H. specialize (H ltac:(field; lra)). rewrite Rabs_pos_eq in H by lra. rewrite <- E. nra.
Qed.
Lemma cauchy_along : forall n e (t : list R), length e = n -> length t = n -> sumsq e = 1 -> (along n e (fun i => nth i t 0)) * (along n e (fun i => nth i t 0)) <= sumsq t.
Proof.
  intros n e t Le Lt S1. assert (G : forall e t : list R, length e = length t -> let d := sum (map (fun i => nth i e 0 * nth i t 0) (seq 0 (length e))) in d * d <= sumsq e * sumsq t).
  { clear. induction e as [|a e IH]; intros [|b t] L; try discriminate; intros d.
    - unfold d, sumsq. cbn. lra.
    - cbn [length] in *. specialize (IH t ltac:(lia)). cbv zeta in IH. unfold d. cbn [seq map nth]. rewrite sum_cons, <- seq_shift, map_map. cbn [nth].
      set (D := sum _) in *. clearbody D. clear d. unfold sumsq in *. cbn [fold_right]. pose proof (sumsq_pos e) as P1. pose proof (sumsq_pos t) as P2. unfold sumsq in P1, P2.
      set (E := fold_right _ 0 e) in *. set (T := fold_right _ 0 t) in *. clearbody E T.
      assert (2 * (a * b * D) <= a * a * T + b * b * E); [|nra].
      assert (PP : 0 <= a * a * T + b * b * E) by (assert (0 <= a * a) by nra; assert (0 <= b * b) by nra; nra).
      destruct (Rle_dec (a * b * D) 0); [lra|]. apply Rsqr_incr_0; [|lra|exact PP]. unfold Rsqr.
      apply Rle_trans with (4 * ((a * b) * (a * b)) * (E * T)).
      + replace (2 * (a * b * D) * (2 * (a * b * D))) with (4 * ((a * b) * (a * b)) * (D * D)) by ring. apply Rmult_le_compat_l; [|exact IH]. pose proof (Rle_0_sqr (a * b)) as Q. unfold Rsqr in Q. lra.
      + pose proof (Rle_0_sqr (a * a * T - b * b * E)) as Q. unfold Rsqr in Q. lra. }
  specialize (G e t ltac:(lia)). cbv zeta in G. rewrite Le, S1 in G. unfold along. lra.
Qed.
Lemma along_pushes : forall n e scheme r2 u seed q L,
  along n e (pushes scheme r2 u seed q L) = blend r2 u q L (fun v => along n e (fun i => nth i (turned scheme (hash31 seed v) (offset u q v)) 0)).
Proof.
  intros n e scheme r2 u seed q L. unfold along, pushes, blend, push. generalize (seq 0 n). intros l. induction L as [|v L IH]; cbn [map].
  - rewrite sum_nil. induction l as [|i l IH]; cbn [map]; [apply sum_nil|]. rewrite sum_cons, IH. ring.
  - rewrite sum_cons, <- IH. clear IH. induction l as [|i l IH]; cbn [map]; rewrite ?sum_nil, ?sum_cons; [ring|]. rewrite IH. ring.
Qed.
Lemma blend_scale : forall c r2 u q L value, blend r2 u q L (fun v => c * value v) = c * blend r2 u q L value.
Proof. intros. unfold blend. induction L as [|v L IH]; cbn [map]; rewrite ?sum_nil, ?sum_cons; [ring|]. rewrite IH. ring. Qed.

(** The general step: if for every vertex the length of its vector, times [c], is at most [H], for which the
    bound is computed, then the sum has length at most the limit over [c]. *)
Lemma reach_bound : forall RR hf height n fuel lim r2 u c, sound hf height -> symmetric height -> from_zero n height -> (0 < n)%nat ->
  unskews n u -> radius RR <= 2 * (INR n + 1) -> (INR n + 1) * r2 <= radius RR -> run RR hf n fuel lim = true -> 0 < c ->
  (forall p h h', height p h -> 0 <= h' <= h -> height p h') ->
  forall scheme seed q L, length q = n -> distinct n L ->
  (forall v, In v L -> length (turned scheme (hash31 seed v) (offset u q v)) = n /\ exists h, 0 <= h /\ height (offs q v) h /\ c * c * sumsq (turned scheme (hash31 seed v) (offset u q v)) <= h * h) ->
  forall M, IZR lim / IZR (2^B) / (INR n + 1) ^ 4 <= c * M ->
  sumsq (map (pushes scheme r2 u seed q L) (seq 0 n)) <= M * M.
Proof.
  intros RR hf height n fuel lim r2 u c So Sy Ze Hn U H1 H2 Ck Hc Mo scheme seed q L Lq [N LL] HV M HM.
  assert (B0 : forall e, length e = n -> sumsq e = 1 -> Rabs (along n e (pushes scheme r2 u seed q L)) <= M).
  { intros e Le Se. rewrite along_pushes. apply Rmult_le_reg_l with c; [exact Hc|]. eapply Rle_trans; [|exact HM].
    rewrite <- (Rabs_pos_eq c) at 1 by lra. rewrite <- Rabs_mult, <- blend_scale.
    apply (blend_bound RR hf height n fuel lim r2 u So Sy Ze Hn U H1 H2 Ck q L _ Lq N LL).
    intros v Hv. destruct (HV v Hv) as (Lt & h & H0 & Hh & Hs). apply (Mo _ h); [exact Hh|]. split; [apply Rabs_pos|].
    apply Rsqr_incr_0_var; [|exact H0]. unfold Rsqr. rewrite <- Rabs_mult. 
    pose proof (cauchy_along n e _ Le Lt Se) as CS. set (d := along n e _) in *. rewrite Rabs_pos_eq by nra. nra. }
  assert (0 <= M).
  { destruct n as [|n]; [lia|]. assert (L1 : length (1 :: repeat 0 n) = Datatypes.S n) by (cbn [length]; rewrite repeat_length; reflexivity).
    assert (S1 : sumsq (1 :: repeat 0 n) = 1). { unfold sumsq. cbn [fold_right]. clear. assert (E : fold_right (fun d acc => d * d + acc) 0 (repeat 0 n) = 0) by (induction n as [|n IH]; cbn [repeat fold_right]; [reflexivity|rewrite IH; ring]). rewrite E. ring. }
    pose proof (B0 _ L1 S1). pose proof (Rabs_pos (along (Datatypes.S n) (1 :: repeat 0 n) (pushes scheme r2 u seed q L))). lra. }
  apply length_from_directions; assumption.
Qed.
Lemma root_mono : forall p h h', root_height p h -> 0 <= h' <= h -> root_height p h'.
Proof. unfold root_height. intros. nra. Qed.
Lemma drop_mono : forall U p h h', drop_height U p h -> 0 <= h' <= h -> drop_height U p h'.
Proof. intros U p h h' (o & I & H) ?. exists o. split; [exact I|lra]. Qed.
Lemma max_mono : forall n gs p h h', max_height n gs p h -> 0 <= h' <= h -> max_height n gs p h'.
Proof. intros n gs p h h' (L & g & z & I & F & Lg & H) ?. split; [exact L|]. exists g, z. repeat split; auto. lra. Qed.
Lemma offset_as2 : forall u q v, length q = 2%nat -> length v = 2%nat -> exists x y, offset u q v = [x; y].
Proof. intros u q v Lq Lv. pose proof (offset_length u q v ltac:(lia)) as L. rewrite Lq in L. destruct (offset u q v) as [|x [|y [|? ?]]]; try discriminate. eauto. Qed.
Lemma offset_as3 : forall u q v, length q = 3%nat -> length v = 3%nat -> exists x y z, offset u q v = [x; y; z].
Proof. intros u q v Lq Lv. pose proof (offset_length u q v ltac:(lia)) as L. rewrite Lq in L. destruct (offset u q v) as [|x [|y [|z [|? ?]]]]; try discriminate. eauto. Qed.
Lemma offset_as4 : forall u q v, length q = 4%nat -> length v = 4%nat -> exists x y z w, offset u q v = [x; y; z; w].
Proof. intros u q v Lq Lv. pose proof (offset_length u q v ltac:(lia)) as L. rewrite Lq in L. destruct (offset u q v) as [|x [|y [|z [|w [|? ?]]]]]; try discriminate. eauto 6. Qed.

(** ** The orthogonal matrices *)
Lemma ortho2_sumsq : forall h x y, (0 <= h < 2^31)%Z -> sumsq (turned OrthogonalGradientMatrix h [x; y]) <= (2 + / 1048576) * sqlen [x; y].
Proof.
  intros h x y H. pose proof (C63_length2 0 (fun _ => 0%Z) (Build_feat false false false false false) h x y 1 H) as C. rewrite C62_ortho2 in C by exact H.
  cbn [turned]. unfold sumsq, sqlen. cbn [fold_right map]. rewrite !sum_cons, sum_nil. unfold sq2 in C. rewrite e20 in C.
  match type of C with Rabs ?a <= ?b => assert (a <= b) by (eapply Rle_trans; [apply Rle_abs|exact C]) end. lra.
Qed.
Lemma ortho3_sumsq : forall h x y z, (0 <= h < 2^31)%Z -> sumsq (turned OrthogonalGradientMatrix h [x; y; z]) <= (6 + / 262144) * sqlen [x; y; z].
Proof.
  intros h x y z H. pose proof (C63_length3 0 (fun _ => 0%Z) (Build_feat false false false false false) h x y z 1 H) as C. rewrite C62_ortho3 in C by exact H.
  cbn [turned]. destruct (ortho3_rows h) as [[a b] c]. unfold sumsq, sqlen. cbn [fold_right map]. rewrite !sum_cons, sum_nil. unfold sq3 in C. rewrite e18 in C.
  match type of C with Rabs ?a <= ?b => assert (a <= b) by (eapply Rle_trans; [apply Rle_abs|exact C]) end. lra.
Qed.
(** ** The outer products *)
Lemma outer2_sumsq : forall h x y, sumsq (turned GradientOuterProduct h [x; y]) <= (4 + / 1048576) * (dot2 (simplex2_grad h) x y * dot2 (simplex2_grad h) x y).
Proof.
  intros h x y. cbn [turned]. unfold sumsq. cbn [fold_right]. set (d := dot2 _ _ _).
  assert (O : fst (outer2_vec h) * fst (outer2_vec h) + snd (outer2_vec h) * snd (outer2_vec h) <= 4 + / 1048576).
  { unfold outer2_vec. pose proof (outer2_index_range h) as Hj. set (j := outer2_index h) in *. clearbody j. unfold root3. change (2^23)%Z with 8388608%Z. enum j Hj; nthz; cbn [fst snd]; lra. }
  set (a := fst _) in *. set (b := snd _) in *. assert (0 <= d * d) by nra. nra.
Qed.
Lemma outer3_sumsq : forall h x y z, sumsq (turned GradientOuterProduct h [x; y; z]) <= 2 * (dot3 (warp3_grad h) x y z * dot3 (warp3_grad h) x y z).
Proof.
  intros h x y z. cbn [turned]. set (d := dot3 _ _ _ _). cbv zeta.
  assert (O : sq3 (outer3_vec h) <= 2).
  { unfold outer3_vec. pose proof (outer2_index_range h) as Hj. set (j := outer2_index h) in *. clearbody j. unfold edges3. enum j Hj; nthz; unfold sq3; lra. }
  destruct (outer3_vec h) as [[a b] c]. unfold sumsq, sq3 in *. cbn [fold_right]. assert (0 <= d * d) by nra. nra.
Qed.
Lemma outer4_sumsq : forall h x y z w, sumsq (turned GradientOuterProduct h [x; y; z; w]) <= (2 + / 1048576) * (dot4 (simplex4_grad h) x y z w * dot4 (simplex4_grad h) x y z w).
Proof.
  intros h x y z w. cbn [turned]. set (e := dot4 _ _ _ _ _). cbv zeta.
  assert (O : sq4 (outer4_vec h) <= 2 + / 1048576).
  { unfold outer4_vec. pose proof (outer4_index_range h) as Hj. set (j := outer4_index h) in *. clearbody j. cbv zeta. unfold skew4. change (2^24)%Z with 16777216%Z. enum j Hj; nthz; unfold sq4; lra. }
  destruct (outer4_vec h) as [[[a b] c] d]. unfold sumsq, sq4 in *. cbn [fold_right]. assert (0 <= e * e) by nra. nra.
Qed.
Lemma coef_opp : forall c k, coef c k -> coef (- c) (- k)%Z.
Proof. intros c k C; unfold coef in *; rewrite opp_IZR, <- Rabs_Ropp; replace (- (- c * IZR (2^B) - - IZR k)) with (c * IZR (2^B) - IZR k) by ring; exact C. Qed.
Lemma dodecagon_pairs : pairs dodecagon.
Proof.
  split; [|split].
  - unfold dodecagon. repeat constructor.
  - intros a b I. unfold dodecagon in *. cbn [In] in *. repeat destruct I as [I|I]; try contradiction; injection I as <- <-; auto 20.
  - exists 1210791%Z, 443180%Z. unfold dodecagon. cbn [In]. auto 20.
Qed.
Lemma grad2_height : forall h q v, (0 <= h < 2^31)%Z -> length q = 2%nat -> length v = 2%nat -> forall x y, offset (unskew 2) q v = [x; y] -> max_height 2 dodecagon (offs q v) (Rabs (dot2 (simplex2_grad h) x y)).
Proof.
  intros h q v Hh Lq Lv x y Ho. destruct q as [|X [|Y [|? ?]]]; try discriminate. destruct v as [|i [|j [|? ?]]]; try discriminate.
  split; [reflexivity|]. revert Ho. unfold offset. cbn [offs map]. unfold sum. cbn [fold_right].
  generalize (X - IZR i) (Y - IZR j). intros a b Ho. rewrite Rplus_0_r in Ho.
  pose proof unskew2_num as U. set (u := unskew 2) in *. clearbody u. injection Ho as <- <-. unfold simplex2_grad.
  assert (G : forall g1 g2 k1 k2, In [k1; k2] dodecagon -> In [- k1; - k2]%Z dodecagon -> coef (g1 + u * (g1 + g2)) k1 -> coef (g2 + u * (g1 + g2)) k2 ->
    exists g z, In z dodecagon /\ Forall2 coef g z /\ length g = length [a; b] /\ Rabs (dot2 (g1, g2) (a + u * (a + b)) (b + u * (a + b))) <= rdot g [a; b]).
  { intros g1 g2 k1 k2 I1 I2 C1 C2. unfold dot2. cbn [fst snd].
    replace (g1 * (a + u * (a + b)) + g2 * (b + u * (a + b))) with ((g1 + u * (g1 + g2)) * a + (g2 + u * (g1 + g2)) * b) by ring.
    set (c1 := g1 + u * (g1 + g2)) in *. set (c2 := g2 + u * (g1 + g2)) in *. unfold Rabs. destruct (Rcase_abs _).
    - exists [- c1; - c2], [- k1; - k2]%Z. split; [exact I2|]. split; [|split; [reflexivity|cbn [rdot]; lra]]. auto using coef_opp.
    - exists [c1; c2], [k1; k2]%Z. split; [exact I1|]. split; [auto|]. split; [reflexivity|]. cbn [rdot]. lra. }
  pose proof (simplex2_index_range h Hh) as Hr. set (r := simplex2_index h) in *. clearbody r.
  enum r Hr; nthz.
  1: apply (G _ _ 1210791 443180)%Z. 5: apply (G _ _ (-1210791) (-443180))%Z. 9: apply (G _ _ 443180 1210791)%Z. 13: apply (G _ _ (-443180) (-1210791))%Z.
  17: apply (G _ _ 1653972 (-1210791))%Z. 21: apply (G _ _ (-1653972) 1210791)%Z. 25: apply (G _ _ (-1210791) 1653972)%Z. 29: apply (G _ _ 1210791 (-1653972))%Z.
  33: apply (G _ _ 1653972 (-443180))%Z. 37: apply (G _ _ (-1653972) 443180)%Z. 41: apply (G _ _ (-443180) 1653972)%Z. 45: apply (G _ _ 443180 (-1653972))%Z.
  all: try (unfold dodecagon; cbn [In Z.opp]; auto 20; fail).
  all: unfold coef, root3; rewrite un_pos; change (2^23)%Z with 8388608%Z; apply Rabs_le; lra.
Qed.
Lemma grad3_height : forall h q v, (0 <= h < 2^31)%Z -> forall x y z, offset (unskew 3) q v = [x; y; z] -> drop_height (unskew 3) (offs q v) (Rabs (dot3 (warp3_grad h) x y z)).
Proof.
  intros h q v Hh x y z Ho. unfold drop_height. change (real_coords (unskew 3) (offs q v)) with (offset (unskew 3) q v). rewrite Ho. apply two_of_three.
  unfold warp3_grad, edges3. pose proof (simplex2_index_range h Hh) as Hr. set (r := simplex2_index h) in *. clearbody r.
  pose proof (abs_pm x y) as A. pose proof (abs_pm x z) as B. pose proof (abs_pm y z) as C.
  enum r Hr; nthz; unfold dot3;
  match goal with |- context [Rabs ?e] => first
   [ left; match goal with |- Rabs ?e <= _ => first [replace e with (x + y) by ring | replace e with (- x + y) by ring | replace e with (x - y) by ring | replace e with (- x - y) by ring] end; lra
   | right; left; match goal with |- Rabs ?e <= _ => first [replace e with (x + z) by ring | replace e with (- x + z) by ring | replace e with (x - z) by ring | replace e with (- x - z) by ring] end; lra
   | right; right; match goal with |- Rabs ?e <= _ => first [replace e with (y + z) by ring | replace e with (- y + z) by ring | replace e with (y - z) by ring | replace e with (- y - z) by ring] end; lra ] end.
Qed.
Lemma rdot_perm : forall p p', Permutation.Permutation p p' -> forall (g : list R) (z : list Z), Forall2 coef g z -> length g = length p ->
  exists g' z', Permutation.Permutation z z' /\ Forall2 coef g' z' /\ length g' = length p' /\ rdot g' p' = rdot g p.
Proof.
  induction 1 as [|a p p' P IH|a b p|p p' p'' P IH P' IH']; intros g z F L.
  - exists g, z. auto.
  - inversion F as [|g0 z0 gt zt C0 Ft]; subst; [discriminate|]. cbn [length] in L. destruct (IH gt zt Ft ltac:(lia)) as (g' & z' & Pz & F' & L' & E).
    exists (g0 :: g'), (z0 :: z'). repeat split; auto. cbn [length]. lia. cbn [rdot]. rewrite E. reflexivity.
  - inversion F as [|g0 z0 gt zt C0 Ft]; subst; [discriminate|]. inversion Ft as [|g1 z1 gt' zt' C1 Ft']; subst; [discriminate|].
    exists (g1 :: g0 :: gt'), (z1 :: z0 :: zt'). repeat split; auto. apply Permutation.perm_swap. cbn [rdot]. ring.
  - destruct (IH g z F L) as (g' & z' & Pz & F' & L' & E). destruct (IH' g' z' F' L') as (g'' & z'' & Pz' & F'' & L'' & E').
    exists g'', z''. repeat split; auto. eapply Permutation.perm_trans; eauto. congruence.
Qed.
Lemma max_symmetric_closed : forall n gs, (forall z z', In z gs -> Permutation.Permutation z z' -> In z' gs) -> symmetric (max_height n gs).
Proof.
  intros n gs Cl p p' h P (L & g & z & I & F & Lg & H). split; [rewrite <- (Permutation.Permutation_length P); exact L|].
  destruct (rdot_perm p p' P g z F Lg) as (g' & z' & Pz & F' & L' & E). exists g', z'. repeat split; auto. eapply Cl; eauto. lra.
Qed.
Definition in_roots4 (z : list Z) : bool :=
  let K := 1048576%Z in (length z =? 4)%nat && forallb (fun a => (a =? K) || (a =? - K) || (a =? 0))%Z z && ((zsum (map Z.abs z) =? K) || ((zsum (map Z.abs z) =? 2 * K) && (zsum z =? 0)))%Z.
Lemma zsum_perm : forall l l', Permutation.Permutation l l' -> zsum l = zsum l'.
Proof. intros l l' P. unfold zsum. induction P; cbn [fold_right]; lia. Qed.
Lemma forallb_perm : forall (A : Type) (f : A -> bool) l l', Permutation.Permutation l l' -> forallb f l = forallb f l'.
Proof. intros A f l l' P. induction P; cbn [forallb]; try congruence. destruct (f x), (f y); reflexivity. Qed.
Lemma in_roots4_perm : forall z z', Permutation.Permutation z z' -> in_roots4 z = in_roots4 z'.
Proof.
  intros z z' P. unfold in_roots4. rewrite (Permutation.Permutation_length P), (forallb_perm _ _ z z' P), (zsum_perm z z' P), (zsum_perm _ _ (Permutation.Permutation_map Z.abs P)). reflexivity.
Qed.
Lemma in_roots4_iff : forall z, In z roots4 <-> in_roots4 z = true.
Proof.
  intros z. split.
  - intros I. assert (A : forallb in_roots4 roots4 = true) by (vm_compute; reflexivity). rewrite forallb_forall in A. auto.
  - intros H. unfold in_roots4 in H. apply andb_prop in H as [H S0]. apply andb_prop in H as [L F]. apply Nat.eqb_eq in L.
    destruct z as [|a [|b [|c [|d [|? ?]]]]]; try discriminate L. cbn [forallb] in F.
    repeat match goal with H : (_ && _)%bool = true |- _ => apply andb_prop in H as [? ?] end.
    assert (T : forall x : Z, ((x =? 1048576) || (x =? - 1048576) || (x =? 0) = true)%Z -> (x = 1048576 \/ x = -1048576 \/ x = 0)%Z).
    { intros x Hx. apply orb_prop in Hx as [Hx|Hx]; [apply orb_prop in Hx as [Hx|Hx]|]; apply Z.eqb_eq in Hx; lia. }
    repeat match goal with H : _ = true |- _ => first [apply T in H | fail] end.
    repeat match goal with H : _ \/ _ |- _ => destruct H as [->|[->| ->]] end; vm_compute in S0; try discriminate S0; unfold roots4; cbn [In]; auto 30.
Qed.
Lemma roots4_closed : forall z z', In z roots4 -> Permutation.Permutation z z' -> In z' roots4.
Proof. intros z z' I P. apply in_roots4_iff in I. apply in_roots4_iff. rewrite <- (in_roots4_perm z z' P). exact I. Qed.
Lemma exact_coef : forall z, coef (IZR z / IZR (2^B)) z.
Proof. intros z; unfold coef; rewrite un_pos; replace (IZR z / 1048576 * 1048576 - IZR z) with 0 by field; rewrite Rabs_R0; lra. Qed.
Lemma roots4_zero : from_zero 4 (max_height 4 roots4).
Proof.
  intros p L. destruct p as [|x [|y [|z [|w [|? ?]]]]]; try discriminate. split; [reflexivity|].
  assert (C0 : coef 0 0%Z) by (unfold coef; rewrite un_pos; replace (0 * 1048576 - IZR 0) with 0 by ring; rewrite Rabs_R0; lra).
  assert (C1 : coef 1 1048576%Z) by (unfold coef; rewrite un_pos; replace (1 * 1048576 - IZR 1048576) with 0 by ring; rewrite Rabs_R0; lra).
  assert (C2 : coef (-1) (-1048576)%Z) by (unfold coef; rewrite un_pos; replace (-1 * 1048576 - IZR (-1048576)) with 0 by ring; rewrite Rabs_R0; lra).
  destruct (Rle_dec 0 x).
  - exists [1; 0; 0; 0], [1048576; 0; 0; 0]%Z. split; [unfold roots4; cbn [In]; auto 30|]. split; [auto|]. split; [reflexivity|cbn [rdot]; lra].
  - exists [-1; 0; 0; 0], [-1048576; 0; 0; 0]%Z. split; [unfold roots4; cbn [In]; auto 30|]. split; [auto|]. split; [reflexivity|cbn [rdot]; lra].
Qed.
Lemma roots4_lengths : Forall (fun g : list Z => length g = 4%nat) roots4.
Proof. unfold roots4. repeat constructor. Qed.
Lemma unskew4_num : - 13819660 / 100000000 - 1 / 100000000 <= unskew 4 <= - 13819660 / 100000000 + 1 / 100000000.
Proof.
  cbn [unskew]. assert (2.2360679 <= sqrt 5 <= 2.2360680).
  { split; apply Rsqr_incr_0; unfold Rsqr; try (rewrite sqrt_sqrt by lra); try lra; try apply sqrt_pos. }
  set (t := sqrt 5) in *. split; apply Rmult_le_reg_r with (t + 5); try lra; replace (- (1) / (t + 5) * (t + 5)) with (- (1)) by (field; lra); nra.
Qed.
Lemma grad4_height : forall h q v, (0 <= h < 2^31)%Z -> length q = 4%nat -> length v = 4%nat -> forall x y z w, offset (unskew 4) q v = [x; y; z; w] -> max_height 4 roots4 (offs q v) (Rabs (dot4 (simplex4_grad h) x y z w)).
Proof.
  intros h q v Hh Lq Lv x y z w Ho. destruct q as [|X [|Y [|Z0 [|W0 [|? ?]]]]]; try discriminate. destruct v as [|i [|j [|k [|l [|? ?]]]]]; try discriminate.
  split; [reflexivity|]. revert Ho. unfold offset. cbn [offs map]. unfold sum. cbn [fold_right].
  generalize (X - IZR i) (Y - IZR j) (Z0 - IZR k) (W0 - IZR l). intros a b c d Ho. rewrite Rplus_0_r in Ho.
  pose proof unskew4_num as U. set (u := unskew 4) in *. clearbody u. injection Ho as <- <- <- <-. unfold simplex4_grad. cbv zeta.
  assert (G : forall g1 g2 g3 g4 k1 k2 k3 k4, In [k1; k2; k3; k4] roots4 -> In [- k1; - k2; - k3; - k4]%Z roots4 ->
    coef (g1 + u * (g1 + g2 + g3 + g4)) k1 -> coef (g2 + u * (g1 + g2 + g3 + g4)) k2 -> coef (g3 + u * (g1 + g2 + g3 + g4)) k3 -> coef (g4 + u * (g1 + g2 + g3 + g4)) k4 ->
    exists g z, In z roots4 /\ Forall2 coef g z /\ length g = length [a; b; c; d] /\ Rabs (dot4 (g1, g2, g3, g4) (a + u * (a + (b + (c + d)))) (b + u * (a + (b + (c + d)))) (c + u * (a + (b + (c + d)))) (d + u * (a + (b + (c + d))))) <= rdot g [a; b; c; d]).
  { intros g1 g2 g3 g4 k1 k2 k3 k4 I1 I2 C1 C2 C3 C4. unfold dot4.
    replace (g1 * (a + u * (a + (b + (c + d)))) + g2 * (b + u * (a + (b + (c + d)))) + g3 * (c + u * (a + (b + (c + d)))) + g4 * (d + u * (a + (b + (c + d)))))
      with ((g1 + u * (g1 + g2 + g3 + g4)) * a + (g2 + u * (g1 + g2 + g3 + g4)) * b + (g3 + u * (g1 + g2 + g3 + g4)) * c + (g4 + u * (g1 + g2 + g3 + g4)) * d) by ring.
    set (c1 := g1 + _) in *. set (c2 := g2 + _) in *. set (c3 := g3 + u * _) in *. set (c4 := g4 + u * _) in *. unfold Rabs. destruct (Rcase_abs _).
    - exists [- c1; - c2; - c3; - c4], [- k1; - k2; - k3; - k4]%Z. split; [exact I2|]. split; [|split; [reflexivity|cbn [rdot]; lra]]. auto 8 using coef_opp.
    - exists [c1; c2; c3; c4], [k1; k2; k3; k4]%Z. split; [exact I1|]. split; [auto 8|]. split; [reflexivity|]. cbn [rdot]. lra. }
  pose proof (simplex4_index_range h Hh) as Hr. set (r := simplex4_index h) in *. clearbody r. set (K := 1048576%Z).
  enum r Hr; nthz.
  1: apply (G _ _ _ _ K 0 0 0)%Z. 7: apply (G _ _ _ _ 0 K 0 0)%Z. 13: apply (G _ _ _ _ 0 0 K 0)%Z. 19: apply (G _ _ _ _ 0 0 0 K)%Z.
  25: apply (G _ _ _ _ (-K) K 0 0)%Z. 31: apply (G _ _ _ _ K (-K) 0 0)%Z. 37: apply (G _ _ _ _ 0 0 (-K) K)%Z. 43: apply (G _ _ _ _ 0 0 K (-K))%Z.
  49: apply (G _ _ _ _ (-K) 0 K 0)%Z. 55: apply (G _ _ _ _ 0 (-K) 0 K)%Z. 61: apply (G _ _ _ _ K 0 (-K) 0)%Z. 67: apply (G _ _ _ _ 0 K 0 (-K))%Z.
  73: apply (G _ _ _ _ (-K) 0 0 K)%Z. 79: apply (G _ _ _ _ 0 (-K) K 0)%Z. 85: apply (G _ _ _ _ 0 K (-K) 0)%Z. 91: apply (G _ _ _ _ K 0 0 (-K))%Z.
  97: apply (G _ _ _ _ (-K) 0 0 0)%Z. 103: apply (G _ _ _ _ 0 (-K) 0 0)%Z. 109: apply (G _ _ _ _ 0 0 (-K) 0)%Z. 115: apply (G _ _ _ _ 0 0 0 (-K))%Z.
  all: try (apply in_roots4_iff; vm_compute; reflexivity).
  all: unfold coef, skew4, K; rewrite un_pos; change (2^24)%Z with 16777216%Z; change (-(1048576))%Z with (-1048576)%Z; apply Rabs_le; lra.
Qed.
(** ** The bounds. The divisor is kBounding; the falloffs of SuperSimplex 3D and 4D are divided by 16 in the code. *)
Lemma sxw2_ortho_reach : forall seed q L, length q = 2%nat -> distinct 2 L -> sumsq (map (pushes OrthogonalGradientMatrix (1/2) (unskew 2) seed q L) (seq 0 2)) <= (1 + 1/500) / (4597223/65536) * ((1 + 1/500) / (4597223/65536)).
Proof.
  intros seed q L Lq D.
  assert (R1 : radius (radius_of 2 1 2) <= 2 * (INR 2 + 1)) by nums. assert (R2 : (INR 2 + 1) * (1/2) <= radius (radius_of 2 1 2)) by (nums).
  apply (reach_bound _ _ _ 2 _ _ (1/2) (unskew 2) (1.22474) root_sound root_symmetric (root_zero 2) ltac:(lia) unskews2 R1 R2 sxw2_ortho_checked ltac:(lra) root_mono _ seed q L Lq D).
  - intros v Hv. pose proof (proj2 D v Hv) as Lv. destruct (offset_as2 (unskew 2) q v Lq Lv) as (x & y & Ho). pose proof (sqlen_quad (unskew 2) q v) as Q. rewrite Lq in Q. specialize (Q unskews2 Lv). rewrite Ho in *.
    split; [reflexivity|]. pose proof (ortho2_sumsq (hash31 seed v) x y (C31_hash31_range seed v)) as S0. assert (0 <= quad (offs q v)) as P.
    { assert (0 <= sqlen [x; y]) by (unfold sqlen; cbn [map]; rewrite !sum_cons, sum_nil; nra). rewrite ?INR2, ?INR3 in Q. lra. }
    exists (sqrt (quad (offs q v))). split; [apply sqrt_pos|]. split; [unfold root_height|]; rewrite sqrt_sqrt by exact P; [lra|]. rewrite ?INR2, ?INR3 in Q. nra.
  - rewrite ?INR2, ?INR3, ?un_pos. lra.
Qed.
Lemma ssw2_ortho_reach : forall seed q L, length q = 2%nat -> distinct 2 L -> sumsq (map (pushes OrthogonalGradientMatrix (2/3) (unskew 2) seed q L) (seq 0 2)) <= (1 + 1/500) / (6561/512) * ((1 + 1/500) / (6561/512)).
Proof.
  intros seed q L Lq D.
  assert (R1 : radius (radius_of 2 2 3) <= 2 * (INR 2 + 1)) by nums. assert (R2 : (INR 2 + 1) * (2/3) <= radius (radius_of 2 2 3)) by (nums).
  apply (reach_bound _ _ _ 2 _ _ (2/3) (unskew 2) (1.22474) root_sound root_symmetric (root_zero 2) ltac:(lia) unskews2 R1 R2 ssw2_ortho_checked ltac:(lra) root_mono _ seed q L Lq D).
  - intros v Hv. pose proof (proj2 D v Hv) as Lv. destruct (offset_as2 (unskew 2) q v Lq Lv) as (x & y & Ho). pose proof (sqlen_quad (unskew 2) q v) as Q. rewrite Lq in Q. specialize (Q unskews2 Lv). rewrite Ho in *.
    split; [reflexivity|]. pose proof (ortho2_sumsq (hash31 seed v) x y (C31_hash31_range seed v)) as S0. assert (0 <= quad (offs q v)) as P.
    { assert (0 <= sqlen [x; y]) by (unfold sqlen; cbn [map]; rewrite !sum_cons, sum_nil; nra). rewrite ?INR2, ?INR3 in Q. lra. }
    exists (sqrt (quad (offs q v))). split; [apply sqrt_pos|]. split; [unfold root_height|]; rewrite sqrt_sqrt by exact P; [lra|]. rewrite ?INR2, ?INR3 in Q. nra.
  - rewrite ?INR2, ?INR3, ?un_pos. lra.
Qed.
Lemma sxw2_outer_reach : forall seed q L, length q = 2%nat -> distinct 2 L -> sumsq (map (pushes GradientOuterProduct (1/2) (unskew 2) seed q L) (seq 0 2)) <= (1 + 1/500) / (1635727/65536) * ((1 + 1/500) / (1635727/65536)).
Proof.
  intros seed q L Lq D.
  assert (R1 : radius (radius_of 2 1 2) <= 2 * (INR 2 + 1)) by nums. assert (R2 : (INR 2 + 1) * (1/2) <= radius (radius_of 2 1 2)) by (nums).
  apply (reach_bound _ _ _ 2 _ _ (1/2) (unskew 2) (0.4999998) (max_sound 2 dodecagon (proj1 dodecagon_pairs)) (max_symmetric dodecagon dodecagon_pairs) (max_zero dodecagon dodecagon_pairs) ltac:(lia) unskews2 R1 R2 sxw2_outer_checked ltac:(lra) (max_mono 2 dodecagon) _ seed q L Lq D).
  - intros v Hv. pose proof (proj2 D v Hv) as Lv. destruct (offset_as2 (unskew 2) q v Lq Lv) as (x & y & Ho). pose proof (grad2_height _ q v (C31_hash31_range seed v) Lq Lv x y Ho) as H. rewrite Ho in *.
    split; [reflexivity|]. exists (Rabs (dot2 (simplex2_grad (hash31 seed v)) x y)). split; [apply Rabs_pos|]. split; [exact H|].
    pose proof (outer2_sumsq (hash31 seed v) x y) as S0. set (d := dot2 (simplex2_grad (hash31 seed v)) x y) in *. rewrite <- Rabs_mult, (Rabs_pos_eq (d * d)) by nra. assert (0 <= d * d) by nra. nra.
  - rewrite ?INR2, ?INR3, ?INR4, ?un_pos. lra.
Qed.
Lemma ssw2_outer_reach : forall seed q L, length q = 2%nat -> distinct 2 L -> sumsq (map (pushes GradientOuterProduct (2/3) (unskew 2) seed q L) (seq 0 2)) <= (1 + 1/500) / (9741205/2097152) * ((1 + 1/500) / (9741205/2097152)).
Proof.
  intros seed q L Lq D.
  assert (R1 : radius (radius_of 2 2 3) <= 2 * (INR 2 + 1)) by nums. assert (R2 : (INR 2 + 1) * (2/3) <= radius (radius_of 2 2 3)) by (nums).
  apply (reach_bound _ _ _ 2 _ _ (2/3) (unskew 2) (0.4999998) (max_sound 2 dodecagon (proj1 dodecagon_pairs)) (max_symmetric dodecagon dodecagon_pairs) (max_zero dodecagon dodecagon_pairs) ltac:(lia) unskews2 R1 R2 ssw2_outer_checked ltac:(lra) (max_mono 2 dodecagon) _ seed q L Lq D).
  - intros v Hv. pose proof (proj2 D v Hv) as Lv. destruct (offset_as2 (unskew 2) q v Lq Lv) as (x & y & Ho). pose proof (grad2_height _ q v (C31_hash31_range seed v) Lq Lv x y Ho) as H. rewrite Ho in *.
    split; [reflexivity|]. exists (Rabs (dot2 (simplex2_grad (hash31 seed v)) x y)). split; [apply Rabs_pos|]. split; [exact H|].
    pose proof (outer2_sumsq (hash31 seed v) x y) as S0. set (d := dot2 (simplex2_grad (hash31 seed v)) x y) in *. rewrite <- Rabs_mult, (Rabs_pos_eq (d * d)) by nra. assert (0 <= d * d) by nra. nra.
  - rewrite ?INR2, ?INR3, ?INR4, ?un_pos. lra.
Qed.
Lemma sxw3_ortho_reach : forall seed q L, length q = 3%nat -> distinct 3 L -> sumsq (map (pushes OrthogonalGradientMatrix (kR06) (unskew 3) seed q L) (seq 0 3)) <= (1 + 1/50) / (1067033/65536) * ((1 + 1/50) / (1067033/65536)).
Proof.
  intros seed q L Lq D.
  assert (R1 : radius (radius_of 3 10066330 16777216) <= 2 * (INR 3 + 1)) by nums. assert (R2 : (INR 3 + 1) * (kR06) <= radius (radius_of 3 10066330 16777216)) by (unfold kR06; nums).
  apply (reach_bound _ _ _ 3 _ _ (kR06) (unskew 3) (0.816496) root_sound root_symmetric (root_zero 3) ltac:(lia) unskews3 R1 R2 sxw3_ortho_checked ltac:(lra) root_mono _ seed q L Lq D).
  - intros v Hv. pose proof (proj2 D v Hv) as Lv. destruct (offset_as3 (unskew 3) q v Lq Lv) as (x & y & z & Ho). pose proof (sqlen_quad (unskew 3) q v) as Q. rewrite Lq in Q. specialize (Q unskews3 Lv). rewrite Ho in *.
    split; [cbn [turned]; destruct (ortho3_rows _) as [[? ?] ?]; reflexivity|]. pose proof (ortho3_sumsq (hash31 seed v) x y z (C31_hash31_range seed v)) as S0. assert (0 <= quad (offs q v)) as P.
    { assert (0 <= sqlen [x; y; z]) by (unfold sqlen; cbn [map]; rewrite !sum_cons, sum_nil; nra). rewrite ?INR2, ?INR3 in Q. lra. }
    exists (sqrt (quad (offs q v))). split; [apply sqrt_pos|]. split; [unfold root_height|]; rewrite sqrt_sqrt by exact P; [lra|]. rewrite ?INR2, ?INR3 in Q. nra.
  - rewrite ?INR2, ?INR3, ?un_pos. lra.
Qed.
Lemma ssw3_ortho_reach : forall seed q L, length q = 3%nat -> distinct 3 L -> sumsq (map (pushes OrthogonalGradientMatrix (3/4) (unskew 3) seed q L) (seq 0 3)) <= ((1 + 1/50) / 2) / (4933155/131072/16) * (((1 + 1/50) / 2) / (4933155/131072/16)).
Proof.
  intros seed q L Lq D.
  assert (R1 : radius (radius_of 3 3 4) <= 2 * (INR 3 + 1)) by nums. assert (R2 : (INR 3 + 1) * (3/4) <= radius (radius_of 3 3 4)) by (nums).
  apply (reach_bound _ _ _ 3 _ _ (3/4) (unskew 3) (0.816496) root_sound root_symmetric (root_zero 3) ltac:(lia) unskews3 R1 R2 ssw3_ortho_checked ltac:(lra) root_mono _ seed q L Lq D).
  - intros v Hv. pose proof (proj2 D v Hv) as Lv. destruct (offset_as3 (unskew 3) q v Lq Lv) as (x & y & z & Ho). pose proof (sqlen_quad (unskew 3) q v) as Q. rewrite Lq in Q. specialize (Q unskews3 Lv). rewrite Ho in *.
    split; [cbn [turned]; destruct (ortho3_rows _) as [[? ?] ?]; reflexivity|]. pose proof (ortho3_sumsq (hash31 seed v) x y z (C31_hash31_range seed v)) as S0. assert (0 <= quad (offs q v)) as P.
    { assert (0 <= sqlen [x; y; z]) by (unfold sqlen; cbn [map]; rewrite !sum_cons, sum_nil; nra). rewrite ?INR2, ?INR3 in Q. lra. }
    exists (sqrt (quad (offs q v))). split; [apply sqrt_pos|]. split; [unfold root_height|]; rewrite sqrt_sqrt by exact P; [lra|]. rewrite ?INR2, ?INR3 in Q. nra.
  - rewrite ?INR2, ?INR3, ?un_pos. lra.
Qed.
Lemma sxw3_outer_reach : forall seed q L, length q = 3%nat -> distinct 3 L -> sumsq (map (pushes GradientOuterProduct (kR06) (unskew 3) seed q L) (seq 0 3)) <= (1 + 1/50) / (12120673/524288) * ((1 + 1/50) / (12120673/524288)).
Proof.
  intros seed q L Lq D.
  assert (R1 : radius (radius_of 3 10066330 16777216) <= 2 * (INR 3 + 1)) by nums. assert (R2 : (INR 3 + 1) * (kR06) <= radius (radius_of 3 10066330 16777216)) by (unfold kR06; nums).
  apply (reach_bound _ _ _ 3 _ _ (kR06) (unskew 3) (0.707106) (drop_sound _ _ half_off_ok) (drop_symmetric _) (drop_zero _ 3 ltac:(lia)) ltac:(lia) unskews3 R1 R2 sx3_checked ltac:(lra) (drop_mono _) _ seed q L Lq D).
  - intros v Hv. pose proof (proj2 D v Hv) as Lv. destruct (offset_as3 (unskew 3) q v Lq Lv) as (x & y & z & Ho). pose proof (grad3_height _ q v (C31_hash31_range seed v) x y z Ho) as H. rewrite Ho in *.
    split; [cbn [turned]; cbv zeta; destruct (outer3_vec _) as [[? ?] ?]; reflexivity|]. exists (Rabs (dot3 (warp3_grad (hash31 seed v)) x y z)). split; [apply Rabs_pos|]. split; [exact H|].
    pose proof (outer3_sumsq (hash31 seed v) x y z) as S0. set (d := dot3 (warp3_grad (hash31 seed v)) x y z) in *. rewrite <- Rabs_mult, (Rabs_pos_eq (d * d)) by nra. assert (0 <= d * d) by nra. nra.
  - lims. lra.
Qed.
Lemma ssw3_outer_reach : forall seed q L, length q = 3%nat -> distinct 3 L -> sumsq (map (pushes GradientOuterProduct (3/4) (unskew 3) seed q L) (seq 0 3)) <= (1 + 1/50) / (13414447/131072/16) * ((1 + 1/50) / (13414447/131072/16)).
Proof.
  intros seed q L Lq D.
  assert (R1 : radius (radius_of 3 3 4) <= 2 * (INR 3 + 1)) by nums. assert (R2 : (INR 3 + 1) * (3/4) <= radius (radius_of 3 3 4)) by (nums).
  apply (reach_bound _ _ _ 3 _ _ (3/4) (unskew 3) (0.707106) (drop_sound _ _ half_off_ok) (drop_symmetric _) (drop_zero _ 3 ltac:(lia)) ltac:(lia) unskews3 R1 R2 ss3_checked ltac:(lra) (drop_mono _) _ seed q L Lq D).
  - intros v Hv. pose proof (proj2 D v Hv) as Lv. destruct (offset_as3 (unskew 3) q v Lq Lv) as (x & y & z & Ho). pose proof (grad3_height _ q v (C31_hash31_range seed v) x y z Ho) as H. rewrite Ho in *.
    split; [cbn [turned]; cbv zeta; destruct (outer3_vec _) as [[? ?] ?]; reflexivity|]. exists (Rabs (dot3 (warp3_grad (hash31 seed v)) x y z)). split; [apply Rabs_pos|]. split; [exact H|].
    pose proof (outer3_sumsq (hash31 seed v) x y z) as S0. set (d := dot3 (warp3_grad (hash31 seed v)) x y z) in *. rewrite <- Rabs_mult, (Rabs_pos_eq (d * d)) by nra. assert (0 <= d * d) by nra. nra.
  - lims. lra.
Qed.
Lemma sxw4_outer_reach : forall seed q L, length q = 4%nat -> distinct 4 L -> sumsq (map (pushes GradientOuterProduct (kR06) (unskew 4) seed q L) (seq 0 4)) <= (1 + 1/40) / (6238071/262144) * ((1 + 1/40) / (6238071/262144)).
Proof.
  intros seed q L Lq D.
  assert (R1 : radius (radius_of 4 10066330 16777216) <= 2 * (INR 4 + 1)) by nums. assert (R2 : (INR 4 + 1) * (kR06) <= radius (radius_of 4 10066330 16777216)) by (unfold kR06; nums).
  apply (reach_bound _ _ _ 4 _ _ (kR06) (unskew 4) (0.707106) (max_sound 4 roots4 roots4_lengths) (max_symmetric_closed 4 roots4 roots4_closed) roots4_zero ltac:(lia) unskews4 R1 R2 sxw4_outer_checked ltac:(lra) (max_mono 4 roots4) _ seed q L Lq D).
  - intros v Hv. pose proof (proj2 D v Hv) as Lv. destruct (offset_as4 (unskew 4) q v Lq Lv) as (x & y & z & w & Ho). pose proof (grad4_height _ q v (C31_hash31_range seed v) Lq Lv x y z w Ho) as H. rewrite Ho in *.
    split; [cbn [turned]; cbv zeta; destruct (outer4_vec _) as [[[? ?] ?] ?]; reflexivity|]. exists (Rabs (dot4 (simplex4_grad (hash31 seed v)) x y z w)). split; [apply Rabs_pos|]. split; [exact H|].
    pose proof (outer4_sumsq (hash31 seed v) x y z w) as S0. set (d := dot4 (simplex4_grad (hash31 seed v)) x y z w) in *. rewrite <- Rabs_mult, (Rabs_pos_eq (d * d)) by nra. assert (0 <= d * d) by nra. nra.
  - rewrite ?INR2, ?INR3, ?INR4, ?un_pos. lra.
Qed.
Lemma ssw4_outer_reach : forall seed q L, length q = 4%nat -> distinct 4 L -> sumsq (map (pushes GradientOuterProduct (4/5) (unskew 4) seed q L) (seq 0 4)) <= (1 + 1/15) / (10678461/131072/16) * ((1 + 1/15) / (10678461/131072/16)).
Proof.
  intros seed q L Lq D.
  assert (R1 : radius (radius_of 4 4 5) <= 2 * (INR 4 + 1)) by nums. assert (R2 : (INR 4 + 1) * (4/5) <= radius (radius_of 4 4 5)) by (nums).
  apply (reach_bound _ _ _ 4 _ _ (4/5) (unskew 4) (0.707106) (max_sound 4 roots4 roots4_lengths) (max_symmetric_closed 4 roots4 roots4_closed) roots4_zero ltac:(lia) unskews4 R1 R2 ssw4_outer_checked ltac:(lra) (max_mono 4 roots4) _ seed q L Lq D).
  - intros v Hv. pose proof (proj2 D v Hv) as Lv. destruct (offset_as4 (unskew 4) q v Lq Lv) as (x & y & z & w & Ho). pose proof (grad4_height _ q v (C31_hash31_range seed v) Lq Lv x y z w Ho) as H. rewrite Ho in *.
    split; [cbn [turned]; cbv zeta; destruct (outer4_vec _) as [[[? ?] ?] ?]; reflexivity|]. exists (Rabs (dot4 (simplex4_grad (hash31 seed v)) x y z w)). split; [apply Rabs_pos|]. split; [exact H|].
    pose proof (outer4_sumsq (hash31 seed v) x y z w) as S0. set (d := dot4 (simplex4_grad (hash31 seed v)) x y z w) in *. rewrite <- Rabs_mult, (Rabs_pos_eq (d * d)) by nra. assert (0 <= d * d) by nra. nra.
  - rewrite ?INR2, ?INR3, ?INR4, ?un_pos. lra.
Qed.
