(** C58: looking at the 3^n surrounding cells is enough: the nearest feature point of the whole infinite lattice is found
    (Euclidean distance, grid jitter within [-1, 1], no size jitter). *)
From Coq Require Import Reals ZArith List Bool Lia Lra Psatz.
From Verif Require Import Prelude Simd_Model Utils_Model Nodes_Model Cellular_Model Simd_R Setters_Model Bits P_Hash P_Blend OrderStats Cellular_Spec P_Cellular.
Import ListNotations.
Open Scope R_scope.

(** ** Vectors *)
Lemma abs_sq : forall x, Rabs x * Rabs x = x * x.
Proof. intros. rewrite <- Rabs_mult. apply Rabs_right. apply Rle_ge. apply (Rle_0_sqr x). Qed.
Fixpoint dot (u v : list R) : R := match u, v with x :: u', y :: v' => x * y + dot u' v' | _, _ => 0 end.
Definition vadd (u v : list R) : list R := zipw Rplus u v.
Definition vscale (k : R) (u : list R) : list R := map (fun x => k * x) u.
Lemma sumsq_cons : forall x u, sumsq (x :: u) = x * x + sumsq u. Proof. reflexivity. Qed.
Lemma sumsq_pos : forall v, 0 <= sumsq v.
Proof. induction v as [|x v IH]; [cbn; lra|]. rewrite sumsq_cons. pose proof (Rle_0_sqr x). unfold Rsqr in *. lra. Qed.
Lemma norm_pos : forall v, 0 <= norm v. Proof. intros. apply sqrt_pos. Qed.
Lemma norm_sq : forall v, norm v * norm v = sumsq v. Proof. intros. unfold norm. apply sqrt_sqrt, sumsq_pos. Qed.
Lemma cauchy : forall u v, length u = length v -> dot u v * dot u v <= sumsq u * sumsq v.
Proof.
  induction u as [|x u IH]; intros [|y v] H; try discriminate H; [cbn; lra|].
  cbn [dot]. rewrite !sumsq_cons. cbn in H. specialize (IH v ltac:(lia)).
  pose proof (sumsq_pos u) as A. pose proof (sumsq_pos v) as B.
  (* 2 x y (u.v) <= x^2 |v|^2 + y^2 |u|^2 *)
  assert (K : 2 * (x * y) * dot u v <= x * x * sumsq v + y * y * sumsq u).
  { rewrite <- (norm_sq u), <- (norm_sq v) in *. pose proof (norm_pos u) as P. pose proof (norm_pos v) as Q.
    set (p := norm u) in *. set (q := norm v) in *. set (d := dot u v) in *.
    assert (Rabs d <= p * q).
    { apply Rsqr_incr_0_var; [|nra]. unfold Rsqr. rewrite abs_sq. nra. }
    assert (x * y * d <= Rabs (x * y) * (p * q)).
    { apply Rle_trans with (Rabs (x * y * d)); [apply Rle_abs|]. rewrite Rabs_mult. apply Rmult_le_compat_l; [apply Rabs_pos|assumption]. }
    assert (2 * (Rabs (x * y) * (p * q)) <= x * x * (q * q) + y * y * (p * p)).
    { rewrite Rabs_mult. pose proof (Rle_0_sqr (Rabs x * q - Rabs y * p)) as Z. unfold Rsqr in Z.
      assert (Rabs x * Rabs x = x * x) by apply abs_sq.
      assert (Rabs y * Rabs y = y * y) by apply abs_sq. nra. }
    lra. }
  nra.
Qed.
Lemma sumsq_add : forall u v, length u = length v -> sumsq (vadd u v) = sumsq u + 2 * dot u v + sumsq v.
Proof.
  induction u as [|x u IH]; intros [|y v] H; try discriminate H; [cbn; lra|].
  unfold vadd in *. cbn [zipw dot]. rewrite !sumsq_cons, IH by (cbn in H; lia). ring.
Qed.
Lemma triangle : forall u v, length u = length v -> norm (vadd u v) <= norm u + norm v.
Proof.
  intros u v H. pose proof (norm_pos u). pose proof (norm_pos v).
  apply Rsqr_incr_0_var; [|lra]. unfold Rsqr. rewrite norm_sq, sumsq_add by exact H.
  pose proof (cauchy u v H) as C. rewrite <- (norm_sq u), <- (norm_sq v) in C. rewrite <- (norm_sq u), <- (norm_sq v).
  assert (dot u v <= norm u * norm v); [|lra].
  apply Rle_trans with (Rabs (dot u v)); [apply Rle_abs|]. apply Rsqr_incr_0_var; [|nra].
  unfold Rsqr. rewrite abs_sq. nra.
Qed.
Lemma sumsq_scale : forall k u, sumsq (vscale k u) = k * k * sumsq u.
Proof. induction u as [|x u IH]; [cbn; lra|]. unfold vscale in *. cbn [map]. rewrite !sumsq_cons, IH. ring. Qed.
Lemma norm_scale : forall k u, norm (vscale k u) = Rabs k * norm u.
Proof.
  intros. unfold norm. rewrite sumsq_scale, sqrt_mult; [|nra|apply sumsq_pos]. f_equal.
  replace (k * k) with (Rsqr k) by reflexivity. apply sqrt_Rsqr_abs.
Qed.

(** ** The displacement of a feature point has length |j| *)
Lemma half_odd : forall z (k : Z), IZR z - (IZR k + 1/2) <> 0.
Proof.
  intros z k H. assert (IZR (2 * z) = IZR (2 * k + 1)) as E by (rewrite plus_IZR, !mult_IZR; lra). apply eq_IZR in E. lia.
Qed.
Lemma raw_nonzero : forall h n, (2 <= n <= 4)%nat -> 0 < sumsq (raw_dir h n).
Proof.
  intros h n Hn. assert (G : forall x v, x <> 0 -> 0 < sumsq (x :: v)).
  { intros x v H. rewrite sumsq_cons. pose proof (sumsq_pos v). assert (0 < x * x) by (apply Rsqr_pos_lt; exact H). lra. }
  destruct n as [|[|[|[|[|n]]]]]; try lia; unfold raw_dir; apply G.
  - replace 1023.5 with (IZR 1023 + 1/2) by lra. apply half_odd.
  - replace 511.5 with (IZR 511 + 1/2) by lra. apply half_odd.
  - replace 127.5 with (IZR 127 + 1/2) by lra. apply half_odd.
Qed.
Theorem C58_displacement : forall h n, (2 <= n <= 4)%nat -> norm (direction h n) = 1.
Proof.
  intros h n Hn. pose proof (raw_nonzero h n Hn) as H. unfold direction.
  assert (E : map (fun x => x / norm (raw_dir h n)) (raw_dir h n) = vscale (/ norm (raw_dir h n)) (raw_dir h n)).
  { unfold vscale. apply map_ext. intros. unfold Rdiv. apply Rmult_comm. }
  rewrite E, norm_scale. assert (0 < norm (raw_dir h n)) by (apply sqrt_lt_R0; exact H).
  rewrite Rabs_right by (left; apply Rinv_0_lt_compat; assumption). field. lra.
Qed.

(** ** Lattice points outside the neighbourhood are far *)
Definition off (xs : list R) (c : list Z) : list R := zipw (fun z x => IZR z - x) c xs.
Lemma nearest_sq : forall x z, (IZR (Rnear x) - x) * (IZR (Rnear x) - x) <= (IZR z - x) * (IZR z - x).
Proof.
  intros x z. pose proof (Rnear_spec x) as H. destruct (Z.eq_dec z (Rnear x)) as [->|N]; [lra|].
  assert (1/2 <= Rabs (IZR z - x)).
  { destruct (Z_lt_le_dec z (Rnear x)) as [L|L].
    - assert (IZR z <= IZR (Rnear x - 1)) as Q by (apply IZR_le; lia). rewrite minus_IZR in Q. rewrite Rabs_left1 by lra. lra.
    - assert (IZR (Rnear x + 1) <= IZR z) as Q by (apply IZR_le; lia). rewrite plus_IZR in Q. rewrite Rabs_right by lra. lra. }
  assert (Rabs (IZR z - x) * Rabs (IZR z - x) = (IZR z - x) * (IZR z - x)) as <- by apply abs_sq. nra.
Qed.
Lemma off_ge : forall xs c, length c = length xs -> sumsq (off xs (map Rnear xs)) <= sumsq (off xs c).
Proof.
  induction xs as [|x xs IH]; intros [|z c] H; try discriminate H; [cbn; lra|].
  unfold off in *. cbn [map zipw]. rewrite !sumsq_cons. specialize (IH c ltac:(cbn in H; lia)). pose proof (nearest_sq x z). lra.
Qed.
Lemma off_small : forall xs, sumsq (off xs (map Rnear xs)) <= INR (length xs) / 4.
Proof.
  induction xs as [|x xs IH]; [cbn; lra|]. unfold off in *. cbn [map zipw length]. rewrite S_INR, sumsq_cons.
  pose proof (Rnear_spec x). nra.
Qed.
Lemma off_far : forall xs c, length c = length xs -> ~ In c (neighbours (map Rnear xs)) -> sumsq (off xs (map Rnear xs)) + 2 <= sumsq (off xs c).
Proof.
  induction xs as [|x xs IH]; intros [|z c] H N; try discriminate H.
  - exfalso. apply N. left. reflexivity.
  - cbn in H. assert (Hc : length c = length xs) by lia.
    unfold off in *. cbn [map zipw]. rewrite !sumsq_cons. pose proof (Rnear_spec x) as X.
    destruct (Z_le_gt_dec (Z.abs (z - Rnear x)) 1) as [L|L].
    + assert (~ In c (neighbours (map Rnear xs))) as N'.
      { intros I. apply N. cbn [map neighbours]. apply in_flat_map. exists z. split; [cbn; lia|]. apply in_map. exact I. }
      specialize (IH c Hc N'). pose proof (nearest_sq x z). lra.
    + pose proof (off_ge xs c Hc) as G. unfold off in G.
      assert (3/2 <= Rabs (IZR z - x)).
      { destruct (Z_lt_le_dec z (Rnear x)) as [Q|Q].
        - assert (IZR z <= IZR (Rnear x - 2)) as Q' by (apply IZR_le; lia). rewrite minus_IZR in Q'. rewrite Rabs_left1 by lra. lra.
        - assert (IZR (Rnear x + 2) <= IZR z) as Q' by (apply IZR_le; lia). rewrite plus_IZR in Q'. rewrite Rabs_right by lra. lra. }
      assert (Rabs (IZR z - x) * Rabs (IZR z - x) = (IZR z - x) * (IZR z - x)) as E by apply abs_sq.
      rewrite <- E. nra.
Qed.

(** rounding of the 3D constant: 0.396144 is a little larger than (sqrt(11) - sqrt(3)) / 4 *)
Definition slack (n : nat) : R := match n with 3%nat => 11 / 10000000 | _ => 0 end.
Lemma gap : forall n a b j, (2 <= n <= 4)%nat -> 0 <= a -> 0 <= b -> b * b <= INR n / 4 -> b * b + 2 <= a * a -> 0 <= j <= max_jitter n ->
  b + j <= a - j + slack n.
Proof.
  intros n a b j Hn Ha Hb Hbn Hab Hj.
  assert (G : forall K s : R, 0 <= s -> b <= K -> j * 2 <= s \/ (2 * j - s) * (2 * K + (2 * j - s)) <= 2 -> b + j <= a - j + s).
  { intros K s0 Hs HK [H|H].
    - assert (b <= a); [|lra]. apply Rsqr_incr_0_var; auto. unfold Rsqr. lra.
    - destruct (Rle_dec (2 * j) s0) as [L|L]; [assert (b <= a); [apply Rsqr_incr_0_var; auto; unfold Rsqr; lra|lra]|].
      assert (b + (2 * j - s0) <= a); [|lra].
      apply Rsqr_incr_0_var; auto. unfold Rsqr. nra. }
  destruct n as [|[|[|[|[|n]]]]]; try lia; unfold max_jitter, slack in *.
  - apply (G (7071067812 / 10000000000) 0); [lra| |right; nra].
    cbn in Hbn. apply Rsqr_incr_0_var; [unfold Rsqr; lra|lra].
  - apply (G (8660254038 / 10000000000) (11 / 10000000)); [lra| |right; nra].
    cbn in Hbn. apply Rsqr_incr_0_var; [unfold Rsqr; lra|lra].
  - apply (G 1 0); [lra| |right; nra].
    cbn in Hbn. apply Rsqr_incr_0_var; [unfold Rsqr; lra|lra].
Qed.

Lemma vec_split : forall seed j xs c, (2 <= length c <= 4)%nat -> length xs = length c ->
  vec seed j xs c = vadd (off xs c) (vscale j (direction (hash_hb seed c) (length c))).
Proof.
  intros seed j xs c H1 H2. unfold vec, feature, off, vadd, vscale.
  pose proof (dir_len (hash_hb seed c) (length c) H1) as L.
  generalize dependent (direction (hash_hb seed c) (length c)). clear H1. revert xs H2.
  induction c as [|z c IH]; intros [|x xs] H2 [|d ds] L; try discriminate H2; try discriminate L; [reflexivity|].
  cbn [zipw map]. f_equal; [ring|]. apply IH; cbn in *; lia.
Qed.
Lemma off_len : forall xs c, length xs = length c -> length (off xs c) = length c.
Proof. intros. unfold off. rewrite zip_len. lia. Qed.

(** the distance from the position to a feature point of any cell *)
Definition feature_distance (seed : Z) (j : R) (xs : list R) (c : list Z) : R := norm (zipw Rminus (feature seed j c) xs).
Lemma search : forall seed j xs c, (2 <= length xs <= 4)%nat -> length c = length xs -> Rabs j <= max_jitter (length xs) ->
  exists c', In c' (neighbours (map Rnear xs)) /\ feature_distance seed j xs c' <= feature_distance seed j xs c + slack (length xs).
Proof.
  intros seed j xs c Hn Hc Hj.
  destruct (in_dec (list_eq_dec Z.eq_dec) c (neighbours (map Rnear xs))) as [I|I].
  { exists c. split; [exact I|]. assert (0 <= slack (length xs)); [|lra].
    unfold slack. destruct (length xs) as [|[|[|[|m]]]]; lra. }
  set (n0 := map Rnear xs). assert (Ln : length n0 = length xs) by apply map_length.
  exists n0. split.
  { unfold n0. clear. induction xs as [|x xs IH]; [left; reflexivity|]. cbn [map neighbours]. apply in_flat_map. exists (Rnear x). split; [cbn; auto|].
    apply in_map. exact IH. }
  unfold feature_distance. fold (vec seed j xs n0). fold (vec seed j xs c).
  rewrite (vec_split seed j xs n0) by lia. 
  set (dn := direction (hash_hb seed n0) (length n0)). set (dc := direction (hash_hb seed c) (length c)).
  assert (Nn : norm (vscale j dn) = Rabs j) by (rewrite norm_scale; unfold dn; rewrite C58_displacement by lia; ring).
  assert (Nc : norm (vscale (- j) dc) = Rabs j) by (rewrite norm_scale, Rabs_Ropp; unfold dc; rewrite C58_displacement by lia; ring).
  assert (T1 : norm (vadd (off xs n0) (vscale j dn)) <= norm (off xs n0) + Rabs j).
  { rewrite <- Nn. apply triangle. unfold vscale. rewrite map_length. unfold dn. rewrite dir_len, off_len by lia. reflexivity. }
  assert (T2 : norm (off xs c) <= norm (vec seed j xs c) + Rabs j).
  { rewrite <- Nc. assert (off xs c = vadd (vec seed j xs c) (vscale (- j) dc)) as E.
    { rewrite vec_split by lia. fold dc. pose proof (off_len xs c ltac:(lia)) as L1. pose proof (dir_len (hash_hb seed c) (length c) ltac:(lia)) as L2. fold dc in L2.
      rewrite <- L2 in L1. clear - L1. revert L1. generalize (off xs c) as u. generalize dc as d. unfold vadd, vscale.
      induction d as [|d ds IH]; intros [|u us] L; try discriminate L; [reflexivity|]. cbn [map zipw]. f_equal; [ring|]. apply IH. cbn in L. lia. }
    rewrite E at 1. apply triangle. unfold vscale. rewrite map_length. unfold dc. rewrite dir_len, vec_len by lia. reflexivity. }
  pose proof (gap (length xs) (norm (off xs c)) (norm (off xs n0)) (Rabs j) Hn (norm_pos _) (norm_pos _)) as G.
  rewrite !norm_sq in G. specialize (G (off_small xs) (off_far xs c Hc I) (conj (Rabs_pos j) Hj)). lra.
Qed.

Section C58.
Variable inf : R.
Variable bits : R -> Z.
Notation S := (Rops inf bits).
Notation cellular := (cellular S scalar).
Variable ft : feat.

(** Cellular Distance, Euclidean, first index 0, without size jitter and with a grid jitter in [-1, 1] at the position:
    the distance reported is attained by a feature point, and no feature point of any cell of the infinite lattice is
    nearer (in 3D: by more than 1.1e-6). *)
Theorem C58_true_nearest : forall (cl : cellular) (r : range S) i1 (seed : Z) (pos : list R),
  positions_ok inf bits cl pos -> clDist cl = Euclidean -> clSize cl = @HConst S scalar 0 -> -1 <= val inf bits (clGrid cl) seed pos <= 1 ->
  dist_ok inf bits EuclideanSquared cl seed pos -> (1 <= i1 <= 3)%nat ->
  let dist := feature_distance (cell_seed inf bits cl seed) (jitter_at inf bits cl seed pos) (scaled_pos inf bits cl pos) in
  exists d, CellularDistanceGen (s:=S) (W:=scalar) ft cl r Index0 0 i1 seed pos = named inf bits Index0 (length pos) r d 0 /\
    (exists c, length c = length pos /\ dist c = d) /\
    forall c : list Z, length c = length pos -> d <= dist c + slack (length pos).
Proof.
  intros cl r i1 seed pos Hp He Hsz Hg Hd Hi dist.
  assert (Hs : size_on inf bits (clSize cl) = false).
  { rewrite Hsz. cbn [size_on]. replace (Reqb 0 0) with true by (symmetry; apply Reqb_eq; reflexivity). reflexivity. }
  assert (Hlen : length (scaled_pos inf bits cl pos) = length pos) by apply map_length.
  pose proof Hp as [Hn _].
  destruct (C36_distance inf bits ft cl r Index0 0 i1 seed pos Hp) as (d0 & d1 & K0 & _ & E); try lia.
  { unfold size_ok. rewrite Hs. discriminate. }
  { rewrite He. exact Hd. }
  assert (Sd : forall c, seen_dist inf bits cl seed pos c = dist c).
  { intros c. unfold seen_dist, cell_dist, size_factor. rewrite Hs, He. cbn [final compare_fn metric]. rewrite Rmult_1_l. reflexivity. }
  assert (Kd : kth_smallest 0 (map dist (cells_at inf bits cl pos)) d0) by (rewrite <- (map_ext _ _ Sd); exact K0).
  exists d0. split; [rewrite E; reflexivity|].
  destruct Kd as [I [C0 _]]. split.
  - apply in_map_iff in I. destruct I as (c & Ec & Hc). exists c. split; [|exact Ec].
    apply neighbours_dim in Hc. rewrite Hc, map_length. exact Hlen.
  - intros c Hc.
    assert (Hj : Rabs (jitter_at inf bits cl seed pos) <= max_jitter (length (scaled_pos inf bits cl pos))).
    { unfold jitter_at. rewrite Hlen, Rabs_mult, (Rabs_right (max_jitter _)) by (left; apply max_jitter_pos).
      pose proof (max_jitter_pos (length pos)). assert (Rabs (val inf bits (clGrid cl) seed pos) <= 1) by (apply Rabs_le; lra). nra. }
    destruct (search (cell_seed inf bits cl seed) (jitter_at inf bits cl seed pos) (scaled_pos inf bits cl pos) c ltac:(rewrite Hlen; lia) ltac:(rewrite Hlen; exact Hc) Hj) as (c' & I' & L).
    rewrite Hlen in L. apply Rle_trans with (dist c'); [|exact L].
    destruct (Rle_dec d0 (dist c')) as [|N]; auto. exfalso.
    assert (In (dist c') (filter (fun x => Rltb x d0) (map dist (cells_at inf bits cl pos)))) as F.
    { apply filter_In. split; [apply in_map; exact I'|]. apply Rltb_lt. lra. }
    unfold count_lt in C0. destruct (filter _ _); [contradiction|cbn in C0; lia].
Qed.
End C58.
Print Assumptions C58_displacement.
Print Assumptions C58_true_nearest.
Example C58_example : forall inf bits (seed : Z), 3 < inf ->
  positions_ok inf bits (plain inf bits Euclidean) [1/4; 0] /\ clDist (plain inf bits Euclidean) = Euclidean /\
  clSize (plain inf bits Euclidean) = @HConst (Rops inf bits) scalar 0 /\ -1 <= val inf bits (clGrid (plain inf bits Euclidean)) seed [1/4; 0] <= 1 /\
  dist_ok inf bits EuclideanSquared (plain inf bits Euclidean) seed [1/4; 0].
Proof.
  intros inf bits seed H. destruct (cellular_example inf bits seed H) as (H1 & _ & H3 & _).
  split; [exact H1|]. split; [reflexivity|]. split; [reflexivity|]. split; [cbn; lra|exact H3].
Qed.
