(** C36: Cellular Distance returns order statistics; C37: Cellular Value and Lookup pick the k-th nearest cell;
    C38: return types. Real arithmetic, one lane. *)
From Coq Require Import Reals ZArith List Bool Lia Lra Psatz Permutation Sorting.Sorted.
From Verif Require Import Prelude Simd_Model Utils_Model Nodes_Model Cellular_Model Simd_R Setters_Model Bits P_Hash P_Blend OrderStats Cellular_Spec.
Import ListNotations.
Open Scope R_scope.

Section C.
Variable inf : R.
Variable bits : R -> Z.
Notation S := (Rops inf bits).
Notation cellular := (cellular S scalar).
Variable ft : feat.

(** ** What is promised *)
(** settings that depend on the position: grid jitter, size jitter, Minkowski exponent *)
Definition jitter_at (cl : cellular) (seed : Z) (pos : list R) : R := max_jitter (length pos) * val _ _ (clGrid cl) seed pos.
Definition size_on (h : hyb S scalar) : bool := match h with HConst c => negb (Reqb c 0) | HSrc _ => true end.
(** the factor a cell's distance is multiplied by *)
Definition size_factor (cl : cellular) (seed : Z) (pos : list R) (h : Z) : R :=
  if size_on (clSize cl) then 1 + val _ _ (clSize cl) seed pos * size_fraction h (length pos) else 1.
Definition scaled_pos (cl : cellular) (pos : list R) : list R := map (fun x => x * clFrequency cl) pos.
Definition cell_seed (cl : cellular) (seed : Z) : Z := s32 (seed + s32 (clSeedOffset cl)).
(** the cells looked at: those around the nearest lattice point *)
Definition cells_at (cl : cellular) (pos : list R) : list (list Z) := neighbours (map Rnear (scaled_pos cl pos)).
Definition cell_vec (cl : cellular) (seed : Z) (pos : list R) (c : list Z) : list R :=
  zipw Rminus (feature (cell_seed cl seed) (jitter_at cl seed pos) c) (scaled_pos cl pos).
Definition cell_hash (cl : cellular) (seed : Z) (c : list Z) : Z := hash_hb (cell_seed cl seed) c.
(** distance from the position to a cell's feature point under a distance function [df] *)
Definition cell_dist (df : DistanceFunction) (cl : cellular) (seed : Z) (pos : list R) (c : list Z) : R :=
  size_factor cl seed pos (cell_hash cl seed c) * metric df (val _ _ (clMinkowski cl) seed (cell_vec cl seed pos c)) (cell_vec cl seed pos c).
(** The distance the user sees: with the Euclidean function the size factor is applied before the square root. *)
Definition final (df : DistanceFunction) (d : R) : R := match df with Euclidean => sqrt d | _ => d end.
Definition compare_fn (df : DistanceFunction) : DistanceFunction := match df with Euclidean => EuclideanSquared | d => d end.
Definition seen_dist (cl : cellular) (seed : Z) (pos : list R) (c : list Z) : R :=
  final (clDist cl) (cell_dist (compare_fn (clDist cl)) cl seed pos c).
(** the output range is hit when the native value is [native] *)
Definition output (r : range S) (v native : R) : R := rMin r + rScale r * (v / native).
Definition named (rt : ReturnType) (n : nat) (r : range S) (d0 d1 : R) : R :=
  let M := (1 + max_jitter n) ^ 2 in
  match rt with
  | Index0 => output r d0 M
  | Index0Add1 => output r (d0 + d1) (2 * M)
  | Index0Sub1 => output r (Rabs (d0 - d1)) M
  | Index0Mul1 => output r (d0 * d1) (M * M)
  | Index0Div1 => output r (d0 / d1) M
  end.
Definition positions_ok (cl : cellular) (pos : list R) : Prop :=
  (2 <= length pos <= 4)%nat /\ Forall in_range (scaled_pos cl pos).

(** ** The model computes these *)
Lemma size_active : forall h, sizeJitterActive (s:=S) (W:=scalar) h = size_on h.
Proof. intros [c|g]; [|reflexivity]. cbn [sizeJitterActive size_on]. rewrite lit_int. reflexivity. Qed.
Lemma size2 : forall (cl : cellular) (seed : Z) x y h (d : R),
  SizeJitter2 (s:=S) (W:=scalar) (sizeJitterActive (clSize cl)) (fmul (GetSourceValue (clSize cl) seed [x; y]) (fv kSize2)) h d =
  size_factor cl seed [x; y] h * d.
Proof.
  intros. unfold SizeJitter2, size_factor, kSize2. rewrite size_active. destruct (size_on _); [|toR; ring].
  rewrite gsv_val. cbn [length size_fraction]. sunf. rlit. change (s32 1023) with (2 ^ 10 - 1)%Z. rewrite (land_low _ 10) by lia.
  unfold z_shr. toR. field.
Qed.
Lemma size3 : forall (cl : cellular) (seed : Z) x y z h (d : R),
  SizeJitter3 (s:=S) (W:=scalar) (sizeJitterActive (clSize cl)) (fmul (GetSourceValue (clSize cl) seed [x; y; z]) (fv kSize3)) h d =
  size_factor cl seed [x; y; z] h * d.
Proof.
  intros. unfold SizeJitter3, size_factor, kSize3. rewrite size_active. destruct (size_on _); [|toR; ring].
  rewrite gsv_val. cbn [length size_fraction]. sunf. rlit. change (s32 65535) with (2 ^ 16 - 1)%Z. rewrite (land_low _ 16) by lia.
  toR. field.
Qed.
Lemma size4 : forall (cl : cellular) (seed : Z) x y z w h (d : R),
  SizeJitter4 (s:=S) (W:=scalar) (sizeJitterActive (clSize cl)) (fmul (GetSourceValue (clSize cl) seed [x; y; z; w]) (fv kSize4)) h d =
  size_factor cl seed [x; y; z; w] h * d.
Proof.
  intros. unfold SizeJitter4, size_factor, kSize4. rewrite size_active. destruct (size_on _); [|toR; ring].
  rewrite gsv_val. cbn [length size_fraction]. sunf. rlit. change (s32 1048575) with (2 ^ 20 - 1)%Z. rewrite (land_low _ 20) by lia.
  toR. field.
Qed.

Lemma sumsq_nonneg : forall v, 0 <= sumsq v.
Proof. induction v; cbn; [lra|]. pose proof (Rle_0_sqr a). unfold Rsqr in *. fold (sumsq v). lra. Qed.
Lemma flen : forall x : R, 0 <= x -> FastLengthSqrt (s:=S) (W:=scalar) ft x = sqrt x.
Proof.
  intros x Hx. unfold FastLengthSqrt. destruct (relaxed ft); [|reflexivity]. sunf. rlit.
  destruct (Reqb x 0) eqn:E.
  - apply Reqb_eq in E. subst. cbn [negb]. rewrite sqrt_0. toR. ring.
  - apply Reqb_ne in E. cbn [negb]. rewrite <- (sqrt_sqrt x) at 1 by exact Hx. toR. field. intros H. apply sqrt_eq_0 in H; auto.
Qed.
Lemma dist_spec : forall (cl : cellular) (seed : Z) (sq : bool) (v : list R), (2 <= length v <= 4)%nat ->
  cellDistance (s:=S) (W:=scalar) ft sq cl seed v =
  metric (if sq then clDist cl else compare_fn (clDist cl)) (val _ _ (clMinkowski cl) seed v) v.
Proof.
  intros cl seed sq v Hl. unfold cellDistance, CalcDistance, metric, compare_fn.
  assert (Q : forall a b c d : R, a * a + b * b = sumsq [a; b] /\ a * a + b * b + c * c = sumsq [a;b;c] /\ a * a + b * b + c * c + d * d = sumsq [a;b;c;d])
    by (intros; unfold sumsq; cbn [fold_right]; repeat split; ring).
  destruct v as [|a [|b [|c [|d [|e v]]]]]; cbn [length] in Hl; try lia;
  destruct (clDist cl); destruct sq; cbn [fold_left fold_right map sum_r]; rewrite ?gsv_val;
  try (rewrite flen by (sunf; nra));
  sunf; unfold norm; cbn [sumsq fold_right]; rlit;
  try (toR; ring); try (f_equal; ring);
  try (toR; repeat (match goal with |- context [Rmax (Rabs ?x) 0] => rewrite (Rmax_left (Rabs x) 0 (Rabs_pos x)) end); unfold Rmax; repeat destruct (Rle_dec _ _); lra).
  all: rewrite ?Rplus_0_r; try reflexivity.
Qed.

(** *** insertion *)
Lemma insert_dist_eq : forall a b c d x : R,
  insert_dist (s:=S) (W:=scalar) [a; b; c; d] x = [Rmin a x; Rmax (Rmin b x) a; Rmax (Rmin c x) b; Rmax (Rmin d x) c].
Proof. reflexivity. Qed.
Definition tag (l : list R) : list (R * unit) := map (fun x => (x, tt)) l.
Lemma tag_perm : forall l l', Permutation l l' -> Permutation (tag l) (tag l'). Proof. intros. apply Permutation_map. assumption. Qed.
Lemma insert_dist_inserts : forall a b c d x : R, a <= b -> b <= c -> c <= d ->
  inserts (x, tt) (tag [a; b; c; d]) (tag (insert_dist (s:=S) (W:=scalar) [a; b; c; d] x)).
Proof.
  intros a b c d x H1 H2 H3. rewrite insert_dist_eq. exists (Rmax x d, tt). 
  assert (Cs : x < a \/ a <= x < b \/ b <= x < c \/ c <= x < d \/ d <= x) by lra.
  assert (P : forall e0 e1 e2 e3 e4 : R, e0 <= e1 <= e2 -> e2 <= e3 <= e4 -> Permutation [x; a; b; c; d] [e0; e1; e2; e3; e4] ->
    Permutation ((x, tt) :: tag [a; b; c; d]) (tag [e0; e1; e2; e3] ++ [(e4, tt)]) /\
    StronglySorted (fun u v : R * unit => fst u <= fst v) (tag [e0; e1; e2; e3]) /\ forall u, In u (tag [e0; e1; e2; e3]) -> fst u <= fst (e4, tt)).
  { intros e0 e1 e2 e3 e4 Q1 Q2 PP. split; [exact (tag_perm _ _ PP)|]. split.
    - cbn. repeat first [apply SSorted_nil | apply SSorted_cons | apply Forall_nil | apply Forall_cons]; cbn; lra.
    - intros u Hu. cbn in Hu. cbn [fst]. repeat (destruct Hu as [<-|Hu]; [cbn; lra|]). contradiction. }
  destruct Cs as [C|[C|[C|[C|C]]]];
  repeat (match goal with |- context [Rmin ?u ?v] => first [rewrite (Rmin_left u v) by lra | rewrite (Rmin_right u v) by lra] end);
  repeat (match goal with |- context [Rmax ?u ?v] => first [rewrite (Rmax_left u v) by lra | rewrite (Rmax_right u v) by lra] end);
  apply P; try lra.
  - reflexivity.
  - apply perm_swap.
  - eapply perm_trans; [apply perm_swap|]. apply perm_skip, perm_swap.
  - eapply perm_trans; [apply perm_swap|]. apply perm_skip. eapply perm_trans; [apply perm_swap|]. apply perm_skip, perm_swap.
  - eapply perm_trans; [apply perm_swap|]. apply perm_skip. eapply perm_trans; [apply perm_swap|]. apply perm_skip.
    eapply perm_trans; [apply perm_swap|]. apply perm_skip, perm_swap.
Qed.
Lemma fold_insert_dist : forall (B : Type) (dist : B -> R) (cs : list B) (all : list (R * unit)) (a b c d : R), windowed all (tag [a; b; c; d]) ->
  exists a' b' c' d', fold_left (fun st x => insert_dist (s:=S) (W:=scalar) st (dist x)) cs [a; b; c; d] = [a'; b'; c'; d'] /\
    windowed (rev (tag (map dist cs)) ++ all) (tag [a'; b'; c'; d']).
Proof.
  intros B dist. induction cs as [|x cs IH]; intros all a b c d H; cbn [fold_left].
  - exists a, b, c, d. split; [reflexivity|exact H].
  - assert (a <= b /\ b <= c /\ c <= d) as (Q1 & Q2 & Q3).
    { destruct H as (rest & _ & HS & _). cbn in HS. repeat match goal with X : StronglySorted _ (_ :: _) |- _ => inversion X; clear X; subst end.
      repeat match goal with X : Forall _ (_ :: _) |- _ => inversion X; clear X; subst end. cbn in *. auto. }
    pose proof (windowed_step _ _ _ _ H (insert_dist_inserts a b c d (dist x) Q1 Q2 Q3)) as G.
    rewrite insert_dist_eq in *. destruct (IH _ _ _ _ _ G) as (a' & b' & c' & d' & E & W).
    exists a', b', c', d'. split; [exact E|]. cbn [map tag rev]. rewrite <- app_assoc. exact W.
Qed.
Lemma tag_fst : forall l, map fst (tag l) = l. Proof. induction l as [|a l IH]; [reflexivity|]. cbn [tag map fst]. f_equal. exact IH. Qed.
Lemma insert_all_kth : forall (B : Type) (dist : B -> R) (cs : list B) (k : nat), (k < 4)%nat -> (4 <= length cs)%nat -> (forall c, In c cs -> dist c < inf) ->
  let ds := fold_left (fun st x => insert_dist (s:=S) (W:=scalar) st (dist x)) cs (repeat (fv s_inf) 4) in
  length ds = 4%nat /\ kth_smallest k (map dist cs) (nth k ds 0).
Proof.
  intros B dist cs k Hk Hl Hd. cbv zeta.
  destruct (fold_insert_dist B dist cs (tag [inf; inf; inf; inf]) inf inf inf inf) as (a & b & c & d & E & W).
  { exists []. rewrite app_nil_r. split; [reflexivity|]. split; [cbn; repeat first [apply SSorted_nil | apply SSorted_cons | apply Forall_nil | apply Forall_cons]; cbn; lra|]. intros ? ? ? []. }
  change (repeat (fv s_inf) 4) with [inf; inf; inf; inf]. rewrite E. split; [reflexivity|].
  assert (exists x, nth_error (tag [a; b; c; d]) k = Some (x, tt) /\ x = nth k [a; b; c; d] 0) as (x & N & ->).
  { destruct k as [|[|[|[|k]]]]; [| | | |lia]; cbn; eauto. }
  destruct (windowed_kth _ _ _ _ W N) as [_ K]. cbn [fst] in K.
  rewrite map_app, map_rev, !tag_fst in K.
  apply (kth_smallest_perm _ _ (map dist cs ++ [inf; inf; inf; inf])) in K.
  2:{ apply Permutation_app_tail. symmetry. apply Permutation_rev. }
  apply (kth_drop_inf _ _ _ _ inf) in K; [tauto| | |].
  - intros y Hy. apply in_map_iff in Hy. destruct Hy as (c0 & <- & Hc). auto.
  - cbn. intros y Hy. repeat destruct Hy as [<-|Hy]; auto. contradiction.
  - rewrite map_length. lia.
Qed.

Lemma neighbours_len : forall cs, length (neighbours cs) = (3 ^ length cs)%nat.
Proof.
  induction cs as [|c cs IH]; cbn [neighbours flat_map length]; [reflexivity|].
  rewrite !app_length, !map_length, IH. cbn [length Nat.pow]. lia.
Qed.

(** mapping a nondecreasing function over the data *)
Lemma kth_mono : forall (f : R -> R) k l v, (forall x y, In x l -> In y l -> x <= y -> f x <= f y) -> kth_smallest k l v -> kth_smallest k (map f l) (f v).
Proof.
  intros f k l v Hf (HI & HC). split; [apply in_map; exact HI|].
  assert (count_lt (f v) (map f l) <= count_lt v l)%nat.
  { clear HC. unfold count_lt. assert (forall x, In x l -> f x < f v -> x < v) as G.
    { intros x Hx H. destruct (Rlt_dec x v); auto. assert (f v <= f x) by (apply Hf; auto; lra). lra. }
    clear Hf HI. induction l as [|x l IH]; cbn; [lia|].
    specialize (IH (fun y Hy => G y (or_intror Hy))).
    destruct (Rltb (f x) (f v)) eqn:E1; destruct (Rltb x v) eqn:E2; cbn; try lia.
    apply Rltb_lt in E1. apply (G x (or_introl eq_refl)) in E1. apply Rltb_ge in E2. lra. }
  assert (count_le v l <= count_le (f v) (map f l))%nat.
  { clear HC H. unfold count_le. assert (forall x, In x l -> x <= v -> f x <= f v) as G by (intros; apply Hf; auto).
    clear Hf HI. induction l as [|x l IH]; cbn; [lia|].
    specialize (IH (fun y Hy => G y (or_intror Hy))).
    destruct (Rleb x v) eqn:E1; destruct (Rleb (f x) (f v)) eqn:E2; cbn; try lia.
    apply Rleb_le in E1. apply (G x (or_introl eq_refl)) in E1. apply Rleb_le in E1. congruence. }
  lia.
Qed.

(** *** the traversal in terms of the specification *)
Lemma fold_ext_in : forall (A B : Type) (f g : A -> B -> A) l a, (forall a b, In b l -> f a b = g a b) -> fold_left f l a = fold_left g l a.
Proof. induction l; intros; cbn; auto. rewrite H by (left; reflexivity). apply IHl. intros; apply H; right; assumption. Qed.
Lemma neighbours_dim : forall cs c, In c (neighbours cs) -> length c = length cs.
Proof.
  induction cs as [|x cs IH]; intros c H; cbn [neighbours] in H.
  - destruct H as [<-|[]]. reflexivity.
  - apply in_flat_map in H. destruct H as (y & _ & H). apply in_map_iff in H. destruct H as (c' & <- & H). cbn. f_equal. auto.
Qed.
Lemma base_x : forall (x : R) P, in_range x -> imul (W:=scalar) (base (s:=S) (W:=scalar) x) (iv P) = z_mul (Rnear x - 1) P.
Proof.
  intros x P H. unfold in_range in H. unfold base. sunf. unfold z_add. change (s32 (-1)) with (-1)%Z.
  rewrite (s32_id (Rnear x + -1)) by (unfold in32; lia). unfold z_mul. rewrite s32_idem_mul_r. reflexivity.
Qed.
Lemma base_f : forall x : R, in_range x -> of_int (s:=S) (W:=scalar) (base (s:=S) (W:=scalar) x) = IZR (Rnear x - 1).
Proof.
  intros x H. unfold in_range in H. unfold base. sunf. unfold z_add. change (s32 (-1)) with (-1)%Z.
  rewrite (s32_id (Rnear x + -1)) by (unfold in32; lia). reflexivity.
Qed.
Lemma pow2_21 : pow2 (-21) = / 2097152. Proof. change (-21)%Z with (- (21))%Z. rewrite (pow2_neg 21) by lia. reflexivity. Qed.
Lemma pow2_25 : pow2 (-25) = / 33554432. Proof. change (-25)%Z with (- (25))%Z. rewrite (pow2_neg 25) by lia. reflexivity. Qed.
Lemma kJ2 : @kJitter2D S = max_jitter 2. Proof. unfold kJitter2D, max_jitter. cbn [lit Rops]. rewrite pow2_21. reflexivity. Qed.
Lemma kJ3 : @kJitter3D S = max_jitter 3. Proof. unfold kJitter3D, max_jitter. cbn [lit Rops]. rewrite pow2_25. reflexivity. Qed.
Lemma kJ4 : @kJitter4D S = max_jitter 4. Proof. unfold kJitter4D, max_jitter. cbn [lit Rops]. rewrite pow2_25. reflexivity. Qed.
Lemma max_jitter_pos : forall n, 0 < max_jitter n. Proof. intros [|[|[|[|n]]]]; unfold max_jitter; lra. Qed.

Lemma zip_len : forall (A B C : Type) (f : A -> B -> C) l l', length (zipw f l l') = Nat.min (length l) (length l').
Proof. induction l as [|x l IH]; intros [|y l']; cbn; auto. Qed.
Lemma dir_len : forall h n, (2 <= n <= 4)%nat -> length (direction h n) = n.
Proof. intros h n H. destruct n as [|[|[|[|[|n]]]]]; try lia; reflexivity. Qed.
Lemma vec_len : forall seed j xs c, (2 <= length c <= 4)%nat -> length xs = length c -> length (vec seed j xs c) = length c.
Proof. intros. unfold vec, feature. rewrite !zip_len, dir_len by assumption. lia. Qed.

Section Trav.
Variables (cl : cellular) (seed : Z).
Let cseed := cell_seed cl seed.
(** the order of the arguments of the visitors of value and distance *)
Lemma trav2 : forall (A : Type) (visit : A -> Z -> R -> A) (sq rel : bool) (x y : R) acc, positions_ok cl [x; y] ->
  let sx : R := x * clFrequency cl in let sy : R := y * clFrequency cl in
  cells2 (s:=S) (W:=scalar) (fun st hash d => visit st hash (SizeJitter2 (s:=S) (W:=scalar) (sizeJitterActive (clSize cl)) (fmul (GetSourceValue (clSize cl) seed [x; y]) (fv kSize2)) hash (cellDistance ft sq cl seed d)))
    (iadd (W:=scalar) seed (iv (clSeedOffset cl))) (fmul (s:=S) (W:=scalar) (fv kJitter2D) (GetSourceValue (clGrid cl) seed [x; y]))
    (fun a => if rel then a else a - sx) (fun a => if rel then a else a - sy) (imul (W:=scalar) (base (s:=S) (W:=scalar) sx) prX) (imul (W:=scalar) (base (s:=S) (W:=scalar) sy) prY)
    (if rel then IZR (Rnear sx - 1) - sx else IZR (Rnear sx - 1)) (if rel then IZR (Rnear sy - 1) - sy else IZR (Rnear sy - 1)) acc =
  fold_left (fun st c => visit st (cell_hash cl seed c) (cell_dist (if sq then clDist cl else compare_fn (clDist cl)) cl seed [x; y] c)) (cells_at cl [x; y]) acc.
Proof.
  intros A visit sq rel x y acc [Hl Hr] sx sy. cbn in Hr. inversion Hr as [|? ? Hx Hr']; inversion Hr' as [|? ? Hy _]; subst. fold sx in Hx. fold sy in Hy.
  unfold prX, prY. rewrite (base_x sx _ Hx), (base_x sy _ Hy).
  rewrite (cells2_eq inf bits _ _ _ _ _ (Rnear sx) (Rnear sy) _ _ sx sy); try assumption;
    try (intros k; destruct rel; rewrite ?plus_IZR, ?minus_IZR; ring).
  change (iadd (W:=scalar) seed (iv (clSeedOffset cl))) with cseed.
  apply fold_ext_in. intros a c Hc. apply neighbours_dim in Hc. cbn [length map scaled_pos] in Hc.
  rewrite size2, dist_spec by (rewrite vec_len; cbn [length]; lia).
  rewrite gsv_val, kJ2. reflexivity.
Qed.
Lemma trav3 : forall (A : Type) (visit : A -> Z -> R -> A) (sq rel : bool) (x y z : R) acc, positions_ok cl [x; y; z] ->
  let sx : R := x * clFrequency cl in let sy : R := y * clFrequency cl in let sz : R := z * clFrequency cl in
  cells3 (s:=S) (W:=scalar) (fun st hash d => visit st hash (SizeJitter3 (s:=S) (W:=scalar) (sizeJitterActive (clSize cl)) (fmul (GetSourceValue (clSize cl) seed [x; y; z]) (fv kSize3)) hash (cellDistance ft sq cl seed d)))
    (iadd (W:=scalar) seed (iv (clSeedOffset cl))) (fmul (s:=S) (W:=scalar) (fv kJitter3D) (GetSourceValue (clGrid cl) seed [x; y; z]))
    (fun a => if rel then a else a - sx) (fun a => if rel then a else a - sy) (fun a => if rel then a else a - sz)
    (imul (W:=scalar) (base (s:=S) (W:=scalar) sx) prX) (imul (W:=scalar) (base (s:=S) (W:=scalar) sy) prY) (imul (W:=scalar) (base (s:=S) (W:=scalar) sz) prZ)
    (if rel then IZR (Rnear sx - 1) - sx else IZR (Rnear sx - 1)) (if rel then IZR (Rnear sy - 1) - sy else IZR (Rnear sy - 1))
    (if rel then IZR (Rnear sz - 1) - sz else IZR (Rnear sz - 1)) acc =
  fold_left (fun st c => visit st (cell_hash cl seed c) (cell_dist (if sq then clDist cl else compare_fn (clDist cl)) cl seed [x; y; z] c)) (cells_at cl [x; y; z]) acc.
Proof.
  intros A visit sq rel x y z acc [Hl Hr] sx sy sz. cbn in Hr. inversion Hr as [|? ? Hx Hr']; inversion Hr' as [|? ? Hy Hr'']; inversion Hr'' as [|? ? Hz _]; subst.
  fold sx in Hx. fold sy in Hy. fold sz in Hz.
  unfold prX, prY, prZ. rewrite (base_x sx _ Hx), (base_x sy _ Hy), (base_x sz _ Hz).
  rewrite (cells3_eq inf bits _ _ _ _ _ _ (Rnear sx) (Rnear sy) (Rnear sz) _ _ _ sx sy sz); try assumption;
    try (intros k; destruct rel; rewrite ?plus_IZR, ?minus_IZR; ring).
  change (iadd (W:=scalar) seed (iv (clSeedOffset cl))) with cseed.
  apply fold_ext_in. intros a c Hc. apply neighbours_dim in Hc. cbn [length map scaled_pos] in Hc.
  rewrite size3, dist_spec by (rewrite vec_len; cbn [length]; lia).
  rewrite gsv_val, kJ3. reflexivity.
Qed.
Lemma trav4 : forall (A : Type) (visit : A -> Z -> R -> A) (sq rel : bool) (x y z w : R) acc, positions_ok cl [x; y; z; w] ->
  let sx : R := x * clFrequency cl in let sy : R := y * clFrequency cl in let sz : R := z * clFrequency cl in let sw : R := w * clFrequency cl in
  cells4 (s:=S) (W:=scalar) (fun st hash d => visit st hash (SizeJitter4 (s:=S) (W:=scalar) (sizeJitterActive (clSize cl)) (fmul (GetSourceValue (clSize cl) seed [x; y; z; w]) (fv kSize4)) hash (cellDistance ft sq cl seed d)))
    (iadd (W:=scalar) seed (iv (clSeedOffset cl))) (fmul (s:=S) (W:=scalar) (fv kJitter4D) (GetSourceValue (clGrid cl) seed [x; y; z; w]))
    (fun a => if rel then a else a - sx) (fun a => if rel then a else a - sy) (fun a => if rel then a else a - sz) (fun a => if rel then a else a - sw)
    (imul (W:=scalar) (base (s:=S) (W:=scalar) sx) prX) (imul (W:=scalar) (base (s:=S) (W:=scalar) sy) prY) (imul (W:=scalar) (base (s:=S) (W:=scalar) sz) prZ) (imul (W:=scalar) (base (s:=S) (W:=scalar) sw) prW)
    (if rel then IZR (Rnear sx - 1) - sx else IZR (Rnear sx - 1)) (if rel then IZR (Rnear sy - 1) - sy else IZR (Rnear sy - 1))
    (if rel then IZR (Rnear sz - 1) - sz else IZR (Rnear sz - 1)) (if rel then IZR (Rnear sw - 1) - sw else IZR (Rnear sw - 1)) acc =
  fold_left (fun st c => visit st (cell_hash cl seed c) (cell_dist (if sq then clDist cl else compare_fn (clDist cl)) cl seed [x; y; z; w] c)) (cells_at cl [x; y; z; w]) acc.
Proof.
  intros A visit sq rel x y z w acc [Hl Hr] sx sy sz sw. cbn in Hr. inversion Hr as [|? ? Hx Hr']; inversion Hr' as [|? ? Hy Hr'']; inversion Hr'' as [|? ? Hz Hr3]; inversion Hr3 as [|? ? Hw _]; subst.
  fold sx in Hx. fold sy in Hy. fold sz in Hz. fold sw in Hw.
  unfold prX, prY, prZ, prW. rewrite (base_x sx _ Hx), (base_x sy _ Hy), (base_x sz _ Hz), (base_x sw _ Hw).
  rewrite (cells4_eq inf bits _ _ _ _ _ _ _ (Rnear sx) (Rnear sy) (Rnear sz) (Rnear sw) _ _ _ _ sx sy sz sw); try assumption;
    try (intros k; destruct rel; rewrite ?plus_IZR, ?minus_IZR; ring).
  change (iadd (W:=scalar) seed (iv (clSeedOffset cl))) with cseed.
  apply fold_ext_in. intros a c Hc. apply neighbours_dim in Hc. cbn [length map scaled_pos] in Hc.
  rewrite size4, dist_spec by (rewrite vec_len; cbn [length]; lia).
  rewrite gsv_val, kJ4. reflexivity.
Qed.
End Trav.

Lemma distance_gen_eq : forall (cl : cellular) (r : range S) rt i0 i1 (seed : Z) (pos : list R), positions_ok cl pos ->
  CellularDistanceGen (s:=S) (W:=scalar) ft cl r rt i0 i1 seed pos =
  GetReturn cl r rt i0 i1 (fold_left (fun st c => insert_dist (s:=S) (W:=scalar) st (cell_dist (compare_fn (clDist cl)) cl seed pos c)) (cells_at cl pos) (repeat (fv s_inf) 4))
    (1 + max_jitter (length pos) : R).
Proof.
  intros cl r rt i0 i1 seed pos Hp. destruct pos as [|x [|y [|z [|w [|v pos]]]]]; try (destruct Hp as [Hp _]; cbn in Hp; lia); unfold CellularDistanceGen, slet.
  - pose proof Hp as [_ Hr]. cbn in Hr. inversion Hr as [|? ? Hx Hr']; inversion Hr' as [|? ? Hy _]; subst.
    pose proof (trav2 cl seed (list R) (fun st _ d => insert_dist (s:=S) (W:=scalar) st d) false false x y (repeat inf 4) Hp) as T. cbv zeta in T.
    cbn [length]. rewrite <- kJ2. f_equal; [|cbn [lit s_add Rops]; rlit; reflexivity].
    etransitivity; [|exact T]. rewrite !base_f by assumption. reflexivity.
  - pose proof Hp as [_ Hr]. cbn in Hr. inversion Hr as [|? ? Hx Hr']; inversion Hr' as [|? ? Hy Hr'']; inversion Hr'' as [|? ? Hz _]; subst.
    pose proof (trav3 cl seed (list R) (fun st _ d => insert_dist (s:=S) (W:=scalar) st d) false false x y z (repeat inf 4) Hp) as T. cbv zeta in T.
    cbn [length]. rewrite <- kJ3. f_equal; [|cbn [lit s_add Rops]; rlit; reflexivity].
    etransitivity; [|exact T]. rewrite !base_f by assumption. reflexivity.
  - pose proof Hp as [_ Hr]. cbn in Hr. inversion Hr as [|? ? Hx Hr']; inversion Hr' as [|? ? Hy Hr'']; inversion Hr'' as [|? ? Hz Hr3]; inversion Hr3 as [|? ? Hw _]; subst.
    pose proof (trav4 cl seed (list R) (fun st _ d => insert_dist (s:=S) (W:=scalar) st d) false false x y z w (repeat inf 4) Hp) as T. cbv zeta in T.
    cbn [length]. rewrite <- kJ4. f_equal; [|cbn [lit s_add Rops]; rlit; reflexivity].
    etransitivity; [|exact T]. rewrite !base_f by assumption. reflexivity.
Qed.

(** ** C36 and C38 *)
(** the size jitter may shrink a cell to nothing but not turn it inside out *)
Definition size_ok (cl : cellular) (seed : Z) (pos : list R) : Prop := size_on (clSize cl) = true -> -1 <= val _ _ (clSize cl) seed pos.
Definition dist_ok (df : DistanceFunction) (cl : cellular) (seed : Z) (pos : list R) : Prop :=
  forall c, In c (cells_at cl pos) -> cell_dist df cl seed pos c < inf.

Lemma frac_bound : forall h n m, (0 < m)%Z -> n = (m - 1)%Z -> (0 < n)%Z -> 0 <= IZR (h mod m) / IZR n <= 1.
Proof.
  intros h n m Hm Hn Hn'. pose proof (Z.mod_pos_bound h m Hm) as [A B]. apply IZR_le in A.
  assert (IZR (h mod m) <= IZR n) by (apply IZR_le; lia). apply IZR_lt in Hn'. split.
  - apply Rmult_le_pos; [lra|]. left. apply Rinv_0_lt_compat. lra.
  - apply Rmult_le_reg_r with (IZR n); [lra|]. unfold Rdiv. rewrite Rmult_assoc, Rinv_l by lra. lra.
Qed.
Lemma size_fraction_bound : forall h n, 0 <= size_fraction h n <= 1.
Proof.
  intros h n. unfold size_fraction. destruct n as [|[|[|[|n]]]];
    [apply (frac_bound _ 1048575 (2^20))|apply (frac_bound _ 1048575 (2^20))|apply (frac_bound _ 1023 (2^10))|apply (frac_bound _ 65535 (2^16))|apply (frac_bound _ 1048575 (2^20))]; lia.
Qed.
Lemma size_factor_nonneg : forall cl seed pos h, size_ok cl seed pos -> 0 <= size_factor cl seed pos h.
Proof.
  intros cl seed pos h H. unfold size_factor, size_ok in *. destruct (size_on _); [|lra]. specialize (H eq_refl).
  pose proof (size_fraction_bound h (length pos)). nra.
Qed.
Lemma Rpow_nonneg : forall x y, 0 <= Rpow_pos x y.
Proof. intros. unfold Rpow_pos. destruct (Rlt_dec 0 x); [left; apply exp_pos|]. destruct (Req_EM_T y 0); lra. Qed.
Lemma metric_nonneg : forall df p v, 0 <= metric df p v.
Proof.
  intros df p v. destruct df; cbn [metric]; try (apply Rpow_nonneg); try apply sqrt_pos; try apply sumsq_nonneg.
  - induction v; cbn; [lra|]. pose proof (Rabs_pos a). lra.
  - induction v; cbn; [lra|]. pose proof (Rabs_pos a). pose proof (Rle_0_sqr a). unfold Rsqr in *. lra.
  - induction v; cbn; [lra|]. apply Rle_trans with (Rabs a); [apply Rabs_pos|apply Rmax_l].
Qed.
Lemma cell_dist_nonneg : forall df cl seed pos c, size_ok cl seed pos -> 0 <= cell_dist df cl seed pos c.
Proof. intros. apply Rmult_le_pos; [apply size_factor_nonneg; assumption|apply metric_nonneg]. Qed.

Lemma scale0 : forall (r : range S) (v M : R), 0 < M -> ScaleOutput (s:=S) (W:=scalar) r v (lit 0 0) M = output r v M.
Proof. intros. unfold ScaleOutput, output. sunf. rlit. toR. field. lra. Qed.
Lemma len4 : forall (A : Type) (l : list A), length l = 4%nat -> exists a b c d, l = [a; b; c; d].
Proof. intros A [|a [|b [|c [|d [|e l]]]]] H; try discriminate H. eauto. Qed.
Lemma at4 : forall (a b c d : R) k, (k <= 3)%nat -> @nth (F S scalar) k [a; b; c; d] (num 0) = nth k [a; b; c; d] 0.
Proof. intros a b c d k H. destruct k as [|[|[|[|k]]]]; try lia; reflexivity. Qed.
Lemma scl : forall v : R, 0 <= v -> v * / sqrt v = sqrt v.
Proof.
  intros v [H| <-]; [|rewrite sqrt_0; ring]. rewrite <- (sqrt_sqrt v) at 1 by lra. field. apply Rgt_not_eq. apply sqrt_lt_R0. exact H.
Qed.
Lemma get_return : forall (cl : cellular) (r : range S) rt i0 i1 (l : list R) n, length l = 4%nat -> (i0 <= 3)%nat -> (i1 <= 3)%nat ->
  (forall k, (k <= 3)%nat -> 0 <= nth k l 0) ->
  GetReturn (s:=S) (W:=scalar) cl r rt i0 i1 l (1 + max_jitter n) =
  let f := fun k => if (i0 =? i1)%nat then final (clDist cl) (final (clDist cl) (nth k l 0)) else final (clDist cl) (nth k l 0) in
  named rt n r (f i0) (f i1).
Proof.
  intros cl r rt i0 i1 l n Hl Hi0 Hi1 Hnn. destruct (len4 _ l Hl) as (a & b & c & d & ->). cbv zeta.
  pose proof (max_jitter_pos n) as Hj. unfold GetReturn.
  cbv zeta. match goal with |- context [if isEuclidean (clDist cl) then ?X else ?Y] => set (D0 := if isEuclidean (clDist cl) then X else Y) end.
  assert (E : forall k, (k = i0 \/ k = i1) -> @nth (F S scalar) k D0 (num 0) = if (i0 =? i1)%nat then final (clDist cl) (final (clDist cl) (nth k [a; b; c; d] 0)) else final (clDist cl) (nth k [a; b; c; d] 0)).
  { intros k Hk. unfold D0. destruct (clDist cl); cbn [isEuclidean final]; try (rewrite at4 by lia; destruct (i0 =? i1)%nat; reflexivity).
    pose proof (Hnn 0%nat ltac:(lia)) as Na. pose proof (Hnn 1%nat ltac:(lia)) as Nb. pose proof (Hnn 2%nat ltac:(lia)) as Nc. pose proof (Hnn 3%nat ltac:(lia)) as Nd. cbn [nth] in Na, Nb, Nc, Nd.
    destruct Hk as [-> | ->]; destruct i0 as [|[|[|[|i0]]]]; try lia; destruct i1 as [|[|[|[|i1]]]]; try lia; cbn [Nat.eqb upd nth];
      cbv [fmul finvsqrt scalar map2 map1 s_mul s_invsqrt Rops]; rewrite ?(scl a Na), ?(scl b Nb), ?(scl c Nc), ?(scl d Nd);
      try reflexivity; apply scl; apply sqrt_pos. }
  rewrite !E by auto. unfold named.
  assert (P2 : 0 < (1 + max_jitter n) ^ 2) by (apply pow_lt; lra).
  assert (M1 : @s_mul S (1 + max_jitter n) (1 + max_jitter n) = (1 + max_jitter n) ^ 2) by (cbn [s_mul Rops]; toR; ring).
  rewrite M1. destruct rt.
  - apply scale0. exact P2.
  - rewrite <- scale0 by lra. f_equal. cbn [s_mul Rops lit]. rlit. toR. ring.
  - rewrite <- scale0 by lra. reflexivity.
  - rewrite <- scale0 by nra. reflexivity.
  - rewrite <- scale0 by lra. reflexivity.
Qed.

Lemma cells_at_len : forall cl pos, (2 <= length pos)%nat -> (4 <= length (cells_at cl pos))%nat.
Proof.
  intros cl pos H. unfold cells_at, scaled_pos. rewrite neighbours_len, !map_length.
  apply Nat.le_trans with (3 ^ 2)%nat; [cbn; lia|]. apply Nat.pow_le_mono_r; lia.
Qed.
Lemma final_mono : forall df x y, 0 <= x -> x <= y -> final df x <= final df y.
Proof. intros df x y H1 H2. destruct df; cbn [final]; auto. apply sqrt_le_1; lra. Qed.
Lemma seen_kth : forall (cl : cellular) (seed : Z) pos k, positions_ok cl pos -> size_ok cl seed pos -> dist_ok (compare_fn (clDist cl)) cl seed pos -> (k <= 3)%nat ->
  let ds := fold_left (fun st c => insert_dist (s:=S) (W:=scalar) st (cell_dist (compare_fn (clDist cl)) cl seed pos c)) (cells_at cl pos) (repeat (fv s_inf) 4) in
  length ds = 4%nat /\ 0 <= nth k ds 0 /\ kth_smallest k (map (seen_dist cl seed pos) (cells_at cl pos)) (final (clDist cl) (nth k ds 0)).
Proof.
  intros cl seed pos k Hp Hs Hd Hk ds.
  destruct (insert_all_kth (list Z) (cell_dist (compare_fn (clDist cl)) cl seed pos) (cells_at cl pos) k) as [L K]; [lia|apply cells_at_len; destruct Hp; lia|exact Hd|].
  fold ds in L, K. split; [exact L|]. split.
  - destruct K as [K _]. apply in_map_iff in K. destruct K as (c & <- & _). apply cell_dist_nonneg. exact Hs.
  - apply (kth_mono (final (clDist cl))) in K.
    + rewrite map_map in K. exact K.
    + intros x y Hx _ Hxy. apply final_mono; auto. apply in_map_iff in Hx. destruct Hx as (c & <- & _). apply cell_dist_nonneg. exact Hs.
Qed.

(** Cellular Distance returns the named combination of the i0-th and i1-th smallest of the distances to the feature
    points of the 3^n cells around the position. *)
Theorem C36_distance : forall (cl : cellular) (r : range S) rt i0 i1 (seed : Z) (pos : list R),
  positions_ok cl pos -> size_ok cl seed pos -> dist_ok (compare_fn (clDist cl)) cl seed pos -> (i0 <= 3)%nat -> (i1 <= 3)%nat ->
  (clDist cl = Euclidean -> i0 <> i1) ->
  exists d0 d1, kth_smallest i0 (map (seen_dist cl seed pos) (cells_at cl pos)) d0 /\
    kth_smallest i1 (map (seen_dist cl seed pos) (cells_at cl pos)) d1 /\
    CellularDistanceGen (s:=S) (W:=scalar) ft cl r rt i0 i1 seed pos = named rt (length pos) r d0 d1.
Proof.
  intros cl r rt i0 i1 seed pos Hp Hs Hd Hi0 Hi1 He.
  destruct (seen_kth cl seed pos i0 Hp Hs Hd Hi0) as (L & _ & K0).
  destruct (seen_kth cl seed pos i1 Hp Hs Hd Hi1) as (_ & _ & K1).
  rewrite distance_gen_eq by exact Hp. rewrite get_return; auto.
  2:{ intros k Hk. apply (seen_kth cl seed pos k Hp Hs Hd Hk). }
  eexists _, _. split; [exact K0|]. split; [exact K1|]. cbv zeta.
  destruct (i0 =? i1)%nat eqn:E; [|reflexivity]. apply Nat.eqb_eq in E. destruct (clDist cl); try reflexivity. exfalso. exact (He eq_refl E).
Qed.
(** With the Euclidean function and i0 = i1 the square root is taken twice, even when only the first index is asked for. *)
Theorem C38_equal_indices : forall (cl : cellular) (r : range S) rt i (seed : Z) (pos : list R),
  positions_ok cl pos -> size_ok cl seed pos -> dist_ok (compare_fn (clDist cl)) cl seed pos -> (i <= 3)%nat -> clDist cl = Euclidean ->
  exists d, kth_smallest i (map (seen_dist cl seed pos) (cells_at cl pos)) d /\
    CellularDistanceGen (s:=S) (W:=scalar) ft cl r rt i i seed pos = named rt (length pos) r (sqrt d) (sqrt d).
Proof.
  intros cl r rt i seed pos Hp Hs Hd Hi He.
  destruct (seen_kth cl seed pos i Hp Hs Hd Hi) as (L & _ & K0).
  rewrite distance_gen_eq by exact Hp. rewrite get_return; auto.
  2:{ intros k Hk. apply (seen_kth cl seed pos k Hp Hs Hd Hk). }
  eexists. split; [exact K0|]. cbv zeta. rewrite Nat.eqb_refl, He. reflexivity.
Qed.
(** The order in which the cells are visited is irrelevant: order statistics are unique and permutation invariant. *)
Theorem C36_order_irrelevant : forall k l l' u v, Permutation l l' -> kth_smallest k l u -> kth_smallest k l' v -> u = v.
Proof. intros k l l' u v HP HU HV. apply (kth_smallest_perm _ _ _ _ HP) in HU. exact (kth_smallest_unique _ _ _ _ HU HV). Qed.

(** ** C37 *)
Notation le_item := (fun a b : R * Z => fst a <= fst b).
Lemma insert_value_inserts : forall n (dist : list R) (vh : list Z) (d : R) (h : Z), length vh = length dist -> (n < length dist)%nat ->
  StronglySorted le_item (firstn (Datatypes.S n) (combine dist vh)) ->
  let '(ds, hs) := insert_value (s:=S) (W:=scalar) n dist vh d h in
  length ds = length dist /\ length hs = length dist /\
  inserts (d, h) (firstn (Datatypes.S n) (combine dist vh)) (firstn (Datatypes.S n) (combine ds hs)).
Proof.
  induction n as [|n IH]; intros dist vh d h Hl Hn HS.
  - destruct dist as [|d0 dist]; [cbn in Hn; lia|]. destruct vh as [|h0 vh]; [discriminate Hl|].
    cbn [insert_value]. sunf. cbn [length] in *. split; [reflexivity|]. split; [exact Hl|].
    cbn [combine firstn]. destruct (Rltb d d0) eqn:E.
    + apply Rltb_lt in E. exists (d0, h0). split; [reflexivity|]. split; [repeat constructor|]. intros a [<-|[]]. cbn. lra.
    + apply Rltb_ge in E. exists (d, h). split; [apply perm_swap|]. split; [repeat constructor|]. intros a [<-|[]]. cbn. lra.
  - destruct dist as [|d0 dist]; [cbn in Hn; lia|]. destruct vh as [|h0 vh]; [discriminate Hl|].
    cbn [length] in *. assert (Hl' : length vh = length dist) by lia.
    change (StronglySorted le_item ((d0, h0) :: firstn (Datatypes.S n) (combine dist vh))) in HS.
    inversion HS as [|? ? HS' HF]; subst. rewrite Forall_forall in HF.
    change (forall x, In x (firstn (Datatypes.S n) (combine dist vh)) -> fst (d0, h0) <= fst x) in HF.
    set (closer := Rltb d d0).
    specialize (IH dist vh (if closer then d0 else d) (if closer then h0 else h) Hl' ltac:(lia) HS').
    change (insert_value (s:=S) (W:=scalar) (Datatypes.S n) (d0 :: dist) (h0 :: vh) d h) with
      (let '(ds, hs) := insert_value (s:=S) (W:=scalar) n dist vh (if closer then d0 else d) (if closer then h0 else h) in
       ((if closer then d else d0) :: ds, (if closer then h else h0) :: hs)).
    destruct (insert_value (s:=S) (W:=scalar) n dist vh _ _) as [ds hs]. destruct IH as (L1 & L2 & e & HP & HSS & HM).
    cbn [length]. split; [lia|]. split; [lia|].
    change (firstn (Datatypes.S (Datatypes.S n)) (combine (d0 :: dist) (h0 :: vh))) with ((d0, h0) :: firstn (Datatypes.S n) (combine dist vh)).
    change (firstn (Datatypes.S (Datatypes.S n)) (combine ((if closer then d else d0) :: ds) ((if closer then h else h0) :: hs)))
      with (((if closer then d else d0), (if closer then h else h0)) :: firstn (Datatypes.S n) (combine ds hs)).
    set (W := firstn (Datatypes.S n) (combine dist vh)) in *. set (W' := firstn (Datatypes.S n) (combine ds hs)) in *.
    exists e.
    assert (Hlow : forall a, In a (((if closer then d0 else d), (if closer then h0 else h)) :: W) -> (if closer then d else d0) <= fst a).
    { intros a [<-|Ha]; cbn [fst].
      - unfold closer. destruct (Rltb d d0) eqn:E; [apply Rltb_lt in E; lra|apply Rltb_ge in E; exact E].
      - specialize (HF a Ha). cbn [fst] in HF. unfold closer. destruct (Rltb d d0) eqn:E; [apply Rltb_lt in E; lra|exact HF]. }
    split; [|split].
    + cbn [app]. apply perm_trans with (((if closer then d else d0), (if closer then h else h0)) :: ((if closer then d0 else d), (if closer then h0 else h)) :: W).
      * destruct closer; [reflexivity|apply perm_swap].
      * apply perm_skip. exact HP.
    + constructor; [exact HSS|]. apply Forall_forall. intros a Ha. apply Hlow.
      eapply Permutation_in; [symmetry; exact HP|]. apply in_or_app. left. exact Ha.
    + intros a [<-|Ha]; [|apply HM; exact Ha]. cbn [fst]. apply Hlow.
      eapply Permutation_in; [symmetry; exact HP|]. apply in_or_app. right. left. reflexivity.
Qed.
Lemma fold_insert_value : forall (B : Type) (dist : B -> R) (hash : B -> Z) n (cs : list B) (all : list (R * Z)) (ds : list R) (hs : list Z),
  length ds = 4%nat -> length hs = 4%nat -> (n <= 3)%nat -> windowed all (firstn (Datatypes.S n) (combine ds hs)) ->
  exists ds' hs', fold_left (fun st c => insert_value (s:=S) (W:=scalar) n (fst st) (snd st) (dist c) (hash c)) cs (ds, hs) = (ds', hs') /\
    length ds' = 4%nat /\ length hs' = 4%nat /\ windowed (rev (map (fun c => (dist c, hash c)) cs) ++ all) (firstn (Datatypes.S n) (combine ds' hs')).
Proof.
  intros B dist hash n. induction cs as [|c cs IH]; intros all ds hs L1 L2 Hn W; cbn [fold_left].
  - exists ds, hs. auto.
  - pose proof (insert_value_inserts n ds hs (dist c) (hash c) ltac:(lia) ltac:(lia)) as G. cbn [fst snd].
    destruct W as (rest & W1 & W2 & W3). specialize (G W2).
    destruct (insert_value (s:=S) (W:=scalar) n ds hs (dist c) (hash c)) as [ds1 hs1]. destruct G as (E1 & E2 & G).
    assert (W' : windowed ((dist c, hash c) :: all) (firstn (Datatypes.S n) (combine ds1 hs1))).
    { eapply windowed_step; [exists rest; split; [exact W1|split; assumption]|exact G]. }
    destruct (IH _ ds1 hs1 (eq_trans E1 L1) (eq_trans E2 L1) Hn W') as (ds' & hs' & F & F1 & F2 & F3).
    exists ds', hs'. split; [exact F|]. split; [exact F1|]. split; [exact F2|].
    cbn [map rev]. rewrite <- app_assoc. exact F3.
Qed.
Lemma nth_firstn_combine : forall n (ds : list R) (hs : list Z), length ds = 4%nat -> length hs = 4%nat -> (n <= 3)%nat ->
  nth_error (firstn (Datatypes.S n) (combine ds hs)) n = Some (nth n ds 0, nth n hs 0%Z).
Proof.
  intros n ds hs H1 H2 Hn. destruct (len4 _ ds H1) as (a & b & c & d & ->). destruct (len4 _ hs H2) as (e & f & g & h & ->).
  destruct n as [|[|[|[|n]]]]; try lia; reflexivity.
Qed.
Lemma sorted_inf : forall (junk : list Z) n, StronglySorted le_item (firstn n (combine (repeat inf 4) junk)).
Proof.
  intros junk n. assert (forall l : list (R * Z), (forall a, In a l -> fst a = inf) -> StronglySorted le_item l) as G.
  { induction l as [|a l IH]; intros H; constructor; [apply IH; intros; apply H; right; assumption|].
    apply Forall_forall. intros b Hb. rewrite (H a), (H b) by (cbn; auto). lra. }
  apply G. intros a Ha.
  assert (In a (combine (repeat inf 4) junk)) as Ha' by (rewrite <- (firstn_skipn n); apply in_or_app; left; exact Ha).
  destruct a as [u v]. apply in_combine_l in Ha'. apply repeat_spec in Ha'. exact Ha'.
Qed.
(** the cell with the k-th smallest distance is found, whatever the array contains initially *)
Lemma value_kth : forall (dist : list Z -> R) (hash : list Z -> Z) n (cs : list (list Z)) (junk : list Z), (n <= 3)%nat -> length junk = 4%nat ->
  (4 <= length cs)%nat -> (forall c, In c cs -> dist c < inf) ->
  exists c, In c cs /\ kth_smallest n (map dist cs) (dist c) /\
  nth n (snd (fold_left (fun st c => insert_value (s:=S) (W:=scalar) n (fst st) (snd st) (dist c) (hash c)) cs (repeat inf 4, junk))) 0%Z = hash c.
Proof.
  intros dist hash n cs junk Hn Hj Hl Hd.
  destruct (fold_insert_value (list Z) dist hash n cs (combine (repeat inf 4) junk) (repeat inf 4) junk) as (ds & hs & E & L1 & L2 & W); auto.
  { exists (skipn (Datatypes.S n) (combine (repeat inf 4) junk)). rewrite firstn_skipn. split; [reflexivity|]. split; [apply sorted_inf|].
    intros a b Ha Hb.
    assert (In a (combine (repeat inf 4) junk)) as Ha' by (rewrite <- (firstn_skipn (Datatypes.S n)); apply in_or_app; left; exact Ha).
    assert (In b (combine (repeat inf 4) junk)) as Hb' by (rewrite <- (firstn_skipn (Datatypes.S n)); apply in_or_app; right; exact Hb).
    destruct a as [u v], b as [u' v']. apply in_combine_l, repeat_spec in Ha'. apply in_combine_l, repeat_spec in Hb'. cbn. lra. }
  rewrite E. cbn [snd].
  pose proof (nth_firstn_combine n ds hs L1 L2 Hn) as N.
  destruct (windowed_kth _ _ _ _ W N) as [HI HK]. cbn [fst] in HK.
  rewrite map_app, map_rev, map_map in HK. cbn [fst] in HK.
  apply (kth_smallest_perm _ _ (map dist cs ++ map fst (combine (repeat inf 4) junk))) in HK.
  2:{ apply Permutation_app_tail. symmetry. apply Permutation_rev. }
  apply (kth_drop_inf _ _ _ _ inf) in HK.
  - destruct HK as [HK Hlt]. apply in_app_or in HI. destruct HI as [HI|HI].
    + apply in_rev in HI. apply in_map_iff in HI. destruct HI as (c & Ec & Hc). inversion Ec as [[E1 E2]].
      exists c. split; [exact Hc|]. split; [rewrite E1; exact HK|symmetry; exact E2].
    + apply in_combine_l, repeat_spec in HI. lra.
  - intros y Hy. apply in_map_iff in Hy. destruct Hy as (c0 & <- & Hc). auto.
  - intros y Hy. apply in_map_iff in Hy. destruct Hy as ([u v] & <- & Hc). apply in_combine_l, repeat_spec in Hc. exact Hc.
  - rewrite map_length. lia.
Qed.
(** In 2D the distances compared are the final ones, in 3D and 4D the square root is left out. *)
Definition value_fn (cl : cellular) (pos : list R) : DistanceFunction := if (length pos =? 2)%nat then clDist cl else compare_fn (clDist cl).
Lemma value_gen_eq : forall junk (cl : cellular) (r : range S) n (seed : Z) (pos : list R), positions_ok cl pos ->
  CellularValueGen (s:=S) (W:=scalar) ft junk cl r n seed pos =
  ScaleOutput (s:=S) (W:=scalar) r (IZR (nth n (snd (fold_left (fun st c => insert_value (s:=S) (W:=scalar) n (fst st) (snd st) (cell_dist (value_fn cl pos) cl seed pos c) (cell_hash cl seed c)) (cells_at cl pos) (repeat inf 4, junk))) 0%Z))
    (s_neg kValueBounds) kValueBounds.
Proof.
  intros junk cl r n seed pos Hp. destruct pos as [|x [|y [|z [|w [|v pos]]]]]; try (destruct Hp as [Hp _]; cbn in Hp; lia); unfold CellularValueGen, slet.
  - pose proof Hp as [_ Hr]. cbn in Hr. inversion Hr as [|? ? Hx Hr']; inversion Hr' as [|? ? Hy _]; subst.
    pose proof (trav2 cl seed (list R * list Z) (fun st h d => insert_value (s:=S) (W:=scalar) n (fst st) (snd st) d h) true true x y (repeat inf 4, junk) Hp) as T. cbv zeta in T.
    assert (T' := f_equal (fun st : list R * list Z => ScaleOutput (s:=S) (W:=scalar) r (IZR (nth n (snd st) 0%Z)) (s_neg kValueBounds) kValueBounds) T). clear T.
    etransitivity; [|exact T']. rewrite !base_f by assumption. reflexivity.
  - pose proof Hp as [_ Hr]. cbn in Hr. inversion Hr as [|? ? Hx Hr']; inversion Hr' as [|? ? Hy Hr'']; inversion Hr'' as [|? ? Hz _]; subst.
    pose proof (trav3 cl seed (list R * list Z) (fun st h d => insert_value (s:=S) (W:=scalar) n (fst st) (snd st) d h) false true x y z (repeat inf 4, junk) Hp) as T. cbv zeta in T.
    assert (T' := f_equal (fun st : list R * list Z => ScaleOutput (s:=S) (W:=scalar) r (IZR (nth n (snd st) 0%Z)) (s_neg kValueBounds) kValueBounds) T). clear T.
    etransitivity; [|exact T']. rewrite !base_f by assumption. reflexivity.
  - pose proof Hp as [_ Hr]. cbn in Hr. inversion Hr as [|? ? Hx Hr']; inversion Hr' as [|? ? Hy Hr'']; inversion Hr'' as [|? ? Hz Hr3]; inversion Hr3 as [|? ? Hw _]; subst.
    pose proof (trav4 cl seed (list R * list Z) (fun st h d => insert_value (s:=S) (W:=scalar) n (fst st) (snd st) d h) false true x y z w (repeat inf 4, junk) Hp) as T. cbv zeta in T.
    assert (T' := f_equal (fun st : list R * list Z => ScaleOutput (s:=S) (W:=scalar) r (IZR (nth n (snd st) 0%Z)) (s_neg kValueBounds) kValueBounds) T). clear T.
    etransitivity; [|exact T']. rewrite !base_f by assumption. reflexivity.
Qed.
Lemma kvb : @kValueBounds S = 2147483648.
Proof. unfold kValueBounds. cbn [lit Rops]. try rewrite (pow2_nonneg 31) by lia. try rlit. try lra. Qed.
(** Cellular Value with index k returns the hash, mapped linearly from [-2^31, 2^31] to the output range, of a cell that has
    the k-th smallest distance; the uninitialised array contents never show. *)
Theorem C37_value : forall junk (cl : cellular) (r : range S) k (seed : Z) (pos : list R),
  positions_ok cl pos -> dist_ok (value_fn cl pos) cl seed pos -> (k <= 3)%nat -> length junk = 4%nat ->
  exists c, In c (cells_at cl pos) /\
    kth_smallest k (map (cell_dist (value_fn cl pos) cl seed pos) (cells_at cl pos)) (cell_dist (value_fn cl pos) cl seed pos c) /\
    CellularValueGen (s:=S) (W:=scalar) ft junk cl r k seed pos = output r (IZR (cell_hash cl seed c) + 2147483648) 4294967296.
Proof.
  intros junk cl r k seed pos Hp Hd Hk Hj.
  destruct (value_kth (cell_dist (value_fn cl pos) cl seed pos) (cell_hash cl seed) k (cells_at cl pos) junk Hk Hj) as (c & H1 & H2 & H3); [apply cells_at_len; destruct Hp; lia|exact Hd|].
  exists c. split; [exact H1|]. split; [exact H2|]. rewrite value_gen_eq by exact Hp. etransitivity; [exact (f_equal (fun h : Z => ScaleOutput (s:=S) (W:=scalar) r (IZR h : R) (s_neg kValueBounds) kValueBounds) H3)|].
  unfold ScaleOutput, output. rewrite kvb. sunf. rlit. toR. field.
Qed.

Definition flt_max : R := 16777215 * IZR (2 ^ 104).
Lemma fltmax : @FLT_MAX S = flt_max.
Proof. unfold FLT_MAX, flt_max. cbn [lit Rops]. rewrite (pow2_nonneg 104) by lia. reflexivity. Qed.
Lemma zip_sel : forall (b : bool) (l c : list R), length l = length c -> zipw (fun x y => fsel (s:=S) (W:=scalar) b x y) l c = if b then l else c.
Proof. induction l as [|x l IH]; intros [|y c] H; try discriminate H; cbn; [destruct b; reflexivity|]. rewrite IH by (cbn in H; lia). destruct b; reflexivity. Qed.
Lemma fold_nearest : forall (dist : list Z -> R) (feat : list Z -> list R) (cs : list (list Z)) (m0 : R) (p0 : list R),
  let st := fold_left (fun (st : R * list R) c => (Rmin (dist c) (fst st), if Rltb (dist c) (fst st) then feat c else snd st)) cs (m0, p0) in
  (fst st <= m0 /\ forall c, In c cs -> fst st <= dist c) /\ ((st = (m0, p0) /\ forall c, In c cs -> m0 <= dist c) \/ exists c, In c cs /\ st = (dist c, feat c)).
Proof.
  intros dist feat. induction cs as [|c cs IH]; intros m0 p0 st.
  - cbn in st. subst st. split; [split; [cbn; lra|intros ? []]|]. left. split; [reflexivity|intros ? []].
  - cbn [fold_left fst snd] in st. specialize (IH (Rmin (dist c) m0) (if Rltb (dist c) m0 then feat c else p0)).
    change (fold_left _ cs _) with st in IH. destruct IH as ((B1 & B2) & IH).
    assert (Hm : Rmin (dist c) m0 <= m0 /\ Rmin (dist c) m0 <= dist c) by (split; [apply Rmin_r|apply Rmin_l]).
    split. { split; [lra|]. intros c' [<-|Hc]; [lra|auto]. }
    destruct IH as [[IH IH']|(c' & Hc & IH)]; [|right; exists c'; split; [right; exact Hc|exact IH]].
    destruct (Rltb (dist c) m0) eqn:E.
    + right. exists c. split; [left; reflexivity|]. apply Rltb_lt in E. rewrite Rmin_left in IH by lra. exact IH.
    + left. apply Rltb_ge in E. rewrite Rmin_right in IH, IH' by lra. split; [exact IH|]. intros c' [<-|Hc]; auto.
Qed.
Lemma feature_len : forall seed j c, (2 <= length c <= 4)%nat -> length (feature seed j c) = length c.
Proof. intros. unfold feature. rewrite zip_len, dir_len by assumption. lia. Qed.
Lemma minus0 : forall (v : list R) n, length v = n -> zipw Rminus v (repeat 0 n) = v.
Proof. induction v as [|x v IH]; intros [|n] H; try discriminate H; cbn; [reflexivity|]. rewrite IH by (cbn in H; lia). f_equal. ring. Qed.
Lemma zipw_sub : forall (l l' : list R), zipw (fsub (s:=S) (W:=scalar)) l l' = zipw Rminus l l'.
Proof. induction l as [|x l IH]; intros [|y l']; cbn [zipw]; try reflexivity. Qed.

(** after any cells, the point kept has the dimension of the position *)
Lemma lookup_fold : forall (cl : cellular) (seed : Z) (pos : list R) (nd : list R -> Z -> R) (cs : list (list Z)) (m0 : R) (p0 : list R),
  (2 <= length pos <= 4)%nat -> length p0 = length pos -> (forall c, In c cs -> length c = length pos) ->
  (forall c, In c cs -> nd (cell_vec cl seed pos c) (cell_hash cl seed c) = cell_dist (compare_fn (clDist cl)) cl seed pos c) ->
  fold_left (fun st c => lookup_visit (s:=S) (W:=scalar) nd (scaled_pos cl pos) st (cell_hash cl seed c) (vec (cell_seed cl seed) (jitter_at cl seed pos) (repeat 0 (length pos)) c)) cs (m0, p0) =
  fold_left (fun (st : R * list R) c => (Rmin (cell_dist (compare_fn (clDist cl)) cl seed pos c) (fst st),
     if Rltb (cell_dist (compare_fn (clDist cl)) cl seed pos c) (fst st) then feature (cell_seed cl seed) (jitter_at cl seed pos) c else snd st)) cs (m0, p0).
Proof.
  intros cl seed pos nd cs. induction cs as [|c cs IH]; intros m0 p0 Hn Hp Hc Hd; cbn [fold_left]; [reflexivity|].
  assert (Lc : length c = length pos) by (apply Hc; left; reflexivity).
  assert (Lf : length (feature (cell_seed cl seed) (jitter_at cl seed pos) c) = length pos) by (rewrite feature_len by lia; exact Lc).
  set (Dc := cell_dist (compare_fn (clDist cl)) cl seed pos c).
  set (fc := feature (cell_seed cl seed) (jitter_at cl seed pos) c) in *.
  assert (E : lookup_visit (s:=S) (W:=scalar) nd (scaled_pos cl pos) (m0, p0) (cell_hash cl seed c) (vec (cell_seed cl seed) (jitter_at cl seed pos) (repeat 0 (length pos)) c) =
              (Rmin Dc m0, if Rltb Dc m0 then fc else p0)).
  { unfold lookup_visit, slet, vec. fold fc. rewrite (minus0 fc (length pos) Lf). cbn [fst snd].
    assert (Hnd : nd (zipw (fsub (s:=S) (W:=scalar)) fc (scaled_pos cl pos)) (cell_hash cl seed c) = Dc).
    { rewrite zipw_sub. apply (Hd c). left; reflexivity. }
    rewrite Hnd. f_equal. cbv [flt scalar map2 s_lt Rops]. apply (zip_sel (Rltb Dc m0)). lia. }
  etransitivity; [apply f_equal; exact E|]. cbn [fst snd]. apply IH; auto.
  - destruct (Rltb Dc m0); lia.
  - intros; apply Hc; right; assumption.
  - intros; apply Hd; right; assumption.
Qed.

(** Cellular Lookup evaluates the lookup source, with the next seed, at the scaled feature point of a nearest cell. *)
Theorem C37_lookup : forall junk (cl : cellular) (lookup : source S scalar) (seed : Z) (pos : list R),
  positions_ok cl pos -> (4 <= length junk)%nat -> (forall c, In c (cells_at cl pos) -> cell_dist (compare_fn (clDist cl)) cl seed pos c < flt_max) ->
  exists c, In c (cells_at cl pos) /\
    (forall c', In c' (cells_at cl pos) -> cell_dist (compare_fn (clDist cl)) cl seed pos c <= cell_dist (compare_fn (clDist cl)) cl seed pos c') /\
    CellularLookupGen (s:=S) (W:=scalar) ft junk cl lookup seed pos =
    lookup (s32 (seed + 1)) (map (fun x => x * clScale cl) (feature (cell_seed cl seed) (jitter_at cl seed pos) c)).
Proof.
  intros junk cl lookup seed pos Hp Hj Hd.
  set (D := cell_dist (compare_fn (clDist cl)) cl seed pos).
  set (fc := feature (cell_seed cl seed) (jitter_at cl seed pos)).
  set (st := fold_left (fun (st : R * list R) c => (Rmin (D c) (fst st), if Rltb (D c) (fst st) then fc c else snd st)) (cells_at cl pos) (flt_max, firstn (length pos) junk)).
  assert (E : CellularLookupGen (s:=S) (W:=scalar) ft junk cl lookup seed pos = lookup (s32 (seed + 1)) (map (fun x => x * clScale cl) (snd st))).
  { assert (Hs : forall p, lookup (isub (W:=scalar) seed (iv (-1))) p = lookup (s32 (seed + 1)) p).
    { intros p. reflexivity. }
    assert (Hlen : forall c, In c (cells_at cl pos) -> length c = length pos).
    { intros c Hc. apply neighbours_dim in Hc. rewrite Hc. unfold scaled_pos. rewrite !map_length. reflexivity. }
    assert (Hv : forall c, In c (cells_at cl pos) -> (2 <= length (cell_vec cl seed pos c) <= 4)%nat).
    { intros c Hc. unfold cell_vec. fold (vec (cell_seed cl seed) (jitter_at cl seed pos) (scaled_pos cl pos) c).
      specialize (Hlen c Hc). destruct Hp as [Hp _]. rewrite vec_len by (unfold scaled_pos; rewrite ?map_length; lia). lia. }
    destruct pos as [|x [|y [|z [|w [|v pos]]]]]; try (destruct Hp as [Hp _]; cbn in Hp; lia); unfold CellularLookupGen, slet; rewrite Hs; f_equal; f_equal.
    - pose proof Hp as [_ Hr]. cbn in Hr. inversion Hr as [|? ? Hx Hr']; inversion Hr' as [|? ? Hy _]; subst.
      unfold prX, prY. rewrite !base_f, !base_x by assumption. rewrite (gsv_val inf bits (clGrid cl)), kJ2.
      etransitivity; [apply (f_equal snd); apply (cells2_eq inf bits _ _ _ _ _ (Rnear (x * clFrequency cl)) (Rnear (y * clFrequency cl)) _ _ 0 0); try assumption; intros k; rewrite plus_IZR; exact (eq_sym (Rminus_0_r _))|].
      rewrite fltmax. apply (f_equal (@snd R (list R))).
      refine (lookup_fold cl seed [x; y] _ (cells_at cl [x; y]) flt_max (firstn 2 junk) _ _ Hlen _); [cbn [length]; lia|rewrite firstn_length; cbn [length]; lia|].
      intros c Hc. rewrite size2, dist_spec by (apply Hv; exact Hc). reflexivity.
    - pose proof Hp as [_ Hr]. cbn in Hr. inversion Hr as [|? ? Hx Hr']; inversion Hr' as [|? ? Hy Hr'']; inversion Hr'' as [|? ? Hz _]; subst.
      unfold prX, prY, prZ. rewrite !base_f, !base_x by assumption. rewrite (gsv_val inf bits (clGrid cl)), kJ3.
      etransitivity; [apply (f_equal snd); apply (cells3_eq inf bits _ _ _ _ _ _ (Rnear (x * clFrequency cl)) (Rnear (y * clFrequency cl)) (Rnear (z * clFrequency cl)) _ _ _ 0 0 0); try assumption; intros k; rewrite plus_IZR; exact (eq_sym (Rminus_0_r _))|].
      rewrite fltmax. apply (f_equal (@snd R (list R))).
      refine (lookup_fold cl seed [x; y; z] _ (cells_at cl [x; y; z]) flt_max (firstn 3 junk) _ _ Hlen _); [cbn [length]; lia|rewrite firstn_length; cbn [length]; lia|].
      intros c Hc. rewrite size3, dist_spec by (apply Hv; exact Hc). reflexivity.
    - pose proof Hp as [_ Hr]. cbn in Hr. inversion Hr as [|? ? Hx Hr']; inversion Hr' as [|? ? Hy Hr'']; inversion Hr'' as [|? ? Hz Hr3]; inversion Hr3 as [|? ? Hw _]; subst.
      unfold prX, prY, prZ, prW. rewrite !base_f, !base_x by assumption. rewrite (gsv_val inf bits (clGrid cl)), kJ4.
      etransitivity; [apply (f_equal snd); apply (cells4_eq inf bits _ _ _ _ _ _ _ (Rnear (x * clFrequency cl)) (Rnear (y * clFrequency cl)) (Rnear (z * clFrequency cl)) (Rnear (w * clFrequency cl)) _ _ _ _ 0 0 0 0); try assumption; intros k; rewrite plus_IZR; exact (eq_sym (Rminus_0_r _))|].
      rewrite fltmax. apply (f_equal (@snd R (list R))).
      refine (lookup_fold cl seed [x; y; z; w] _ (cells_at cl [x; y; z; w]) flt_max (firstn 4 junk) _ _ Hlen _); [cbn [length]; lia|rewrite firstn_length; cbn [length]; lia|].
      intros c Hc. rewrite size4, dist_spec by (apply Hv; exact Hc). reflexivity. }
  destruct (fold_nearest D fc (cells_at cl pos) flt_max (firstn (length pos) junk)) as ((B1 & B2) & [(E1 & E2)|(c & Hc & E1)]).
  - exfalso. pose proof (cells_at_len cl pos) as L. destruct Hp as [Hp _]. specialize (L ltac:(lia)).
    destruct (cells_at cl pos) as [|c cs] eqn:Ec; [cbn in L; lia|]. specialize (E2 c (or_introl eq_refl)). specialize (Hd c (or_introl eq_refl)). unfold D in E2. lra.
  - exists c. split; [exact Hc|]. fold st in E1, B2. rewrite E1 in B2. cbn [fst] in B2. split; [exact B2|]. rewrite E.
    assert (E3 : snd st = fc c) by (exact (f_equal snd E1)). rewrite E3. reflexivity.
Qed.

(** ** Concrete instance: no jitter, so the feature points are the lattice points *)
Definition plain (df : DistanceFunction) : cellular :=
  {| clDist := df; clMinkowski := @HConst S scalar 2; clGrid := @HConst S scalar 0; clSize := @HConst S scalar 0;
     clSeedOffset := 0; clFrequency := (1 : R); clScale := (1 : R) |}.
Lemma near0 : forall x, - 1/2 < x < 1/2 -> Rnear x = 0%Z.
Proof.
  intros x H. unfold Rnear. destruct (Rlt_dec x 0).
  - assert (Rfloor x = (-1)%Z) as -> by (apply Rfloor_unique; lra). destruct (Rlt_dec _ _); [lra|]. destruct (Rlt_dec _ _); [reflexivity|lra].
  - assert (Rfloor x = 0%Z) as -> by (apply Rfloor_unique; lra). destruct (Rlt_dec _ _); [reflexivity|lra].
Qed.
Lemma plain_ok : forall df, positions_ok (plain df) [1/4; 0].
Proof.
  intros df. split; [cbn; lia|]. cbn. constructor; [|constructor; [|constructor]]; unfold in_range; rewrite near0 by lra; lia.
Qed.
Lemma plain_cells : forall df, cells_at (plain df) [1/4; 0] = neighbours [0; 0]%Z.
Proof. intros. unfold cells_at. cbn. rewrite !near0 by lra. reflexivity. Qed.
Lemma plain_dist : forall df seed c0 c1, cell_dist (compare_fn df) (plain df) seed [1/4; 0] [c0; c1] = metric (compare_fn df) 2 [IZR c0 - 1/4; IZR c1].
Proof.
  intros. unfold cell_dist, size_factor. cbn [plain clSize size_on clMinkowski val].
  replace (Reqb 0 0) with true by (symmetry; apply Reqb_eq; reflexivity). cbn [negb]. rewrite Rmult_1_l. f_equal.
  unfold cell_vec, feature, jitter_at. cbn [plain clGrid val length scaled_pos map clFrequency]. cbn [zipw direction raw_dir map].
  f_equal; [toR; ring|]. f_equal. toR. ring.
Qed.
Lemma plain_near : forall df seed c, In c (neighbours [0; 0]%Z) -> exists c0 c1, c = [c0; c1] /\ (-1 <= c0 <= 1)%Z /\ (-1 <= c1 <= 1)%Z /\
   cell_dist (compare_fn df) (plain df) seed [1/4; 0] c = metric (compare_fn df) 2 [IZR c0 - 1/4; IZR c1].
Proof.
  intros df seed c Hc. cbn in Hc. repeat (destruct Hc as [<-|Hc]; [eexists _, _; split; [reflexivity|]; split; [lia|]; split; [lia|]; apply plain_dist|]). contradiction.
Qed.
(** The hypotheses of the theorems above are met. *)
Example cellular_example : forall seed, 3 < inf -> positions_ok (plain Euclidean) [1/4; 0] /\ size_ok (plain Euclidean) seed [1/4; 0] /\
  dist_ok (compare_fn Euclidean) (plain Euclidean) seed [1/4; 0] /\
  kth_smallest 0 (map (seen_dist (plain Euclidean) seed [1/4; 0]) (cells_at (plain Euclidean) [1/4; 0])) (1/4).
Proof.
  intros seed Hinf. split; [apply plain_ok|]. split.
  { unfold size_ok. cbn [plain clSize size_on]. replace (Reqb 0 0) with true by (symmetry; apply Reqb_eq; reflexivity). discriminate. }
  split.
  { intros c Hc. rewrite plain_cells in Hc. destruct (plain_near Euclidean seed c Hc) as (c0 & c1 & -> & H0 & H1 & ->).
    cbn [metric compare_fn sumsq fold_right].
    destruct H0 as [A0 B0], H1 as [A1 B1]. apply IZR_le in A0, B0, A1, B1. nra. }
  assert (E : forall c0 c1, seen_dist (plain Euclidean) seed [1/4; 0] [c0; c1] = sqrt ((IZR c0 - 1/4) * (IZR c0 - 1/4) + (IZR c1 * IZR c1 + 0))).
  { intros. unfold seen_dist. cbn [plain clDist final]. rewrite (plain_dist Euclidean). reflexivity. }
  rewrite plain_cells. cbn [neighbours flat_map map app]. rewrite !E.
  assert (Q : sqrt ((0 - 1/4) * (0 - 1/4) + (0 * 0 + 0)) = 1/4) by (apply sqrt_lem_1; lra).
  replace (0 - 1)%Z with (-1)%Z by lia. replace (0 + 1)%Z with 1%Z by lia. rewrite Q.
  assert (G : forall x, 1/2 <= x -> 1/4 < sqrt x) by (intros x Hx; rewrite <- Q; apply sqrt_lt_1; lra).
  split; [cbn; tauto|].
  unfold count_lt, count_le. cbn [filter].
  repeat match goal with |- context [Rltb (sqrt ?x) (1/4)] => replace (Rltb (sqrt x) (1/4)) with false by (symmetry; apply Rltb_ge; left; apply G; lra) end.
  replace (Rltb (1/4) (1/4)) with false by (symmetry; apply Rltb_ge; lra).
  repeat match goal with |- context [Rleb (sqrt ?x) (1/4)] => replace (Rleb (sqrt x) (1/4)) with false by (symmetry; unfold Rleb; destruct (Rle_dec (sqrt x) (1/4)); [assert (1/4 < sqrt x) by (apply G; lra); lra|reflexivity]) end.
  replace (Rleb (1/4) (1/4)) with true by (symmetry; apply Rleb_le; lra). cbn. lia.
Qed.
Definition unit_range : range S := @Build_range S 0 1.
(** At distance 1/4 from the nearest feature point, Cellular Distance (Euclidean, Index0, both indices 0) returns what it
    returns at distance 1/2: it reports the square root of the distance. *)
Theorem C38_equal_indices_refuted : forall seed : Z, 3 < inf ->
  let r := unit_range in
  kth_smallest 0 (map (seen_dist (plain Euclidean) seed [1/4; 0]) (cells_at (plain Euclidean) [1/4; 0])) (1/4) /\
  CellularDistanceGen (s:=S) (W:=scalar) ft (plain Euclidean) r Index0 0 0 seed [1/4; 0] = named Index0 2 r (1/2) (1/2) /\
  named Index0 2 r (1/2) (1/2) <> named Index0 2 r (1/4) (1/4).
Proof.
  intros seed Hinf r. destruct (cellular_example seed Hinf) as (H1 & H2 & H3 & H4). split; [exact H4|]. split.
  - destruct (C38_equal_indices (plain Euclidean) r Index0 0 seed [1/4; 0] H1 H2 H3 ltac:(lia) eq_refl) as (d & K & E).
    rewrite E. rewrite (kth_smallest_unique _ _ _ _ K H4). cbn [length].
    replace (sqrt (1/4)) with (1/2); [reflexivity|]. symmetry. apply sqrt_lem_1; lra.
  - unfold named, output, r, unit_range. cbn [rMin rScale]. unfold max_jitter.
    match goal with |- ?a <> ?b => assert (b < a); [|lra] end. lra.
Qed.
End C.
Print Assumptions C36_distance.
Print Assumptions C36_order_irrelevant.
Print Assumptions C37_value.
Print Assumptions C37_lookup.
Print Assumptions C38_equal_indices.
Print Assumptions C38_equal_indices_refuted.
