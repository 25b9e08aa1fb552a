(** C73: the block preview has exactly one square per face between solid and air. *)
From Coq Require Import Reals ZArith List Bool Lia Lra Permutation.
From Verif Require Import Mesh_Spec Bloxel_Spec Bloxel_Model.
Import ListNotations.
Open Scope Z_scope.

(** the polygon of a face turns around its outward normal: the cross product of two successive sides points along the axis, away from the cell *)
Definition sub (p q : point) : point := match p, q with (x, y, z), (x', y', z') => (x - x', y - y', z - z') end.
Definition crossp (p q : point) : point := match p, q with (x, y, z), (x', y', z') => (y * z' - z * y', z * x' - x * z', x * y' - y * x') end.
Definition outward (f : face) : Prop := match f with (a, far, _) => match map (corner f) (faceCycle f) with
  | [p0; p1; p2; p3] => crossp (sub p1 p0) (sub p2 p1) = move a (if far then 1 else -1) (0, 0, 0) /\ sub p3 p0 = sub p2 p1
  | _ => False end end.
Lemma triple : forall x y z x' y' z' : Z, x = x' -> y = y' -> z = z' -> (x, y, z) = (x', y', z').
Proof. intros; subst; reflexivity. Qed.
Theorem C73_outward : forall f, outward f.
Proof. intros [[a far] [[x y] z]]. unfold outward. destruct a, far; cbn; (split; apply triple; ring). Qed.

Lemma bloop : forall (A E : Type) (P : A -> list E -> Prop) (step : Z -> A * Z -> A * Z) (items : Z -> list E) (start : Z -> Z) n,
  (forall x m es, 0 <= x < Z.of_nat n -> P m es -> let (m', i) := step x (m, start x) in P m' (es ++ items x) /\ i = start (x + 1)) ->
  forall m es, P m es -> let (m', i) := fold_left (fun s x => step x s) (map (fun i => 0 + Z.of_nat i) (seq 0 n)) (m, start 0) in
    P m' (es ++ flat_map items (map (fun i => 0 + Z.of_nat i) (seq 0 n))) /\ i = start (Z.of_nat n).
Proof.
  intros A E P step items start n H m es H0.
  assert (L : forall k a m es, (a + k = n)%nat -> P m es -> let (m', i) := fold_left (fun s x => step x s) (map (fun i => 0 + Z.of_nat i) (seq a k)) (m, start (Z.of_nat a)) in
    P m' (es ++ flat_map items (map (fun i => 0 + Z.of_nat i) (seq a k))) /\ i = start (Z.of_nat n)).
  { clear m es H0. induction k; intros a m es Ek H0.
    - cbn. rewrite app_nil_r. split; [exact H0|f_equal; lia].
    - cbn [seq map fold_left flat_map]. specialize (H (0 + Z.of_nat a) m es ltac:(lia) H0). rewrite Z.add_0_l in *. destruct (step (Z.of_nat a) (m, start (Z.of_nat a))) as [m1 i1]. destruct H as [H1 ->].
      specialize (IHk (S a) m1 (es ++ items (Z.of_nat a)) ltac:(lia) H1). replace (Z.of_nat a + 1) with (Z.of_nat (S a)) by lia. rewrite <- app_assoc in IHk. exact IHk. }
  apply (L n 0%nat m es); auto.
Qed.

Section B.
Variable SIZE : Z.
Hypothesis SIZE0 : 0 < SIZE.
Variable D : Z -> R.
Variable iso ambient ao sx sy sz : R.
Variable px py pz : Z.
Definition bidx (p : point) : Z := match p with (x, y, z) => x * STEP_X + y * STEP_Y SIZE + z * STEP_Z SIZE end.
Let F (p : point) : R := D (bidx p).
(** the light of the six directions *)
Definition facing (a : axis) (far : bool) : R := let s := match a with AX => sx | AY => sy | AZ => sz end in if far then (s + ambient)%R else (1 - s)%R.
(** grid point (1, 1, 1) is the chunk position *)
Definition world (v : point * R) : point * R := match v with ((x, y, z), b) => ((px + x - 1, py + y - 1, pz + z - 1), b) end.
Definition quadOf (f : face) : list (point * R) := map world (faceQuad F iso ambient ao facing f).
Definition tri_ok (verts : list (point * R)) (f : face) (part : list Z) : Prop :=
  exists t1 t2, Forall2 (fun i v => 0 <= i /\ nth_error verts (Z.to_nat i) = Some v) part (t1 ++ t2) /\ splits (quadOf f) t1 t2.

Definition Quads (m : bmesh) (fs : list face) : Prop := exists groups parts,
  bverts m = concat groups /\ Forall2 (fun f g => Permutation g (quadOf f)) fs groups /\ binds m = concat parts /\ Forall2 (tri_ok (bverts m)) fs parts.
Lemma tri_grows : forall v w f part, tri_ok v f part -> tri_ok (v ++ w) f part.
Proof.
  intros v w f part (t1 & t2 & H & S). exists t1, t2. split; [|exact S]. induction H; constructor; auto. destruct H as [H1 H2]. split; [exact H1|].
  rewrite nth_error_app1; [exact H2|]. apply nth_error_Some. congruence.
Qed.
Lemma quads_more : forall m m' fs f a b c d part, Quads m fs -> bverts m' = bverts m ++ [a; b; d; c] -> quadOf f = [a; b; c; d] -> binds m' = binds m ++ part ->
  tri_ok (bverts m') f part -> Quads m' (fs ++ [f]).
Proof.
  intros m m' fs f a b c d part (groups & parts & V & G & I & T) V' Q I' T'. exists (groups ++ [[a; b; d; c]]), (parts ++ [part]).
  split; [rewrite V', V, concat_app; cbn; reflexivity|]. split; [|split; [rewrite I', I, concat_app; cbn; rewrite app_nil_r; reflexivity|]].
  - apply Forall2_app; [exact G|]. constructor; [|constructor]. rewrite Q. do 2 apply perm_skip. apply perm_swap.
  - apply Forall2_app; [|constructor; [exact T'|constructor]]. rewrite V'. clear - T. induction T; constructor; auto. apply tri_grows; auto.
Qed.
Lemma occ_sum : forall s1 s2 s3, b2z s1 + b2z s2 + b2z ((s1 && s2) || s3) = if s1 && s2 then 3 else bit s1 + bit s2 + bit s3.
Proof. intros [] [] []; reflexivity. Qed.
Lemma le_iso_at : forall i p, i = bidx p -> le_iso D iso i = negb (above F iso p).
Proof. intros i p ->. reflexivity. Qed.
(** the face [f], seen by the code as offsets [oA] and [oB] from the neighbour *)
Lemma add_quad : forall m fs (a : axis) (far : bool) (p : point) (oA oB w : Z), let f := (a, far, p) in let sg := if far then 1 else -1 in Quads m fs ->
  (forall q k, bidx (move (next a) k q) = bidx q + sg * k * oA) -> (forall q k, bidx (move (next (next a)) k q) = bidx q + k * oB) -> (forall q k, bidx (move a k q) = bidx q + sg * k * w) ->
  forall (p00 p01 p11 p10 : point) (light : R), light = facing a far -> map (fun v => fst (world (v, 0%R))) (map (corner f) (faceCycle f)) = [p00; p01; p11; p10] ->
  Quads (BloxelAddQuadAO D iso ambient ao (bidx p) w oA oB light p00 p01 p11 p10 m) (fs ++ [f]).
Proof.
  intros m fs a far p oA oB w f sg Q HA HB HW p00 p01 p11 p10 light -> HP.
  assert (NB : bidx (neighbour f) = bidx p + w) by (unfold f, neighbour; rewrite HW; unfold sg; destruct far; ring).
  assert (OC : forall b c i j k, i = bidx p + w + sg * way b * oA -> j = bidx p + w + way c * oB -> k = bidx p + w + sg * way b * oA + way c * oB ->
    b2z (le_iso D iso i) + b2z (le_iso D iso j) + b2z ((le_iso D iso i && le_iso D iso j) || le_iso D iso k) = occlusion F iso f (b, c)).
  { intros b c i j k Ei Ej Ek. rewrite (le_iso_at i (move (next a) (way b) (neighbour f))) by (rewrite HA, NB, Ei; ring). rewrite (le_iso_at j (move (next (next a)) (way c) (neighbour f))) by (rewrite HB, NB, Ej; ring).
    rewrite (le_iso_at k (move (next a) (way b) (move (next (next a)) (way c) (neighbour f)))) by (rewrite HA, HB, NB, Ek; ring). rewrite occ_sum. reflexivity. }
  unfold BloxelAddQuadAO.
  assert (E00 : b2z (le_iso D iso (bidx p + w - oA)) + b2z (le_iso D iso (bidx p + w - oB)) + b2z ((le_iso D iso (bidx p + w - oA) && le_iso D iso (bidx p + w - oB)) || le_iso D iso (bidx p + w - oA - oB)) = occlusion F iso f (negb far, false))
    by (apply OC; unfold sg, way; destruct far; cbn [negb]; ring).
  assert (E01 : b2z (le_iso D iso (bidx p + w + oA)) + b2z (le_iso D iso (bidx p + w - oB)) + b2z ((le_iso D iso (bidx p + w + oA) && le_iso D iso (bidx p + w - oB)) || le_iso D iso (bidx p + w + oA - oB)) = occlusion F iso f (far, false))
    by (apply OC; unfold sg, way; destruct far; ring).
  assert (E10 : b2z (le_iso D iso (bidx p + w - oA)) + b2z (le_iso D iso (bidx p + w + oB)) + b2z ((le_iso D iso (bidx p + w - oA) && le_iso D iso (bidx p + w + oB)) || le_iso D iso (bidx p + w - oA + oB)) = occlusion F iso f (negb far, true))
    by (apply OC; unfold sg, way; destruct far; cbn [negb]; ring).
  assert (E11 : b2z (le_iso D iso (bidx p + w + oA)) + b2z (le_iso D iso (bidx p + w + oB)) + b2z ((le_iso D iso (bidx p + w + oA) && le_iso D iso (bidx p + w + oB)) || le_iso D iso (bidx p + w + oA + oB)) = occlusion F iso f (far, true))
    by (apply OC; unfold sg, way; destruct far; ring).
  rewrite E00, E01, E10, E11. clear E00 E01 E10 E11 OC HA HB HW NB.
  set (L := Rmax ambient _). assert (EL : faceLight F iso ambient facing f = L) by reflexivity. clearbody L.
  set (br k := ((1 - IZR (occlusion F iso f k) * (ao / 3)) * L)%R).
  assert (EQ : quadOf f = [(p00, br (negb far, false)); (p01, br (far, false)); (p11, br (far, true)); (p10, br (negb far, true))]).
  { unfold quadOf, faceQuad. rewrite EL. assert (W : forall v b, world (v, b) = (fst (world (v, 0%R)), b)) by (intros [[? ?] ?] b; reflexivity).
    rewrite map_map in *. rewrite (map_ext _ (fun k => (fst (world (corner f k, 0%R)), br k)) (fun k => W _ _)). clear W. clearbody br. unfold f in *. destruct far; cbn [faceCycle map negb] in *; injection HP as <- <- <- <-; reflexivity. }
  eapply (quads_more m); [exact Q|reflexivity|exact EQ|reflexivity|].
  cbn [bverts]. set (n := length (bverts m)).
  unfold tri_ok. rewrite EQ.
  assert (NT : forall v0 v1 v2 v3 (k : nat) x, nth_error [v0; v1; v2; v3] k = Some x -> 0 <= Z.of_nat n + Z.of_nat k /\ nth_error (bverts m ++ [v0; v1; v2; v3]) (Z.to_nat (Z.of_nat n + Z.of_nat k)) = Some x).
  { intros. split; [lia|]. rewrite nth_error_app2 by (unfold n; lia). replace (Z.to_nat (Z.of_nat n + Z.of_nat k) - length (bverts m))%nat with k by (unfold n; lia). exact H. }
  pose proof (NT (p00, br (negb far, false)) (p01, br (far, false)) (p10, br (negb far, true)) (p11, br (far, true))) as N. clear NT.
  fold (br (negb far, false)) (br (far, false)) (br (negb far, true)) (br (far, true)).
  set (v00 := (p00, br (negb far, false))) in *. set (v01 := (p01, br (far, false))) in *. set (v10 := (p10, br (negb far, true))) in *. set (v11 := (p11, br (far, true))) in *.
  pose proof (N 0%nat _ eq_refl) as N0. pose proof (N 1%nat _ eq_refl) as N1. pose proof (N 2%nat _ eq_refl) as N2. pose proof (N 3%nat _ eq_refl) as N3.
  cbn [Z.of_nat Pos.of_succ_nat Pos.succ] in N0, N1, N2, N3. rewrite Z.add_0_r in N0.
  destruct (Rgt_b _ _).
  - exists [v00; v01; v10], [v11; v10; v01]. split; [|cbn; tauto]. replace (Z.of_nat n + 3 - 2) with (Z.of_nat n + 1) by lia. repeat (constructor; [assumption|]). constructor.
  - exists [v00; v11; v10], [v11; v00; v01]. split; [|cbn; tauto]. rewrite Z.sub_0_r, Z.add_0_r. repeat (constructor; [assumption|]). constructor.
Qed.

Definition Done (m : bmesh) (cells : list point) : Prop :=
  Quads m (filter (exposed F iso) (flat_map cell_faces cells)) /\
  is_least (minAir m) (map (fun p => py + height p - 1) (filter (above F iso) cells)) /\
  is_greatest (maxSolid m) (map (fun p => py + height p - 1) (filter (fun p => negb (above F iso p)) cells)).
Lemma quads_eq : forall m m' fs, bverts m' = bverts m -> binds m' = binds m -> Quads m fs -> Quads m' fs.
Proof. intros m m' fs V I (g & p & H). exists g, p. rewrite V, I. exact H. Qed.
Lemma cond_quad : forall (c : bool) m m' fs f, Quads m (filter (exposed F iso) fs) -> exposed F iso f = c -> (Quads m (filter (exposed F iso) fs) -> Quads m' (filter (exposed F iso) fs ++ [f])) ->
  Quads (if c then m' else m) (filter (exposed F iso) (fs ++ [f])).
Proof. intros c m m' fs f Q E H. rewrite filter_app. cbn [filter]. rewrite E. destruct c; [auto|rewrite app_nil_r; exact Q]. Qed.
Lemma add_air : forall i w oA oB l a b c d m, minAir (BloxelAddQuadAO D iso ambient ao i w oA oB l a b c d m) = minAir m /\ maxSolid (BloxelAddQuadAO D iso ambient ao i w oA oB l a b c d m) = maxSolid m.
Proof. intros. split; reflexivity. Qed.
Lemma addIf_air : forall c f m, (forall m, minAir (f m) = minAir m /\ maxSolid (f m) = maxSolid m) -> minAir (addIf c f m) = minAir m /\ maxSolid (addIf c f m) = maxSolid m.
Proof. intros [] f m H; [apply H|split; reflexivity]. Qed.
Lemma least_snoc : forall o l v, is_least o l -> is_least (omin v o) (l ++ [v]).
Proof.
  intros [w|] l v H; cbn in *.
  - destruct H as [I M]. split; [apply in_or_app; destruct (Z.min_spec v w) as [[_ ->]|[_ ->]]; cbn; auto|]. intros u U. apply in_app_or in U as [U|[<-|[]]]; [specialize (M u U)|]; lia.
  - subst l. cbn. split; [auto|]. intros u [<-|[]]. lia.
Qed.
Lemma greatest_snoc : forall o l v, is_greatest o l -> is_greatest (omax v o) (l ++ [v]).
Proof.
  intros [w|] l v H; cbn in *.
  - destruct H as [I M]. split; [apply in_or_app; destruct (Z.max_spec v w) as [[_ ->]|[_ ->]]; cbn; auto|]. intros u U. apply in_app_or in U as [U|[<-|[]]]; [specialize (M u U)|]; lia.
  - subst l. cbn. split; [auto|]. intros u [<-|[]]. lia.
Qed.
Lemma done_cell : forall x y z m cells, Done m cells -> let p := (1 + x, 1 + y, 1 + z) in
  let (m', i) := bcellStep SIZE D iso ambient ao sx sy sz px py pz x y z (m, bidx p) in Done m' (cells ++ [p]) /\ i = bidx p + 1.
Proof.
  intros x y z m cells (Q & A & S) p. unfold bcellStep. split; [|reflexivity]. unfold Done. rewrite flat_map_app, !filter_app, !map_app. cbn [flat_map filter].
  change (le_iso D iso (bidx p)) with (negb (above F iso p)). destruct (above F iso p) eqn:B; cbn [negb].
  - cbn [map minAir maxSolid bverts binds]. rewrite !app_nil_r. split; [|split; [|exact S]].
    + replace (filter (exposed F iso) (cell_faces p)) with (@nil face); [rewrite app_nil_r; eapply quads_eq; [| |exact Q]; reflexivity|].
      unfold cell_faces, exposed, faceCell. cbn [filter snd]. rewrite B. reflexivity.
    + replace (py + height p - 1) with (y + py) by (unfold p, height; lia). apply least_snoc. exact A.
  - rewrite !app_nil_r. rewrite <- filter_app. set (m0 := {| bverts := bverts m; binds := binds m; minAir := minAir m; maxSolid := omax (y + py) (maxSolid m) |}).
    assert (Q0 : Quads m0 (filter (exposed F iso) (flat_map cell_faces cells))) by (eapply quads_eq; [| |exact Q]; reflexivity).
    assert (S0 : is_greatest (maxSolid m0) (map (fun p => py + height p - 1) (filter (fun p => negb (above F iso p)) cells) ++ [py + height p - 1])).
    { replace (py + height p - 1) with (y + py) by (unfold p, height; lia). apply greatest_snoc. exact S. }
    assert (A0 : minAir m0 = minAir m) by reflexivity. clearbody m0. cbn [map].
    split.
    + clear A S A0 S0. change (cell_faces p) with ([(AX, true, p)] ++ [(AX, false, p)] ++ [(AY, true, p)] ++ [(AY, false, p)] ++ [(AZ, true, p)] ++ [(AZ, false, p)]). rewrite !app_assoc.
      unfold addIf. repeat (eapply cond_quad; [| |intros Q'; eapply add_quad; [exact Q'|..]]); try exact Q0.
      all: try (unfold exposed, faceCell; cbn [snd]; rewrite B; cbn [negb andb]; unfold above, F; f_equal; f_equal; unfold neighbour, p, move, bidx, STEP_X, STEP_Y, STEP_Z; ring).
      all: try (intros [[qx qy] qz] k; cbn [next move bidx]; unfold STEP_X, STEP_Y, STEP_Z; ring).
      all: try reflexivity.
      all: cbn [faceCycle map corner next move bit fst snd world p]; unfold p; cbn [faceCycle map corner next move bit fst snd world];
        repeat match goal with |- _ :: _ = _ :: _ => f_equal end; try reflexivity; apply triple; ring.
    + rewrite <- A0 in A. clear Q Q0 A0. repeat match goal with |- context [addIf ?c ?f ?m1] => destruct (addIf_air c f m1 (fun m2 => add_air _ _ _ _ _ _ _ _ _ m2)) as [-> ->] end. split; assumption.
Qed.
Lemma done_row : forall y z m cells, Done m cells ->
  let (m', i) := browLoop SIZE D iso ambient ao sx sy sz px py pz y z (m, bidx (1, 1 + y, 1 + z)) in
  Done m' (cells ++ map (fun x => (1 + x, 1 + y, 1 + z)) (zrange 0 SIZE)) /\ i = bidx (1, 1 + (y + 1), 1 + z).
Proof.
  intros y z m cells H. unfold browLoop, zrange.
  pose proof (bloop bmesh point Done (fun x s => bcellStep SIZE D iso ambient ao sx sy sz px py pz x y z s) (fun x => [(1 + x, 1 + y, 1 + z)]) (fun x => bidx (1 + x, 1 + y, 1 + z)) (Z.to_nat SIZE)) as L.
  cbv beta in L. assert (HS : forall x m cells, 0 <= x < Z.of_nat (Z.to_nat SIZE) -> Done m cells ->
    let (m', i) := bcellStep SIZE D iso ambient ao sx sy sz px py pz x y z (m, bidx (1 + x, 1 + y, 1 + z)) in Done m' (cells ++ [(1 + x, 1 + y, 1 + z)]) /\ i = bidx (1 + (x + 1), 1 + y, 1 + z)).
  { intros x m0 c0 _ H0. pose proof (done_cell x y z m0 c0 H0) as DC. cbv zeta in DC. remember (bcellStep SIZE D iso ambient ao sx sy sz px py pz x y z (m0, bidx (1 + x, 1 + y, 1 + z))) as s. destruct s as [m' i].
    destruct DC as [DC E]. split; [exact DC|]. rewrite E. unfold bidx, STEP_X. ring. }
  specialize (L HS m cells H). rewrite Z.add_0_r in L. destruct (fold_left _ _ _) as [m' i]. destruct L as [L ->].
  split; [|rewrite Z2Nat.id by lia; unfold bidx, STEP_X, STEP_Y, STEP_Z, SIZE_GEN; ring].
  replace (map (fun x => (1 + x, 1 + y, 1 + z)) (map (fun i => 0 + Z.of_nat i) (seq 0 (Z.to_nat SIZE)))) with (flat_map (fun x => [(1 + x, 1 + y, 1 + z)]) (map (fun i => 0 + Z.of_nat i) (seq 0 (Z.to_nat SIZE)))); [exact L|].
  generalize (map (fun i => 0 + Z.of_nat i) (seq 0 (Z.to_nat SIZE))). induction l; cbn [flat_map map app]; [reflexivity|rewrite IHl; reflexivity].
Qed.
Definition planeCells (z : Z) : list point := flat_map (fun y => map (fun x => (1 + x, 1 + y, 1 + z)) (zrange 0 SIZE)) (zrange 0 SIZE).
Lemma done_plane : forall z m cells, Done m cells ->
  let (m', i) := bplaneLoop SIZE D iso ambient ao sx sy sz px py pz z (m, bidx (1, 1, 1 + z)) in Done m' (cells ++ planeCells z) /\ i = bidx (1, 1, 1 + (z + 1)).
Proof.
  intros z m cells H. unfold bplaneLoop, planeCells. unfold zrange at 1 2.
  pose proof (bloop bmesh point Done (fun y s => browLoop SIZE D iso ambient ao sx sy sz px py pz y z s) (fun y => map (fun x => (1 + x, 1 + y, 1 + z)) (zrange 0 SIZE)) (fun y => bidx (1, 1 + y, 1 + z)) (Z.to_nat SIZE)) as L.
  cbv beta in L. specialize (L ltac:(intros y m0 es0 Hy H0; exact (done_row y z m0 es0 H0)) m cells H).
  rewrite Z.add_0_r in L. unfold zrange. unfold zrange in L. destruct (fold_left _ _ _) as [m' i]. destruct L as [L ->]. split; [exact L|]. rewrite Z2Nat.id by lia. unfold bidx, STEP_X, STEP_Y, STEP_Z, SIZE_GEN. ring.
Qed.
Lemma cube_cells_alt : cube_cells 1 SIZE = flat_map planeCells (zrange 0 SIZE).
Proof.
  unfold cube_cells, planeCells. assert (Z1 : zrange 1 SIZE = map (fun x => 1 + x) (zrange 0 SIZE)) by (unfold zrange; rewrite map_map; reflexivity).
  rewrite Z1. rewrite flat_map_concat_map, map_map, <- flat_map_concat_map. apply flat_map_ext. intros z. rewrite flat_map_concat_map, map_map, <- flat_map_concat_map. apply flat_map_ext. intros y. rewrite map_map. reflexivity.
Qed.
Lemma in_zrange : forall lo n t, In t (zrange lo n) <-> lo <= t < lo + Z.max 0 n.
Proof.
  intros. unfold zrange. rewrite in_map_iff. split; [intros (i & <- & H); apply in_seq in H; lia|]. intros H. exists (Z.to_nat (t - lo)). split; [lia|apply in_seq; lia].
Qed.
Lemma in_cube : forall x y z, In (x, y, z) (cube_cells 1 SIZE) <-> 1 <= x < 1 + SIZE /\ 1 <= y < 1 + SIZE /\ 1 <= z < 1 + SIZE.
Proof.
  intros. unfold cube_cells. rewrite in_flat_map. split.
  - intros (z' & Hz & H). apply in_flat_map in H as (y' & Hy & H). apply in_map_iff in H as (x' & E & Hx). injection E as -> -> ->. apply in_zrange in Hx, Hy, Hz. lia.
  - intros H. exists z. split; [apply in_zrange; lia|]. apply in_flat_map. exists y. split; [apply in_zrange; lia|]. apply in_map_iff. exists x. split; [reflexivity|apply in_zrange; lia].
Qed.
(** cells of the generated array *)
Definition inGen (q : point) : Prop := match q with (x, y, z) => 0 <= x < SIZE + 2 /\ 0 <= y < SIZE + 2 /\ 0 <= z < SIZE + 2 end.
Lemma cube_neighbours : forall f, In f (flat_map cell_faces (cube_cells 1 SIZE)) -> inGen (faceCell f) /\ inGen (neighbour f).
Proof.
  intros f H. apply in_flat_map in H as ([[x y] z] & Hp & H). apply in_cube in Hp. cbn [cell_faces In] in H. decompose [or] H; try contradiction; subst f; cbn; lia.
Qed.
Lemma quads_none : forall a s fs, (forall f, In f fs -> exposed F iso f = false) -> Quads {| bverts := []; binds := []; minAir := a; maxSolid := s |} (filter (exposed F iso) fs).
Proof.
  intros a s fs H. replace (filter (exposed F iso) fs) with (@nil face); [exists [], []; repeat split; constructor|].
  induction fs; cbn; [reflexivity|]. rewrite H by (left; reflexivity). apply IHfs. intros. apply H. right. auto.
Qed.
(** C73: the index list is, face by face over the exposed faces of the chunk in order, two triangles that split the polygon of the face (with
    the brightness of each corner); the vertex list has exactly the four corners of each; and the reported heights are the lowest air and the
    highest solid cell of the chunk. *)
Theorem C73_one_square_per_exposed_face : forall (calc : bool) (minMax : R * R), (calc = true -> forall p, inGen p -> (fst minMax <= F p <= snd minMax)%R) ->
  let m := BuildBloxel3DMesh SIZE D iso ambient ao sx sy sz px py pz calc minMax in
  let faces := filter (exposed F iso) (flat_map cell_faces (cube_cells 1 SIZE)) in
  (exists groups parts, bverts m = concat groups /\ Forall2 (fun f g => Permutation g (quadOf f)) faces groups /\
     binds m = concat parts /\ Forall2 (tri_ok (bverts m)) faces parts) /\
  is_least (minAir m) (map (fun p => py + height p - 1) (filter (above F iso) (cube_cells 1 SIZE))) /\
  is_greatest (maxSolid m) (map (fun p => py + height p - 1) (filter (fun p => negb (above F iso p)) (cube_cells 1 SIZE))).
Proof.
  intros calc minMax B m faces. change (Done m (cube_cells 1 SIZE)). subst m faces. unfold BuildBloxel3DMesh.
  assert (G : forall x y z, In (x, y, z) (cube_cells 1 SIZE) -> inGen (x, y, z)) by (intros x y z H; apply in_cube in H; unfold inGen; lia).
  destruct (calc && Rgt_b (fst minMax) iso) eqn:C1; [|destruct (calc && Rgt_b iso (snd minMax)) eqn:C2].
  - apply andb_prop in C1 as [-> C1]. specialize (B eq_refl). unfold Rgt_b in C1. destruct (Rlt_dec iso (fst minMax)); [|discriminate].
    assert (AA : forall p, inGen p -> above F iso p = true) by (intros p Hp; apply B in Hp; unfold above, Rgt_b; destruct (Rlt_dec iso (F p)); [reflexivity|exfalso; lra]).
    split; [|split; cbn [minAir maxSolid]].
    + apply quads_none. intros f H. apply cube_neighbours in H as [H _]. unfold exposed. rewrite (AA _ H). reflexivity.
    + split.
      * apply in_map_iff. exists (1, 1, 1). split; [cbn; lia|]. assert (I : In (1, 1, 1) (cube_cells 1 SIZE)) by (apply in_cube; lia). apply filter_In. split; [exact I|apply AA, G, I].
      * intros w H. apply in_map_iff in H as ([[x y] z] & <- & H). apply filter_In in H as [H _]. apply in_cube in H. cbn. lia.
    + cbn. replace (filter (fun p => negb (above F iso p)) (cube_cells 1 SIZE)) with (@nil point); [reflexivity|]. symmetry.
      assert (Q : forall p, In p (cube_cells 1 SIZE) -> negb (above F iso p) = false) by (intros [[x y] z] H; rewrite AA by (apply G; exact H); reflexivity).
      revert Q. generalize (cube_cells 1 SIZE). induction l; intros Q; cbn; [reflexivity|]. rewrite Q by (left; reflexivity). apply IHl. intros. apply Q. right. auto.
  - apply andb_prop in C2 as [-> C2]. specialize (B eq_refl). unfold Rgt_b in C2. destruct (Rlt_dec (snd minMax) iso); [|discriminate].
    assert (AA : forall p, inGen p -> above F iso p = false) by (intros p Hp; apply B in Hp; unfold above, Rgt_b; destruct (Rlt_dec iso (F p)); [exfalso; lra|reflexivity]).
    split; [|split; cbn [minAir maxSolid]].
    + apply quads_none. intros f H. apply cube_neighbours in H as [_ H]. unfold exposed. rewrite (AA _ H). apply andb_false_r.
    + cbn. replace (filter (above F iso) (cube_cells 1 SIZE)) with (@nil point); [reflexivity|]. symmetry.
      assert (Q : forall p, In p (cube_cells 1 SIZE) -> above F iso p = false) by (intros [[x y] z] H; apply AA, G; exact H).
      revert Q. generalize (cube_cells 1 SIZE). induction l; intros Q; cbn; [reflexivity|]. rewrite Q by (left; reflexivity). apply IHl. intros. apply Q. right. auto.
    + split.
      * apply in_map_iff. exists (1, SIZE, 1). split; [cbn; lia|]. assert (I : In (1, SIZE, 1) (cube_cells 1 SIZE)) by (apply in_cube; lia). apply filter_In. split; [exact I|rewrite AA by (apply G, I); reflexivity].
      * intros w H. apply in_map_iff in H as ([[x y] z] & <- & H). apply filter_In in H as [H _]. apply in_cube in H. cbn. lia.
  - rewrite cube_cells_alt.
    pose proof (bloop bmesh point Done (fun z s => bplaneLoop SIZE D iso ambient ao sx sy sz px py pz z s) planeCells (fun z => bidx (1, 1, 1 + z)) (Z.to_nat SIZE)) as L.
    cbv beta in L. set (e := {| bverts := []; binds := []; minAir := None; maxSolid := None |}).
    assert (E0 : Done e []) by (split; [exists [], []; repeat split; constructor|split; reflexivity]).
    specialize (L ltac:(intros z m0 es0 Hz H0; exact (done_plane z m0 es0 H0)) e [] E0). rewrite Z.add_0_r in L.
    fold (zrange 0 SIZE) in L. replace (STEP_X + STEP_Y SIZE + STEP_Z SIZE) with (bidx (1, 1, 1)) by (unfold bidx; ring). destruct (fold_left _ _ _) as [m' i]. exact (proj1 L).
Qed.
End B.
Print Assumptions C73_one_square_per_exposed_face.
(** a concrete case: a chunk of one solid cell in air shows its six faces; the field lies between 0 and 2 *)
Example C73_case : let D i := if i =? 13 then 0%R else 2%R in
  filter (exposed (fun p => D (bidx 1 p)) 1%R) (flat_map cell_faces (cube_cells 1 1)) = cell_faces (1, 1, 1) /\ forall p, inGen 1 p -> (0 <= D (bidx 1 p) <= 2)%R.
Proof.
  intros D. split.
  - change (cube_cells 1 1) with [(1, 1, 1)]. cbn [flat_map app].
    assert (S : above (fun p => D (bidx 1 p)) 1%R (1, 1, 1) = false) by (change (Rgt_b 0 1 = false); unfold Rgt_b; destruct (Rlt_dec 1 0); [exfalso; lra|reflexivity]).
    assert (A : Rgt_b 2 1 = true) by (unfold Rgt_b; destruct (Rlt_dec 1 2); [reflexivity|exfalso; lra]).
    unfold cell_faces. cbn [app filter]. unfold exposed. cbn [faceCell snd]. rewrite S. cbn [negb andb].
    repeat match goal with |- context [above ?f ?s (neighbour ?q)] => change (above f s (neighbour q)) with (Rgt_b 2 1); rewrite A end. reflexivity.
  - intros p _. unfold D. destruct (_ =? _); lra.
Qed.
