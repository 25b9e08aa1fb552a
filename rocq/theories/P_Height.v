(** C74: the height map mesh has one quad per square of the grid, at the heights of the noise. *)
From Coq Require Import Reals ZArith List Bool Lia Lra Permutation.
From Verif Require Import Mesh_Spec Height_Model P_Bloxel.
Import ListNotations.
Open Scope Z_scope.

Section H.
Variable SIZE : Z.
Hypothesis SIZE0 : 0 <= SIZE.
Variable D : Z -> R.
Variable mult : R.
Variable light : hpoint -> hpoint -> hpoint -> hpoint -> R.
Variable px pz : Z.
(** the corner of the terrain at a grid point: [SIZE + 1] values per row *)
Definition terrain (x y : Z) : hpoint := (px + x, (D (x + y * (SIZE + 1)) * mult)%R, pz + y).
(** the quad of a square, seen from above in one sense, each corner with the light of the square *)
Definition squareQuad (s : Z * Z) : list (hpoint * R) :=
  let (x, y) := s in
  let l := light (terrain x y) (terrain x (y + 1)) (terrain (x + 1) y) (terrain (x + 1) (y + 1)) in
  map (fun v => (v, l)) [terrain x y; terrain x (y + 1); terrain (x + 1) (y + 1); terrain (x + 1) y].
Definition squares : list (Z * Z) := flat_map (fun y => map (fun x => (x, y)) (zrange 0 SIZE)) (zrange 0 SIZE).
Definition htri_ok (verts : list (hpoint * R)) (s : Z * Z) (part : list Z) : Prop :=
  exists t1 t2, Forall2 (fun i v => 0 <= i /\ nth_error verts (Z.to_nat i) = Some v) part (t1 ++ t2) /\ splits (squareQuad s) t1 t2.
Definition HQuads (m : hmesh) (ss : list (Z * Z)) : Prop := exists groups parts,
  hverts m = concat groups /\ Forall2 (fun s g => Permutation g (squareQuad s)) ss groups /\ hinds m = concat parts /\ Forall2 (htri_ok (hverts m)) ss parts.
Lemma htri_grows : forall v w f part, htri_ok v f part -> htri_ok (v ++ w) f part.
Proof.
  intros v w f part (t1 & t2 & H & S). exists t1, t2. split; [|exact S]. induction H; constructor; auto. destruct H as [H1 H2]. split; [exact H1|].
  rewrite nth_error_app1; [exact H2|]. apply nth_error_Some. congruence.
Qed.
Lemma hquads_more : forall m m' fs f a b c d part, HQuads m fs -> hverts m' = hverts m ++ [a; b; d; c] -> squareQuad f = [a; b; c; d] -> hinds m' = hinds m ++ part ->
  htri_ok (hverts m') f part -> HQuads m' (fs ++ [f]).
Proof.
  intros m m' fs f a b c d part (groups & parts & V & G & I & T) V' Q I' T'. exists (groups ++ [[a; b; d; c]]), (parts ++ [part]).
  split; [rewrite V', V, concat_app; cbn; reflexivity|]. split; [|split; [rewrite I', I, concat_app; cbn; rewrite app_nil_r; reflexivity|]].
  - apply Forall2_app; [exact G|]. constructor; [|constructor]. rewrite Q. do 2 apply perm_skip. apply perm_swap.
  - apply Forall2_app; [|constructor; [exact T'|constructor]]. rewrite V'. clear - T. induction T; constructor; auto. apply htri_grows; auto.
Qed.
Lemma hcell : forall x y m ss, HQuads m ss -> let (m', i) := hcellStep SIZE D mult light px pz x y (m, x + y * (SIZE + 1)) in HQuads m' (ss ++ [(x, y)]) /\ i = (x + 1) + y * (SIZE + 1).
Proof.
  intros x y m ss Q. unfold hcellStep. split; [|clear; lia].
  assert (V00 : (x + px, (D (x + y * (SIZE + 1)) * mult)%R, y + pz) = terrain x y) by (unfold terrain; rewrite (Z.add_comm x px), (Z.add_comm y pz); reflexivity).
  assert (V01 : (x + px, (D (x + y * (SIZE + 1) + STEP_Y SIZE) * mult)%R, y + pz + 1) = terrain x (y + 1)).
  { unfold terrain, STEP_Y, SIZE_GEN. replace (x + y * (SIZE + 1) + (SIZE + 1)) with (x + (y + 1) * (SIZE + 1)) by ring. replace (x + px) with (px + x) by ring. replace (y + pz + 1) with (pz + (y + 1)) by ring. reflexivity. }
  assert (V10 : (x + px + 1, (D (x + y * (SIZE + 1) + STEP_X) * mult)%R, y + pz) = terrain (x + 1) y).
  { unfold terrain, STEP_X. replace (x + y * (SIZE + 1) + 1) with (x + 1 + y * (SIZE + 1)) by ring. replace (x + px + 1) with (px + (x + 1)) by ring. replace (y + pz) with (pz + y) by ring. reflexivity. }
  assert (V11 : (x + px + 1, (D (x + y * (SIZE + 1) + STEP_X + STEP_Y SIZE) * mult)%R, y + pz + 1) = terrain (x + 1) (y + 1)).
  { unfold terrain, STEP_X, STEP_Y, SIZE_GEN. replace (x + y * (SIZE + 1) + 1 + (SIZE + 1)) with (x + 1 + (y + 1) * (SIZE + 1)) by ring. replace (x + px + 1) with (px + (x + 1)) by ring. replace (y + pz + 1) with (pz + (y + 1)) by ring. reflexivity. }
  rewrite V00, V01, V10, V11. clear V00 V01 V10 V11.
  set (l := light _ _ _ _). set (n := length (hverts m)).
  eapply (hquads_more m); [exact Q|reflexivity|reflexivity|reflexivity|].
  cbn [hverts]. unfold htri_ok. change (squareQuad (x, y)) with [(terrain x y, l); (terrain x (y + 1), l); (terrain (x + 1) (y + 1), l); (terrain (x + 1) y, l)].
  set (v00 := (terrain x y, l)). set (v01 := (terrain x (y + 1), l)). set (v10 := (terrain (x + 1) y, l)). set (v11 := (terrain (x + 1) (y + 1), l)).
  assert (N : forall (k : nat) v, nth_error [v00; v01; v10; v11] k = Some v -> 0 <= Z.of_nat n + Z.of_nat k /\ nth_error (hverts m ++ [v00; v01; v10; v11]) (Z.to_nat (Z.of_nat n + Z.of_nat k)) = Some v).
  { intros. split; [lia|]. rewrite nth_error_app2 by (unfold n; lia). replace (Z.to_nat (Z.of_nat n + Z.of_nat k) - length (hverts m))%nat with k by (unfold n; lia). exact H. }
  pose proof (N 0%nat _ eq_refl) as N0. pose proof (N 1%nat _ eq_refl) as N1. pose proof (N 2%nat _ eq_refl) as N2. pose proof (N 3%nat _ eq_refl) as N3.
  cbn [Z.of_nat Pos.of_succ_nat Pos.succ] in N0, N1, N2, N3. rewrite Z.add_0_r in N0.
  destruct (Rgt_b _ _).
  - exists [v00; v01; v10], [v11; v10; v01]. split; [|cbn; tauto]. replace (Z.of_nat n + 3 - 2 * 1) with (Z.of_nat n + 1) by lia. repeat (constructor; [assumption|]). constructor.
  - exists [v00; v11; v10], [v11; v00; v01]. split; [|cbn; tauto]. rewrite Z.mul_0_r, Z.sub_0_r, Z.add_0_r. repeat (constructor; [assumption|]). constructor.
Qed.
Lemma hrow : forall y m ss, HQuads m ss -> let (m', i) := hrowLoop SIZE D mult light px pz y (m, 0 + y * (SIZE + 1)) in HQuads m' (ss ++ map (fun x => (x, y)) (zrange 0 SIZE)) /\ i = 0 + (y + 1) * (SIZE + 1).
Proof.
  intros y m ss H. unfold hrowLoop, zrange.
  pose proof (bloop hmesh (Z * Z) HQuads (fun x s => hcellStep SIZE D mult light px pz x y s) (fun x => [(x, y)]) (fun x => x + y * (SIZE + 1)) (Z.to_nat SIZE)) as L.
  cbv beta in L. specialize (L ltac:(intros x m0 s0 _ H0; exact (hcell x y m0 s0 H0)) m ss H). destruct (fold_left _ _ _) as [m' i]. destruct L as [L ->]. split; [|rewrite Z2Nat.id by lia; unfold STEP_X; ring].
  replace (map (fun x => (x, y)) (map (fun i => 0 + Z.of_nat i) (seq 0 (Z.to_nat SIZE)))) with (flat_map (fun x => [(x, y)]) (map (fun i => 0 + Z.of_nat i) (seq 0 (Z.to_nat SIZE)))); [exact L|].
  generalize (map (fun i => 0 + Z.of_nat i) (seq 0 (Z.to_nat SIZE))). induction l; cbn [flat_map map app]; [reflexivity|rewrite IHl; reflexivity].
Qed.
(** C74: square by square, the index list has two triangles that split the quad of the square and the vertex list its four corners. The
    corner at a grid point is the same in all squares around it: there are no cracks. *)
Theorem C74_one_quad_per_square : let m := BuildHeightMap2DMesh SIZE D mult light px pz in
  exists groups parts, hverts m = concat groups /\ Forall2 (fun s g => Permutation g (squareQuad s)) squares groups /\
    hinds m = concat parts /\ Forall2 (htri_ok (hverts m)) squares parts.
Proof.
  intros m. change (HQuads m squares). subst m. unfold BuildHeightMap2DMesh, squares.
  pose proof (bloop hmesh (Z * Z) HQuads (fun y s => hrowLoop SIZE D mult light px pz y s) (fun y => map (fun x => (x, y)) (zrange 0 SIZE)) (fun y => 0 + y * (SIZE + 1)) (Z.to_nat SIZE)) as L.
  cbv beta in L. set (e := {| hverts := []; hinds := [] |}). assert (E0 : HQuads e []) by (exists [], []; repeat split; constructor).
  specialize (L ltac:(intros y m0 s0 _ H0; exact (hrow y m0 s0 H0)) e [] E0). change (0 + 0 * (SIZE + 1)) with 0 in L. fold (zrange 0 SIZE) in L.
  destruct (fold_left _ _ _) as [m' i]. exact (proj1 L).
Qed.
End H.
Print Assumptions C74_one_quad_per_square.
(** two height arrays that agree on the [(SIZE + 1)^2] generated values have the same quads, so the squares of the chunk read only those *)
Theorem C74_only_generated : forall SIZE D D' mult light px pz s, In s (squares SIZE) ->
  (forall i, 0 <= i < (SIZE + 1) * (SIZE + 1) -> D i = D' i) -> squareQuad SIZE D mult light px pz s = squareQuad SIZE D' mult light px pz s.
Proof.
  intros SIZE D D' mult light px pz [x y] I H. unfold squares in I. apply in_flat_map in I as (y' & Hy & I). apply in_map_iff in I as (x' & E & Hx). injection E as -> ->. apply in_zrange in Hx, Hy.
  assert (T : forall a b, 0 <= a <= SIZE -> 0 <= b <= SIZE -> terrain SIZE D mult px pz a b = terrain SIZE D' mult px pz a b) by (intros; unfold terrain; rewrite H by nia; reflexivity).
  unfold squareQuad. rewrite !T by lia. reflexivity.
Qed.
Print Assumptions C74_only_generated.
(** a concrete case: the squares of a chunk of size 2 *)
Example C74_case : squares 2 = [(0, 0); (1, 0); (0, 1); (1, 1)] /\ length (hinds (BuildHeightMap2DMesh 2 (fun _ => 0%R) 1%R (fun _ _ _ _ => 0%R) 0 0)) = 24%nat.
Proof. split; [reflexivity|]. cbn. reflexivity. Qed.
