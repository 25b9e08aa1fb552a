(** C72: building the 3D preview mesh reads only the densities that were generated. *)
From Coq Require Import Reals ZArith List Bool Lia Lra.
From Verif Require Import Mesh_Spec Mesh_Model Mesh_Local P_MeshVertex P_Mesh.
Import ListNotations.
Open Scope Z_scope.

Lemma fold_two : forall (A : Type) (step step' : Z -> A * Z -> A * Z) (start : Z -> Z) n,
  (forall x m, 0 <= x < Z.of_nat n -> step x (m, start x) = step' x (m, start x) /\ snd (step x (m, start x)) = start (x + 1)) ->
  forall m, fold_left (fun s x => step x s) (map (fun i => 0 + Z.of_nat i) (seq 0 n)) (m, start 0) = fold_left (fun s x => step' x s) (map (fun i => 0 + Z.of_nat i) (seq 0 n)) (m, start 0) /\
    snd (fold_left (fun s x => step x s) (map (fun i => 0 + Z.of_nat i) (seq 0 n)) (m, start 0)) = start (Z.of_nat n).
Proof.
  intros A step step' start n H.
  assert (L : forall k a m, (a + k = n)%nat -> fold_left (fun s x => step x s) (map (fun i => 0 + Z.of_nat i) (seq a k)) (m, start (Z.of_nat a)) = fold_left (fun s x => step' x s) (map (fun i => 0 + Z.of_nat i) (seq a k)) (m, start (Z.of_nat a)) /\
    snd (fold_left (fun s x => step x s) (map (fun i => 0 + Z.of_nat i) (seq a k)) (m, start (Z.of_nat a))) = start (Z.of_nat n)).
  { induction k; intros a m E; [cbn; split; [reflexivity|f_equal; lia]|]. cbn [seq map fold_left]. destruct (H (0 + Z.of_nat a) m ltac:(lia)) as [H1 H2]. rewrite Z.add_0_l in *. rewrite <- H1.
    destruct (step (Z.of_nat a) (m, start (Z.of_nat a))) as [m1 i1]. cbn [snd] in H2. rewrite H2. replace (Z.of_nat a + 1) with (Z.of_nat (S a)) by lia. apply IHk. lia. }
  intros m. apply (L n 0%nat m). reflexivity.
Qed.

Section Reads.
Variable SIZE : Z.
Hypothesis SIZE0 : 0 <= SIZE.
Variables D D' : Z -> R.
Notation G := (SIZE_GEN SIZE).
Hypothesis same : forall i, 0 <= i < G * G * G -> D i = D' i.
Variable iso : R.
Variable br : Z -> Z -> R.
Variable px py pz : Z.

Lemma idx_in : forall q, inGrid SIZE q -> 0 <= idx SIZE q < G * G * G.
Proof. intros [[x y] z] H. unfold inGrid, idx, STEP_X, STEP_Y, STEP_Z in *. set (g := G) in *. clearbody g. nia. Qed.
Lemma reads_in : forall x y z, 0 <= x < G - 1 -> 0 <= y < G - 1 -> 0 <= z < G - 1 -> Forall (fun i => 0 <= i < G * G * G) (corner_reads SIZE (idx SIZE (x, y, z))).
Proof.
  intros x y z Hx Hy Hz. unfold corner_reads.
  assert (P : forall a b c i, i = idx SIZE (x + a, y + b, z + c) -> 0 <= a <= 1 -> 0 <= b <= 1 -> 0 <= c <= 1 -> 0 <= i < G * G * G) by (intros a b c i -> Ha Hb Hc; apply idx_in; unfold inGrid; lia).
  repeat match goal with |- Forall _ _ => constructor end.
  all: let sol a b c := solve [apply (P a b c); [unfold idx, STEP_X, STEP_Y, STEP_Z; ring|lia|lia|lia]] in first [sol 0 0 0|sol 1 0 0|sol 0 1 0|sol 1 1 0|sol 0 0 1|sol 1 0 1|sol 0 1 1|sol 1 1 1].
Qed.
Lemma vert_same : forall x y z edge off m, 0 <= x < G - 1 -> 0 <= y < G - 1 -> 0 <= z < G - 1 ->
  DmcGetVertIndex SIZE D iso br (idx SIZE (x, y, z)) edge off m = DmcGetVertIndex SIZE D' iso br (idx SIZE (x, y, z)) edge off m.
Proof.
  intros x y z edge off m Hx Hy Hz. pose proof (reads_in x y z Hx Hy Hz) as R. unfold corner_reads in R. set (i := idx SIZE (x, y, z)) in *. clearbody i.
  repeat match goal with H : Forall _ (_ :: _) |- _ => inversion_clear H end.
  repeat match goal with H : 0 <= ?j < _ |- _ => apply same in H end.
  assert (C : cellCode SIZE D iso i = cellCode SIZE D' iso i) by (unfold cellCode; repeat match goal with H : D ?j = D' _ |- _ => rewrite H; clear H end; reflexivity).
  assert (V : forall pc, vertPos SIZE D iso i pc = vertPos SIZE D' iso i pc).
  { intros pc. unfold vertPos, vertTerms, cross. repeat match goal with H : D ?j = D' _ |- _ => rewrite H; clear H end. reflexivity. }
  unfold DmcGetVertIndex. rewrite C, V. reflexivity.
Qed.
Definition cellIn (c : Z * Z * vec) : Prop := exists x y z, fst (fst c) = idx SIZE (x, y, z) /\ 0 <= x < G - 1 /\ 0 <= y < G - 1 /\ 0 <= z < G - 1.
Lemma emit_same : forall cells d dn m, Forall cellIn cells -> emitQuad SIZE D iso br cells d dn m = emitQuad SIZE D' iso br cells d dn m.
Proof.
  intros cells d dn m H. unfold emitQuad. destruct (xorb _ _); [|reflexivity].
  destruct cells as [|[[i0 e0] o0] [|[[i1 e1] o1] [|[[i2 e2] o2] [|[[i3 e3] o3] [|? ?]]]]]; try reflexivity.
  inversion_clear H as [|? ? A0 H0]. inversion_clear H0 as [|? ? A1 H1]. inversion_clear H1 as [|? ? A2 H2]. inversion_clear H2 as [|? ? A3 H3].
  destruct A0 as (x0 & y0 & z0 & Q0 & ?), A1 as (x1 & y1 & z1 & Q1 & ?), A2 as (x2 & y2 & z2 & Q2 & ?), A3 as (x3 & y3 & z3 & Q3 & ?). cbn [fst] in Q0, Q1, Q2, Q3. subst i0 i1 i2 i3.
  rewrite vert_same by tauto. destruct (DmcGetVertIndex SIZE D' iso br _ e0 o0 m) as [m0 q0]. rewrite vert_same by tauto. destruct (DmcGetVertIndex SIZE D' iso br _ e1 o1 m0) as [m1 q1].
  rewrite vert_same by tauto. destruct (DmcGetVertIndex SIZE D' iso br _ e2 o2 m1) as [m2 q2]. rewrite vert_same by tauto. reflexivity.
Qed.
Lemma cell_same : forall x y z m, 0 <= x < SIZE -> 0 <= y < SIZE -> 0 <= z < SIZE -> let s := (m, idx SIZE (2 + x, 2 + y, 2 + z)) in
  cellStep SIZE D iso br px py pz x y z s = cellStep SIZE D' iso br px py pz x y z s /\ snd (cellStep SIZE D iso br px py pz x y z s) = idx SIZE (2 + (x + 1), 2 + y, 2 + z).
Proof.
  intros x y z m Hx Hy Hz s. unfold s, cellStep. split; [|cbn [snd]; unfold idx, STEP_X; ring]. f_equal.
  assert (G4 : G = SIZE + 4) by reflexivity.
  assert (S : forall a b c i, i = idx SIZE (2 + x + a, 2 + y + b, 2 + z + c) -> -1 <= a <= 1 -> -1 <= b <= 1 -> -1 <= c <= 1 -> D i = D' i).
  { intros a b c i -> Ha Hb Hc. apply same, idx_in. unfold inGrid. lia. }
  assert (C : forall a b c i e o, i = idx SIZE (2 + x + a, 2 + y + b, 2 + z + c) -> -1 <= a <= 0 -> -1 <= b <= 0 -> -1 <= c <= 0 -> cellIn (i, e, o)).
  { intros a b c i e o -> Ha Hb Hc. exists (2 + x + a), (2 + y + b), (2 + z + c). cbn [fst]. split; [reflexivity|lia]. }
  set (i := idx SIZE (2 + x, 2 + y, 2 + z)).
  rewrite <- (S 0 0 0 i), <- (S 1 0 0 (i + STEP_X)), <- (S 0 1 0 (i + STEP_Y SIZE)), <- (S 0 0 1 (i + STEP_Z SIZE)) by (try lia; unfold i, idx, STEP_X, STEP_Y, STEP_Z; ring).
  rewrite !emit_same; [reflexivity|..].
  all: repeat match goal with |- Forall _ _ => constructor end.
  all: let sol a b c := solve [apply (C a b c); [unfold i, idx, STEP_X, STEP_Y, STEP_Z; ring|lia|lia|lia]] in first [sol 0 0 0|sol (-1) 0 0|sol 0 (-1) 0|sol (-1) (-1) 0|sol 0 0 (-1)|sol (-1) 0 (-1)|sol 0 (-1) (-1)].
Qed.
Lemma row_same : forall y z m, 0 <= y < SIZE -> 0 <= z < SIZE -> let s := (m, idx SIZE (2, 2 + y, 2 + z)) in
  rowLoop SIZE D iso br px py pz y z s = rowLoop SIZE D' iso br px py pz y z s /\ snd (rowLoop SIZE D iso br px py pz y z s) = idx SIZE (2, 2 + (y + 1), 2 + z).
Proof.
  intros y z m Hy Hz s. unfold rowLoop, s, zrange.
  destruct (fold_two mesh (fun x s => cellStep SIZE D iso br px py pz x y z s) (fun x s => cellStep SIZE D' iso br px py pz x y z s) (fun x => idx SIZE (2 + x, 2 + y, 2 + z)) (Z.to_nat SIZE)
    ltac:(intros; apply cell_same; lia) m) as [E1 E2].
  rewrite Z.add_0_r in E1, E2. rewrite <- E1. destruct (fold_left _ _ _) as [m' i]. split; [reflexivity|]. cbn [snd] in *. rewrite E2, Z2Nat.id by lia. unfold idx, STEP_X, STEP_Y, STEP_Z, SIZE_GEN. ring.
Qed.
Lemma plane_same : forall z m, 0 <= z < SIZE -> let s := (m, idx SIZE (2, 2, 2 + z)) in
  planeLoop SIZE D iso br px py pz z s = planeLoop SIZE D' iso br px py pz z s /\ snd (planeLoop SIZE D iso br px py pz z s) = idx SIZE (2, 2, 2 + (z + 1)).
Proof.
  intros z m Hz s. unfold planeLoop, s, zrange.
  destruct (fold_two mesh (fun y s => rowLoop SIZE D iso br px py pz y z s) (fun y s => rowLoop SIZE D' iso br px py pz y z s) (fun y => idx SIZE (2, 2 + y, 2 + z)) (Z.to_nat SIZE)
    ltac:(intros; apply row_same; lia) m) as [E1 E2].
  rewrite Z.add_0_r in E1, E2. rewrite <- E1. destruct (fold_left _ _ _) as [m' i]. split; [reflexivity|]. cbn [snd] in *. rewrite E2, Z2Nat.id by lia. unfold idx, STEP_X, STEP_Y, STEP_Z, SIZE_GEN. ring.
Qed.
(** C72: two density arrays that agree on the [G^3] generated values give the same mesh: no value outside of the array is used. *)
Theorem C72_only_generated : forall calc minMax, BuildDmc3DMesh SIZE D iso br px py pz calc minMax = BuildDmc3DMesh SIZE D' iso br px py pz calc minMax.
Proof.
  intros. unfold BuildDmc3DMesh. destruct (_ && _); [reflexivity|]. f_equal. unfold zrange.
  destruct (fold_two mesh (fun z s => planeLoop SIZE D iso br px py pz z s) (fun z s => planeLoop SIZE D' iso br px py pz z s) (fun z => idx SIZE (2, 2, 2 + z)) (Z.to_nat SIZE)
    ltac:(intros; apply plane_same; lia) {| vertexData := []; vertIndexMap := []; indicies := [] |}) as [E1 _].
  rewrite Z.add_0_r in E1. replace ((STEP_X + STEP_Y SIZE + STEP_Z SIZE) * 2) with (idx SIZE (2, 2, 2)) by (unfold idx; ring). exact E1.
Qed.
End Reads.
Print Assumptions C72_only_generated.

(** the derivative at a vertex too, for every cell that the mesh uses *)
Theorem C72_derivative_reads : forall SIZE p e bx by_ bz, In e (cube_edges 2 SIZE) -> In p (around e) ->
  Forall (fun i => 0 <= i < SIZE_GEN SIZE * SIZE_GEN SIZE * SIZE_GEN SIZE) (corner_reads SIZE (idx SIZE p) ++ deriv_reads SIZE (idx SIZE p) bx by_ bz).
Proof.
  intros SIZE p e bx by_ bz He Hp. unfold cube_edges in He. apply in_flat_map in He as (z & Hz & H). apply in_flat_map in H as (y & Hy & H). apply in_flat_map in H as (x & Hx & H).
  assert (R : forall t, In t (zrange 2 SIZE) -> 2 <= t < SIZE + 2) by (intros t Ht; apply in_map_iff in Ht as (i & <- & Ht); apply in_seq in Ht; lia).
  apply R in Hx, Hy, Hz. assert (S0 : 0 <= SIZE) by lia.
  assert (B : exists a b c, p = (a, b, c) /\ 1 <= a < SIZE + 2 /\ 1 <= b < SIZE + 2 /\ 1 <= c < SIZE + 2).
  { cbn [In] in H. decompose [or] H; try contradiction; subst e; cbn [around next move In] in Hp; decompose [or] Hp; try contradiction; subst p; do 3 eexists; (split; [reflexivity|lia]). }
  clear H Hp R e x y z Hx Hy Hz. destruct B as (x & y & z & -> & Hx & Hy & Hz).
  assert (P : forall a b c i, i = idx SIZE (x + a, y + b, z + c) -> -1 <= a <= 2 -> -1 <= b <= 2 -> -1 <= c <= 2 -> 0 <= i < SIZE_GEN SIZE * SIZE_GEN SIZE * SIZE_GEN SIZE)
    by (intros a b c i -> Ha Hb Hc; apply idx_in; unfold inGrid, SIZE_GEN; lia).
  assert (Q : forall i f, (exists a b c, i = idx SIZE (x + a, y + b, z + c) /\ -1 <= a <= 2 /\ -1 <= b <= 2 /\ -1 <= c <= 2) -> f = i -> 0 <= f < SIZE_GEN SIZE * SIZE_GEN SIZE * SIZE_GEN SIZE)
    by (intros i f (a & b & c & E & ? & ? & ?) ->; eapply P; eauto).
  apply Forall_app. split.
  - apply reads_in; unfold SIZE_GEN; lia.
  - apply Forall_forall. intros i H. unfold deriv_reads in H.
    assert (W : forall bb : bool, exists w, 0 <= w <= 1 /\ forall s, (if bb then s else 0) = w * s) by (intros bb; destruct bb; [exists 1|exists 0]; (split; [lia|intros; lia])).
    destruct (W bx) as (wx & Bx & Ex), (W by_) as (wy & By & Ey), (W bz) as (wz & Bz & Ez). rewrite Ex, Ey, Ez in H. cbn [flat_map app In] in H.
    decompose [or] H; try contradiction; subst i.
    all: let sol a b c := solve [apply (P a b c); [unfold idx, STEP_X, STEP_Y, STEP_Z; ring|lia|lia|lia]] in
      first [sol (wx - 1) 0 0|sol wx 0 0|sol (wx + 1) 0 0|sol (wx - 1) 1 0|sol wx 1 0|sol (wx + 1) 1 0|sol (wx - 1) 0 1|sol wx 0 1|sol (wx + 1) 0 1|sol (wx - 1) 1 1|sol wx 1 1|sol (wx + 1) 1 1
        |sol 0 (wy - 1) 0|sol 0 wy 0|sol 0 (wy + 1) 0|sol 1 (wy - 1) 0|sol 1 wy 0|sol 1 (wy + 1) 0|sol 0 (wy - 1) 1|sol 0 wy 1|sol 0 (wy + 1) 1|sol 1 (wy - 1) 1|sol 1 wy 1|sol 1 (wy + 1) 1
        |sol 0 0 (wz - 1)|sol 0 0 wz|sol 0 0 (wz + 1)|sol 1 0 (wz - 1)|sol 1 0 wz|sol 1 0 (wz + 1)|sol 0 1 (wz - 1)|sol 0 1 wz|sol 0 1 (wz + 1)|sol 1 1 (wz - 1)|sol 1 1 wz|sol 1 1 (wz + 1)].
Qed.
Print Assumptions C72_derivative_reads.
(** the chunk size of the program: the array has 132^3 values, indices fit in 32 bits, and the names of the vertices in 64 *)
Example C72_case : SIZE_GEN 128 * SIZE_GEN 128 * SIZE_GEN 128 = 2299968 /\ 2299968 < 2 ^ 32 /\ 2299968 * 4096 < 2 ^ 64 /\
  In (AX, (2, 2, 2)) (cube_edges 2 3) /\ In (2, 1, 1) (around (AX, (2, 2, 2))).
Proof. vm_compute. repeat split; auto. Qed.
