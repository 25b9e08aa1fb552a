(** C71: every vertex of the 3D preview mesh is the mean of the points where edges of its cell meet the surface. *)
From Coq Require Import Reals ZArith List Bool Lia Lra.
From Verif Require Import Mesh_Spec Mesh_Model Mesh_Local.
Import ListNotations.
Open Scope Z_scope.

(** ** Specification: the twelve edges of a cell, in the order of DmcTable.inl:49-67, and the crossing points *)
Definition cellEdges (q : point) : list (axis * point) :=
  match q with (x, y, z) =>
    [(AX, (x, y, z)); (AZ, (x + 1, y, z)); (AX, (x, y, z + 1)); (AZ, (x, y, z)); (AX, (x, y + 1, z)); (AZ, (x + 1, y + 1, z)); (AX, (x, y + 1, z + 1)); (AZ, (x, y + 1, z));
     (AY, (x, y, z)); (AY, (x + 1, y, z)); (AY, (x + 1, y, z + 1)); (AY, (x, y, z + 1))]
  end.
(** the point where the edge meets the surface, relative to the grid point [q] *)
Definition crossPoint (F : point -> R) (iso : R) (q : point) (e : axis * point) : vec :=
  let t := fraction F iso e in
  match e, q with (a, (x, y, z)), (qx, qy, qz) =>
    (IZR (x - qx) + (match a with AX => t | _ => 0 end), IZR (y - qy) + (match a with AY => t | _ => 0 end), IZR (z - qz) + (match a with AZ => t | _ => 0 end))%R end.
Definition vsum (l : list vec) : vec := fold_left vadd l (0, 0, 0)%R.
Definition mean (l : list vec) : vec := let n := INR (length l) in match vsum l with (x, y, z) => (x / n, y / n, z / n)%R end.
(** the linear index of a grid point *)
Definition idx (SIZE : Z) (p : point) : Z := match p with (x, y, z) => x * STEP_X + y * STEP_Y SIZE + z * STEP_Z SIZE end.

(** ** the table *)
Definition ends : list (nat * nat) := [(0, 1); (1, 5); (4, 5); (0, 4); (2, 3); (3, 7); (6, 7); (2, 6); (0, 2); (1, 3); (5, 7); (4, 6)]%nat.
Definition twelve : list nat := seq 0 12.
Definition edgeX (l : list bool) (k : nat) : bool := let (a, b) := nth k ends (0, 0)%nat in xorb (nth a l false) (nth b l false).
Definition vertex_check (l : list bool) : bool :=
  forallb (fun k => let pc := pointCode (code8 l) (EDGE (Z.of_nat k)) in
    implb (edgeX l k) (Z.testbit pc (Z.of_nat k) && (3 <=? length (filter (fun k' => Z.testbit pc (Z.of_nat k')) twelve))%nat && (0 <=? pc) && (pc <? 4096) &&
      forallb (fun k' => implb (Z.testbit pc (Z.of_nat k')) (edgeX l k' && (pointCode (code8 l) (EDGE (Z.of_nat k')) =? pc))) twelve)) twelve.
Lemma vertex_ok : allb 8 vertex_check = true.
Proof. vm_compute. reflexivity. Qed.
Lemma cellEdges_cross : forall F iso q k, (k < 12)%nat -> crossing F iso (nth k (cellEdges q) (AX, q)) = edgeX (corners F iso q) k.
Proof.
  intros F iso [[x y] z] k H. do 12 (destruct k as [|k]; [unfold crossing, corners; cbn; rewrite ?Z.add_0_r; reflexivity|]). lia.
Qed.
Lemma around_edge : forall e q, In q (around e) -> exists k, (k < 12)%nat /\ nth k (cellEdges q) (AX, q) = e /\ edgeNo e q = Z.of_nat k.
Proof.
  intros [a [[x y] z]] q H. unfold around in H. cbn [In] in H.
  assert (M : forall i, i + -1 + 1 = i) by (intros; lia). assert (D : forall i, i - i = 0) by (intros; lia). assert (D1 : forall i, i - (i + -1) = 1) by (intros; lia).
  decompose [or] H; try contradiction; subst q; destruct a; cbn [next move edgeNo];
  rewrite ?D, ?D1; cbn [edgeOff].
  all: match goal with |- exists k, _ /\ _ /\ ?n = _ => exists (Z.to_nat n) end.
  all: cbn; rewrite ?M; split; [lia|split; reflexivity].
Qed.
Lemma edgeNo_nth : forall q k, (k < 12)%nat -> edgeNo (nth k (cellEdges q) (AX, q)) q = Z.of_nat k.
Proof.
  intros [[x y] z] k H. assert (D : forall i, i - i = 0) by (intros; lia). assert (D1 : forall i, i + 1 - i = 1) by (intros; lia).
  do 12 (destruct k as [|k]; [cbn [cellEdges nth edgeNo]; rewrite ?D, ?D1; reflexivity|]). lia.
Qed.
Lemma has_edge : forall pc k, 0 <= k -> negb (Z.land pc (EDGE k) =? 0) = Z.testbit pc k.
Proof.
  intros pc k Hk. unfold EDGE. destruct (Z.testbit pc k) eqn:B.
  - apply negb_true_iff, Z.eqb_neq. intros C. assert (T : Z.testbit (Z.land pc (Z.shiftl 1 k)) k = true) by (rewrite Z.land_spec, B, Z.shiftl_spec, Z.sub_diag by lia; reflexivity). rewrite C, Z.testbit_0_l in T. discriminate.
  - apply negb_false_iff, Z.eqb_eq. apply Z.bits_inj'. intros i Hi. rewrite Z.land_spec, Z.testbit_0_l, Z.shiftl_spec by lia. destruct (Z.eq_dec i k) as [->|N]; [rewrite B; reflexivity|].
    destruct (Z_lt_dec i k); [rewrite (Z.testbit_neg_r 1 (i - k)) by lia; apply andb_false_r|]. change 1 with (2 ^ 0). rewrite Z.pow2_bits_false by lia. apply andb_false_r.
Qed.
(** the edges of a point code *)
Definition codeEdges (q : point) (pc : Z) : list (axis * point) := map (fun k => nth k (cellEdges q) (AX, q)) (filter (fun k => Z.testbit pc (Z.of_nat k)) twelve).
Lemma fold_filter : forall (A : Type) (t : nat -> bool) (f : A -> nat -> A) l v, fold_left f (filter t l) v = fold_left (fun v k => if t k then f v k else v) l v.
Proof. induction l; intros v; cbn; [reflexivity|]. destruct (t a); cbn; apply IHl. Qed.
Lemma fold_map : forall (A B C : Type) (g : B -> C) (f : A -> C -> A) l v, fold_left f (map g l) v = fold_left (fun v k => f v (g k)) l v.
Proof. induction l; intros v; cbn; [reflexivity|]. apply IHl. Qed.
Lemma length_filter : forall (t : nat -> bool) l n, n + Z.of_nat (length (filter t l)) = fold_left (fun n k => if t k then n + 1 else n) l n.
Proof. induction l; intros n; cbn [filter fold_left length]; [lia|]. destruct (t a); cbn [length]; rewrite <- IHl; lia. Qed.
Ltac ct := unfold crossPoint; repeat match goal with D0 : forall a, IZR (a - a) = 0%R, D1 : forall a, IZR (a + 1 - a) = 1%R |- _ => progress rewrite ?D0, ?D1 end; rewrite ?Rplus_0_l, ?Rplus_0_r;
    match goal with |- context [fraction ?f ?s ?e] => match goal with |- context [cross ?d ?s ?a ?b] => replace (fraction f s e) with (cross d s a b); [reflexivity|]; unfold fraction, cross, f; cbn [fst snd move]; apply (f_equal2 (fun u v => ((s - d u) / (d v - d u))%R)) end end;  match goal with v := idx _ _ |- _ => unfold v end; unfold idx, STEP_X, STEP_Y, STEP_Z; ring.
Lemma vertPos_mean : forall SIZE D iso q pc, let F p := D (idx SIZE p) in vertPos SIZE D iso (idx SIZE q) pc = mean (map (crossPoint F iso q) (codeEdges q pc)).
Proof.
  intros SIZE D iso [[x y] z] pc F. unfold mean, vsum, codeEdges. rewrite map_map, map_length, fold_map, fold_filter.
  assert (P : INR (length (filter (fun k => Z.testbit pc (Z.of_nat k)) twelve)) = popcount pc).
  { rewrite INR_IZR_INZ. unfold popcount. f_equal. rewrite <- (Z.add_0_l (Z.of_nat _)), length_filter. reflexivity. }
  rewrite P. clear P. unfold vertPos. set (i := idx SIZE (x, y, z)).
  assert (D0 : forall a, IZR (a - a) = 0%R) by (intros; rewrite Z.sub_diag; reflexivity). assert (D1 : forall a, IZR (a + 1 - a) = 1%R) by (intros; f_equal; lia).
  assert (E0 : crossPoint F iso (x, y, z) (AX, (x, y, z)) = (cross D iso i (i + STEP_X)%Z, 0, 0)%R) by ct.
  assert (E1 : crossPoint F iso (x, y, z) (AZ, (x + 1, y, z)) = (1, 0, cross D iso (i + STEP_X)%Z (i + STEP_X + STEP_Z SIZE)%Z)%R) by ct.
  assert (E2 : crossPoint F iso (x, y, z) (AX, (x, y, z + 1)) = (cross D iso (i + STEP_Z SIZE)%Z (i + STEP_X + STEP_Z SIZE)%Z, 0, 1)%R) by ct.
  assert (E3 : crossPoint F iso (x, y, z) (AZ, (x, y, z)) = (0, 0, cross D iso i (i + STEP_Z SIZE)%Z)%R) by ct.
  assert (E4 : crossPoint F iso (x, y, z) (AX, (x, y + 1, z)) = (cross D iso (i + STEP_Y SIZE)%Z (i + STEP_X + STEP_Y SIZE)%Z, 1, 0)%R) by ct.
  assert (E5 : crossPoint F iso (x, y, z) (AZ, (x + 1, y + 1, z)) = (1, 1, cross D iso (i + STEP_X + STEP_Y SIZE)%Z (i + STEP_X + STEP_Y SIZE + STEP_Z SIZE)%Z)%R) by ct.
  assert (E6 : crossPoint F iso (x, y, z) (AX, (x, y + 1, z + 1)) = (cross D iso (i + STEP_Y SIZE + STEP_Z SIZE)%Z (i + STEP_X + STEP_Y SIZE + STEP_Z SIZE)%Z, 1, 1)%R) by ct.
  assert (E7 : crossPoint F iso (x, y, z) (AZ, (x, y + 1, z)) = (0, 1, cross D iso (i + STEP_Y SIZE)%Z (i + STEP_Y SIZE + STEP_Z SIZE)%Z)%R) by ct.
  assert (E8 : crossPoint F iso (x, y, z) (AY, (x, y, z)) = (0, cross D iso i (i + STEP_Y SIZE)%Z, 0)%R) by ct.
  assert (E9 : crossPoint F iso (x, y, z) (AY, (x + 1, y, z)) = (1, cross D iso (i + STEP_X)%Z (i + STEP_X + STEP_Y SIZE)%Z, 0)%R) by ct.
  assert (E10 : crossPoint F iso (x, y, z) (AY, (x + 1, y, z + 1)) = (1, cross D iso (i + STEP_X + STEP_Z SIZE)%Z (i + STEP_X + STEP_Y SIZE + STEP_Z SIZE)%Z, 1)%R) by ct.
  assert (E11 : crossPoint F iso (x, y, z) (AY, (x, y, z + 1)) = (0, cross D iso (i + STEP_Z SIZE)%Z (i + STEP_Y SIZE + STEP_Z SIZE)%Z, 1)%R) by ct.
  unfold cellEdges. cbn [twelve seq fold_left nth Z.of_nat Pos.of_succ_nat Pos.succ]. rewrite E0, E1, E2, E3, E4, E5, E6, E7, E8, E9, E10, E11. unfold vertTerms. cbn [fold_left fst snd]. rewrite !has_edge by lia. reflexivity.
Qed.

Lemma fraction_01 : forall F iso e, crossing F iso e = true -> (0 <= fraction F iso e <= 1)%R.
Proof.
  intros F iso [a p] C. unfold crossing, above, Rgt_b, fraction in *. cbn [fst snd] in *. set (f := F p) in *. set (g := F (move a 1 p)) in *.
  destruct (Rlt_dec iso f), (Rlt_dec iso g); cbn in C; try discriminate C.
  - replace ((iso - f) / (g - f))%R with ((f - iso) * / (f - g))%R by (field; lra). assert (0 < / (f - g))%R by (apply Rinv_0_lt_compat; lra). split; [apply Rmult_le_pos; lra|].
    apply (Rmult_le_reg_r (f - g)); [lra|]. rewrite Rmult_assoc, Rinv_l by lra. lra.
  - assert (0 < / (g - f))%R by (apply Rinv_0_lt_compat; lra). unfold Rdiv. split; [apply Rmult_le_pos; lra|]. apply (Rmult_le_reg_r (g - f)); [lra|]. rewrite Rmult_assoc, Rinv_l by lra. lra.
Qed.
Definition in_cell (v : vec) : Prop := match v with (x, y, z) => (0 <= x <= 1)%R /\ (0 <= y <= 1)%R /\ (0 <= z <= 1)%R end.
Lemma crossPoint_in : forall F iso q e, In e (cellEdges q) -> crossing F iso e = true -> in_cell (crossPoint F iso q e).
Proof.
  intros F iso [[x y] z] e H C. apply fraction_01 in C. assert (D0 : forall a, IZR (a - a) = 0%R) by (intros; rewrite Z.sub_diag; reflexivity). assert (D1 : forall a, IZR (a + 1 - a) = 1%R) by (intros; f_equal; lia).
  cbn [cellEdges In] in H. decompose [or] H; try contradiction; subst e; unfold crossPoint, in_cell; rewrite ?D0, ?D1; lra.
Qed.
Lemma mean_in : forall l, l <> [] -> Forall in_cell l -> in_cell (mean l).
Proof.
  intros l N H. assert (G : forall l, Forall in_cell l -> forall a b c, match fold_left vadd l (a, b, c) with (x, y, z) => (a <= x <= a + INR (length l) /\ b <= y <= b + INR (length l) /\ c <= z <= c + INR (length l))%R end).
  { clear. induction l as [|[[x y] z] l IH]; intros H a b c; [cbn; lra|]. inversion_clear H as [|? ? H0 H1]. cbn [fold_left vadd length]. rewrite S_INR.
    specialize (IH H1 (a + x)%R (b + y)%R (c + z)%R). destruct (fold_left vadd l _) as [[x' y'] z']. unfold in_cell in H0. lra. }
  specialize (G l H 0 0 0)%R. unfold mean, vsum. destruct (fold_left vadd l _) as [[x y] z]. unfold in_cell.
  assert (P : (0 < INR (length l))%R) by (destruct l; [contradiction|apply lt_0_INR; cbn; lia]). set (n := INR (length l)) in *.
  assert (Q : forall t, (0 <= t <= n -> 0 <= t / n <= 1)%R).
  { intros t Ht. unfold Rdiv. assert (0 < / n)%R by (apply Rinv_0_lt_compat; lra). split; [apply Rmult_le_pos; lra|]. apply (Rmult_le_reg_r n); [lra|]. rewrite Rmult_assoc, Rinv_l by lra. lra. }
  repeat split; apply Q; lra.
Qed.
(** C71: for a crossing edge and a cell around it, the vertex position (relative to the cell) is the mean of the points where at least three
    edges of the cell, this edge among them, meet the surface; so it lies in the cell. The edges are exactly those crossing edges of the
    cell whose polygons have this vertex too. *)
Theorem C71_vertex_is_mean : forall (SIZE : Z) (D : Z -> R) (iso : R) e q, let F p := D (idx SIZE p) in crossing F iso e = true -> In q (around e) ->
  exists L, NoDup L /\ (3 <= length L)%nat /\ In e L /\
    (forall e', In e' L <-> In e' (cellEdges q) /\ crossing F iso e' = true /\ vertexAt F iso e' q = vertexAt F iso e q) /\
    vertPos SIZE D iso (idx SIZE q) (snd (vertexAt F iso e q)) = mean (map (crossPoint F iso q) L) /\
    in_cell (vertPos SIZE D iso (idx SIZE q) (snd (vertexAt F iso e q))).
Proof.
  intros SIZE D iso e q F C A. assert (EN : forall k, (k < 12)%nat -> edgeNo (nth k (cellEdges q) (AX, q)) q = Z.of_nat k) by (intros; apply edgeNo_nth; assumption). destruct (around_edge e q A) as (k & Hk & Ek & Nk).
  pose proof (allb_spec 8 _ vertex_ok (corners F iso q) eq_refl) as T. unfold vertex_check in T. rewrite forallb_forall in T.
  specialize (T k ltac:(apply in_seq; lia)). cbv zeta in T. rewrite <- cellEdges_cross, Ek, C in T by exact Hk. cbn [implb] in T.
  unfold vertexAt. cbn [snd]. unfold cellCodeAt. rewrite Nk. pose proof (allb_spec 8 _ vertex_ok (corners F iso q) eq_refl) as TA. unfold vertex_check in TA. rewrite forallb_forall in TA. remember (code8 (corners F iso q)) as cc eqn:Ecc. set (pc := pointCode cc (EDGE (Z.of_nat k))) in *.
  apply andb_prop in T as [T T5]. apply andb_prop in T as [T T4]. apply andb_prop in T as [T T3]. apply andb_prop in T as [T1 T2]. apply Nat.leb_le in T2. rewrite forallb_forall in T5.
  assert (LC : length (cellEdges q) = 12%nat) by (destruct q as [[? ?] ?]; reflexivity).
  assert (ND : NoDup (cellEdges q)).
  { destruct q as [[x y] z]. unfold cellEdges. repeat (constructor; [cbn [In]; intros H; decompose [or] H; try contradiction; match goal with H : (_, _) = _ |- _ => injection H; intros; try discriminate; lia end|]). constructor. }
  assert (HL : forall e', In e' (codeEdges q pc) <-> In e' (cellEdges q) /\ crossing F iso e' = true /\ (q, pointCode cc (EDGE (edgeNo e' q))) = (q, pc)).
  { intros e'. unfold codeEdges. rewrite in_map_iff. split.
    - intros (k' & <- & H). apply filter_In in H as [H B]. specialize (T5 k' H). rewrite B in T5. cbn [implb] in T5. apply andb_prop in T5 as [X Y]. apply in_seq in H.
      split; [apply nth_In; lia|]. rewrite cellEdges_cross by lia. split; [exact X|]. rewrite EN by lia. apply Z.eqb_eq in Y. rewrite Y. reflexivity.
    - intros (I & C' & E'). apply (In_nth _ _ (AX, q)) in I as (k' & Hk' & <-). rewrite LC in Hk'. exists k'. split; [reflexivity|]. apply filter_In. split; [apply in_seq; lia|].
      rewrite cellEdges_cross in C' by lia. specialize (TA k' ltac:(apply in_seq; lia)). cbv zeta in TA. rewrite C' in TA. cbn [implb] in TA. rewrite EN in E' by lia. injection E' as E'. rewrite E' in TA.
      repeat (apply andb_prop in TA as [TA _]). exact TA. }
  clearbody pc. clear TA.
  assert (L3 : (3 <= length (codeEdges q pc))%nat) by (unfold codeEdges; rewrite map_length; exact T2).
  exists (codeEdges q pc). split; [|split; [exact L3|split; [|split; [exact HL|split; [apply vertPos_mean|]]]]].
  - unfold codeEdges. assert (NT : NoDup (filter (fun k => Z.testbit pc (Z.of_nat k)) twelve)) by (apply NoDup_filter, seq_NoDup).
    assert (BT : forall k, In k (filter (fun k => Z.testbit pc (Z.of_nat k)) twelve) -> (k < 12)%nat) by (intros j H; apply filter_In in H as [H _]; apply in_seq in H; lia).
    revert NT BT. generalize (filter (fun k => Z.testbit pc (Z.of_nat k)) twelve). induction l as [|j l IH]; intros NT BT; cbn; constructor.
    + inversion_clear NT. intros H1. apply in_map_iff in H1 as (j' & E & I). assert (j' = j) as ->; [|contradiction].
      apply (proj1 (NoDup_nth (cellEdges q) (AX, q)) ND); [rewrite LC; apply BT; right; auto|rewrite LC; apply BT; left; auto|exact E].
    + inversion_clear NT. apply IH; auto. intros; apply BT; right; auto.
  - unfold codeEdges. apply in_map_iff. exists k. split; [exact Ek|]. apply filter_In. split; [apply in_seq; lia|exact T1].
  - unfold F in *. rewrite vertPos_mean. apply mean_in.
    + intros H. apply (f_equal (@length _)) in H. rewrite map_length in H. change (length (@nil vec)) with 0%nat in H. lia.
    + apply Forall_forall. intros v H. apply in_map_iff in H as (e' & <- & H). apply HL in H as (H1 & H2 & _). apply crossPoint_in; assumption.
Qed.
Print Assumptions C71_vertex_is_mean.
(** a concrete case: the plane z = 1/2: the cell at the origin contributes the vertex (1/2, 1/2, 1/2), the mean of four crossing points *)
Example C71_case : let F p := (fun i => IZR (i / 25)) (idx 1 p) in crossing F (1/2)%R (AZ, (0, 0, 0)) = true /\ In (0, 0, 0) (around (AZ, (0, 0, 0))) /\
  snd (vertexAt F (1/2)%R (AZ, (0, 0, 0)) (0, 0, 0)) = 170.
Proof.
  assert (H0 : Rgt_b 0 (1/2) = false) by (unfold Rgt_b; destruct (Rlt_dec (1/2) 0); [exfalso; lra|reflexivity]).
  assert (H1 : Rgt_b 1 (1/2) = true) by (unfold Rgt_b; destruct (Rlt_dec (1/2) 1); [reflexivity|exfalso; lra]).
  intros F. assert (S : corners F (1/2)%R (0, 0, 0) = [false; false; false; false; true; true; true; true]).
  { change (corners F (1/2)%R (0, 0, 0)) with [Rgt_b 0 (1/2); Rgt_b 0 (1/2); Rgt_b 0 (1/2); Rgt_b 0 (1/2); Rgt_b 1 (1/2); Rgt_b 1 (1/2); Rgt_b 1 (1/2); Rgt_b 1 (1/2)]. rewrite H0, H1. reflexivity. }
  split; [|split; [left; reflexivity|]].
  - change (crossing F (1/2)%R (AZ, (0, 0, 0))) with (xorb (Rgt_b 0 (1/2)) (Rgt_b 1 (1/2))). rewrite H0, H1. reflexivity.
  - unfold vertexAt, cellCodeAt. rewrite S. vm_compute. reflexivity.
Qed.
