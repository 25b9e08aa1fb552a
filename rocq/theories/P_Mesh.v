(** C69: the 3D preview mesh has exactly one quad, split into two triangles, for each grid edge that meets the surface. *)
From Coq Require Import Reals ZArith List Bool Lia Lra.
From Verif Require Import Mesh_Spec Mesh_Model Mesh_Local P_MeshVertex.
Import ListNotations.
Open Scope Z_scope.

Lemma F2_length : forall (A B : Type) (R : A -> B -> Prop) l l', Forall2 R l l' -> length l = length l'.
Proof. induction 1; cbn; congruence. Qed.

Section M.
Variable SIZE : Z.
Hypothesis SIZE0 : 0 <= SIZE.
Variable D : Z -> R.
Variable iso : R.
Variable br : Z -> Z -> R.
Variable px py pz : Z.
Let F (p : point) : R := D (idx SIZE p).
Notation G := (SIZE_GEN SIZE).

(** the world position of a vertex: the grid point (2, 2, 2) is the chunk position *)
Definition worldPos (k : point * Z) : vec :=
  match fst k with (x, y, z) => vadd (vertPos SIZE D iso (idx SIZE (fst k)) (snd k)) (IZR (px + x - 2), IZR (py + y - 2), IZR (pz + z - 2)) end.
(** the triangles of one quad: six indices into the vertex list [K] *)
Definition part_ok (K : list (point * Z)) (e : axis * point) (part : list Z) : Prop :=
  exists t1 t2, Forall2 (fun i k => 0 <= i /\ nth_error K (Z.to_nat i) = Some k) part (t1 ++ t2) /\ splits (quad F iso (vertexAt F iso) e) t1 t2.

Definition inGrid (q : point) : Prop := match q with (x, y, z) => 0 <= x < G /\ 0 <= y < G /\ 0 <= z < G end.
Definition valid (k : point * Z) : Prop := inGrid (fst k) /\ 0 <= snd k < 4096.
Definition lk (k : point * Z) : Z := Z.lor (Z.shiftl (idx SIZE (fst k)) 12) (snd k).
Lemma small_mult : forall g a b, - g < a < g -> a = g * b -> b = 0.
Proof. intros. nia. Qed.
Lemma idx_inj : forall p q, inGrid p -> inGrid q -> idx SIZE p = idx SIZE q -> p = q.
Proof.
  intros [[x y] z] [[x' y'] z'] H H'. unfold inGrid, idx, STEP_X, STEP_Y, STEP_Z in *. set (g := G) in *. clearbody g. intros E.
  assert (E1 : x - x' = g * ((y' - y) + g * (z' - z))) by nia. apply small_mult in E1 as E2; [|lia]. rewrite E2 in E1. assert (y' - y = g * (z - z')) by nia.
  apply small_mult in H0 as E3; [|lia]. rewrite E3 in H0. f_equal; [f_equal|]; lia.
Qed.
Lemma lk_inj : forall k k', valid k -> valid k' -> lk k = lk k' -> k = k'.
Proof.
  intros [q c] [q' c'] [V1 V2] [V1' V2'] E. unfold lk in E. cbn [fst snd] in *.
  assert (S : forall i c, 0 <= c < 4096 -> Z.shiftr (Z.lor (Z.shiftl i 12) c) 12 = i).
  { intros. rewrite Z.shiftr_lor, Z.shiftr_shiftl_l by lia. rewrite (Z.shiftr_div_pow2 c0) by lia. rewrite Z.div_small by (change (2 ^ 12) with 4096; lia). rewrite Z.lor_0_r, Z.shiftl_0_r. reflexivity. }
  assert (T : forall i c, 0 <= c < 4096 -> Z.land (Z.lor (Z.shiftl i 12) c) (Z.ones 12) = c).
  { intros. rewrite Z.land_lor_distr_l, !Z.land_ones by lia. rewrite Z.shiftl_mul_pow2 by lia. rewrite Z_mod_mult, Z.lor_0_l. apply Z.mod_small. change (2 ^ 12) with 4096. lia. }
  f_equal.
  - apply idx_inj; auto. rewrite <- (S (idx SIZE q) c), E, S by auto. reflexivity.
  - rewrite <- (T (idx SIZE q) c), E, T by auto. reflexivity.
Qed.
Lemma pc_range : forall code edge, 0 <= pointCode code edge < 4096.
Proof.
  intros. unfold pointCode. destruct (find _ _) as [pc|] eqn:E; [|lia]. apply find_some in E as [I _].
  assert (T : forallb (forallb (fun pc => (0 <=? pc) && (pc <? 4096))) kDualPointsList = true) by (vm_compute; reflexivity). rewrite forallb_forall in T.
  destruct (nth_in_or_default (Z.to_nat code) kDualPointsList []) as [J|J]; [|rewrite J in I; destruct I].
  specialize (T _ J). rewrite forallb_forall in T. specialize (T _ I). lia.
Qed.
Lemma cellCode_at : forall q, cellCode SIZE D iso (idx SIZE q) = cellCodeAt F iso q.
Proof.
  intros [[x y] z]. unfold cellCode, cellCodeAt, corners. cbn [map seq code8 fold_right].
  assert (W : forall (b : bool) w, (if b then w else 0) = w * (if b then 1 else 0)) by (intros [] w; lia).
  rewrite !(W _ 2), !(W _ 4), !(W _ 8), !(W _ 16), !(W _ 32), !(W _ 64), !(W _ 128).
  assert (C : forall k j, idx SIZE (cornerPt (x, y, z) k) = j -> above F iso (cornerPt (x, y, z) k) = Rgt_b (D j) iso) by (intros k j <-; reflexivity).
  set (i := idx SIZE (x, y, z)).
  rewrite (C 0%nat i), (C 1%nat (i + STEP_X)), (C 2%nat (i + STEP_Y SIZE)), (C 3%nat (i + STEP_X + STEP_Y SIZE)), (C 4%nat (i + STEP_Z SIZE)), (C 5%nat (i + STEP_X + STEP_Z SIZE)),
    (C 6%nat (i + STEP_Y SIZE + STEP_Z SIZE)), (C 7%nat (i + STEP_X + STEP_Y SIZE + STEP_Z SIZE)).
  ring.
  all: unfold i; cbn; ring.
Qed.

(** ** the invariant of the vertex list *)
Definition Inv (m : mesh) (K : list (point * Z)) : Prop :=
  Forall2 (fun k v => fst v = worldPos k) K (vertexData m) /\ Forall valid K /\
  forall k i, valid k -> (map_find (lk k) (vertIndexMap m) = Some i <-> 0 <= i /\ nth_error K (Z.to_nat i) = Some k).
Definition grows (P : point * Z -> Prop) (K K' : list (point * Z)) : Prop := exists N, K' = K ++ N /\ Forall P N.
Lemma grows_trans : forall P K1 K2 K3, grows P K1 K2 -> grows P K2 K3 -> grows P K1 K3.
Proof. intros P K1 K2 K3 (N & -> & H) (N' & -> & H'). exists (N ++ N'). rewrite app_assoc. split; [reflexivity|apply Forall_app; auto]. Qed.
Lemma grows_nth : forall P K K' n k, grows P K K' -> nth_error K n = Some k -> nth_error K' n = Some k.
Proof. intros P K K' n k (N & -> & _) H. rewrite nth_error_app1; [exact H|]. apply nth_error_Some. congruence. Qed.

Lemma get_vert : forall m K e q off edge (P : point * Z -> Prop), Inv m K -> inGrid q -> edge = EDGE (edgeNo e q) -> P (vertexAt F iso e q) ->
  off = (match q with (x, y, z) => (IZR (px + x - 2), IZR (py + y - 2), IZR (pz + z - 2)) end) ->
  let (m', i) := DmcGetVertIndex SIZE D iso br (idx SIZE q) edge off m in
  exists K', grows P K K' /\ Inv m' K' /\ indicies m' = indicies m /\ 0 <= i /\ nth_error K' (Z.to_nat i) = Some (vertexAt F iso e q).
Proof.
  intros m K e q off edge P (I1 & I2 & I3) Hq -> HP Ho. unfold DmcGetVertIndex. rewrite cellCode_at.
  set (pc := pointCode (cellCodeAt F iso q) (EDGE (edgeNo e q))). assert (V : valid (q, pc)) by (split; [exact Hq|apply pc_range]).
  change (vertexAt F iso e q) with (q, pc) in *. pose proof (I3 (q, pc)) as J. change (lk (q, pc)) with (Z.lor (Z.shiftl (idx SIZE q) 12) pc) in J.
  destruct (map_find _ _) as [i|] eqn:E.
  - exists K. split; [exists []; rewrite app_nil_r; split; [reflexivity|constructor]|]. split; [split; [|split]; assumption|]. split; [reflexivity|]. apply J; auto.
  - exists (K ++ [(q, pc)]). split; [exists [(q, pc)]; split; [reflexivity|repeat constructor; exact HP]|].
    assert (L : length (vertexData m) = length K) by (symmetry; eapply F2_length; exact I1). rewrite L.
    assert (NK : ~ In (q, pc) K).
    { intros A. apply In_nth_error in A as [n A]. destruct (J (Z.of_nat n) V) as [_ J2]. discriminate J2. rewrite Nat2Z.id. split; [lia|exact A]. }
    split; [|cbn [indicies]; split; [reflexivity|split; [lia|]]].
    + split; [|split].
      * cbn [vertexData]. apply Forall2_app; [exact I1|]. constructor; [|constructor]. cbn [fst]. unfold worldPos. cbn [fst snd]. destruct q as [[x y] z]. rewrite Ho. reflexivity.
      * apply Forall_app. split; [exact I2|repeat constructor; apply V].
      * intros k i Vk. cbn [vertIndexMap]. unfold map_find. cbn [find fst]. change (Z.lor (Z.shiftl (idx SIZE q) 12) pc) with (lk (q, pc)).
        destruct (Z.eqb_spec (lk (q, pc)) (lk k)) as [Q|Q].
        -- apply lk_inj in Q; auto. subst k. cbn [snd]. split.
           ++ intros X. injection X as <-. rewrite Nat2Z.id. split; [lia|]. rewrite nth_error_app2, Nat.sub_diag by lia. reflexivity.
           ++ intros [H0 X]. destruct (lt_dec (Z.to_nat i) (length K)) as [l|l].
              ** rewrite nth_error_app1 in X by auto. apply nth_error_In in X. contradiction.
              ** assert (Z.to_nat i < length (K ++ [(q, pc)]))%nat by (apply nth_error_Some; congruence). rewrite app_length in H. cbn in H. f_equal. lia.
        -- fold (map_find (lk k) (vertIndexMap m)). rewrite (I3 k i Vk). split; intros [H0 X]; (split; [exact H0|]).
           ++ rewrite nth_error_app1; [exact X|]. apply nth_error_Some. congruence.
           ++ destruct (lt_dec (Z.to_nat i) (length K)) as [l|l]; [rewrite nth_error_app1 in X by auto; exact X|].
              rewrite nth_error_app2 in X by lia. destruct (Z.to_nat i - length K)%nat as [|n]; cbn in X; [injection X as <-; contradiction|destruct n; discriminate X].
    + rewrite Nat2Z.id, nth_error_app2, Nat.sub_diag by lia. reflexivity.
Qed.

(** ** one quad *)
Definition cellW (q : point) : vec := match q with (x, y, z) => (IZR (px + x - 2), IZR (py + y - 2), IZR (pz + z - 2)) end.
Definition fromEdge (e : axis * point) (k : point * Z) : Prop := exists q, In q (around e) /\ k = vertexAt F iso e q.
Lemma emit_quad : forall m K e a0 a1 a2 a3 e0 e1 e2 e3 o0 o1 o2 o3 dn, Inv m K -> around e = [a0; a1; a3; a2] ->
  inGrid a0 -> inGrid a1 -> inGrid a2 -> inGrid a3 -> crossing F iso e = true ->
  e0 = EDGE (edgeNo e a0) -> e1 = EDGE (edgeNo e a1) -> e2 = EDGE (edgeNo e a2) -> e3 = EDGE (edgeNo e a3) ->
  o0 = cellW a0 -> o1 = cellW a1 -> o2 = cellW a2 -> o3 = cellW a3 -> dn = F (move (fst e) 1 (snd e)) ->
  let m' := emitQuad SIZE D iso br [(idx SIZE a0, e0, o0); (idx SIZE a1, e1, o1); (idx SIZE a2, e2, o2); (idx SIZE a3, e3, o3)] (F (snd e)) dn m in
  exists K' part, grows (fromEdge e) K K' /\ Inv m' K' /\ indicies m' = indicies m ++ part /\ part_ok K' e part.
Proof.
  intros m K e a0 a1 a2 a3 e0 e1 e2 e3 o0 o1 o2 o3 dn I A V0 V1 V2 V3 C E0 E1 E2 E3 O0 O1 O2 O3 ->. unfold emitQuad. unfold crossing, above in C. rewrite C.
  assert (P : forall q, In q (around e) -> fromEdge e (vertexAt F iso e q)) by (intros q H; exists q; auto). rewrite A in P. cbn [In] in P.
  pose proof (get_vert m K e a0 o0 e0 (fromEdge e) I V0 E0 ltac:(apply P; tauto) O0) as G0. destruct (DmcGetVertIndex _ _ _ _ _ e0 _ m) as [m0 q0]. destruct G0 as (K0 & g0 & I0 & N0 & p0 & n0).
  pose proof (get_vert m0 K0 e a1 o1 e1 (fromEdge e) I0 V1 E1 ltac:(apply P; tauto) O1) as G1. destruct (DmcGetVertIndex _ _ _ _ _ e1 _ m0) as [m1 q1]. destruct G1 as (K1 & g1 & I1 & N1 & p1 & n1).
  pose proof (get_vert m1 K1 e a2 o2 e2 (fromEdge e) I1 V2 E2 ltac:(apply P; tauto) O2) as G2. destruct (DmcGetVertIndex _ _ _ _ _ e2 _ m1) as [m2 q2]. destruct G2 as (K2 & g2 & I2 & N2 & p2 & n2).
  pose proof (get_vert m2 K2 e a3 o3 e3 (fromEdge e) I2 V3 E3 ltac:(apply P; tauto) O3) as G3. destruct (DmcGetVertIndex _ _ _ _ _ e3 _ m2) as [m3 q3]. destruct G3 as (K3 & g3 & I3 & N3 & p3 & n3).
  apply (grows_nth _ _ _ _ _ g1), (grows_nth _ _ _ _ _ g2), (grows_nth _ _ _ _ _ g3) in n0. apply (grows_nth _ _ _ _ _ g2), (grows_nth _ _ _ _ _ g3) in n1. apply (grows_nth _ _ _ _ _ g3) in n2.
  exists K3. eexists. split; [exact (grows_trans _ _ _ _ g0 (grows_trans _ _ _ _ g1 (grows_trans _ _ _ _ g2 g3)))|]. split; [exact I3|].
  split; [cbn [indicies]; rewrite N3, N2, N1, N0; reflexivity|].
  set (v0 := vertexAt F iso e a0) in *. set (v1 := vertexAt F iso e a1) in *. set (v2 := vertexAt F iso e a2) in *. set (v3 := vertexAt F iso e a3) in *.
  assert (Q : quad F iso (vertexAt F iso) e = if above F iso (snd e) then [v0; v1; v3; v2] else [v0; v2; v3; v1]) by (unfold quad; rewrite A; destruct (above F iso (snd e)); reflexivity).
  unfold part_ok. rewrite Q. unfold above in *. clear Q. unfold Rgt_b in *. set (f := F (snd e)) in *. set (fn := F (move (fst e) 1 (snd e))) in *.
  assert (U : forall x y z u v w a b c d e' f', (0 <= x /\ nth_error K3 (Z.to_nat x) = Some a) -> (0 <= y /\ nth_error K3 (Z.to_nat y) = Some b) -> (0 <= z /\ nth_error K3 (Z.to_nat z) = Some c) ->
    (0 <= u /\ nth_error K3 (Z.to_nat u) = Some d) -> (0 <= v /\ nth_error K3 (Z.to_nat v) = Some e') -> (0 <= w /\ nth_error K3 (Z.to_nat w) = Some f') ->
    Forall2 (fun i k => 0 <= i /\ nth_error K3 (Z.to_nat i) = Some k) [x; y; z; u; v; w] ([a; b; c] ++ [d; e'; f'])) by (intros; repeat constructor; tauto).
  destruct (Rlt_dec iso f) as [f1|f1], (Rlt_dec iso fn) as [f2|f2]; cbn [xorb] in C; try discriminate C.
  - destruct (Rlt_dec f fn); [exfalso; lra|]. destruct (Rlt_dec _ _); cbn [nth Nat.sub Nat.add].
    + exists [v0; v1; v2], [v3; v2; v1]. split; [apply U; auto|]. cbn. tauto.
    + exists [v0; v3; v2], [v3; v0; v1]. split; [apply U; auto|]. cbn. tauto.
  - destruct (Rlt_dec f fn); [|exfalso; lra]. destruct (Rlt_dec _ _); cbn [nth Nat.sub Nat.add].
    + exists [v2; v1; v0], [v1; v2; v3]. split; [apply U; auto|]. cbn. tauto.
    + exists [v2; v3; v0], [v1; v0; v3]. split; [apply U; auto|]. cbn. tauto.
Qed.
Lemma emit_none : forall m l d dn, xorb (Rgt_b d iso) (Rgt_b dn iso) = false -> emitQuad SIZE D iso br l d dn m = m.
Proof. intros. unfold emitQuad. rewrite H. reflexivity. Qed.
Lemma part_grows : forall P K K' e part, grows P K K' -> part_ok K e part -> part_ok K' e part.
Proof.
  intros P K K' e part g (t1 & t2 & H & S). exists t1, t2. split; [|exact S]. induction H; constructor; auto. destruct H as [H1 H2]. split; [exact H1|eapply grows_nth; eauto].
Qed.

(** ** the loops *)
Definition Done (m : mesh) (es : list (axis * point)) : Prop :=
  exists K parts, Inv m K /\ Forall (fun k => exists e, In e es /\ crossing F iso e = true /\ fromEdge e k) K /\
    indicies m = concat parts /\ Forall2 (part_ok K) (filter (crossing F iso) es) parts.
Lemma done_edge : forall m es e a0 a1 a2 a3 e0 e1 e2 e3 o0 o1 o2 o3 i0 i1 i2 i3 d dn, Done m es -> around e = [a0; a1; a3; a2] ->
  inGrid a0 -> inGrid a1 -> inGrid a2 -> inGrid a3 -> i0 = idx SIZE a0 -> i1 = idx SIZE a1 -> i2 = idx SIZE a2 -> i3 = idx SIZE a3 ->
  e0 = EDGE (edgeNo e a0) -> e1 = EDGE (edgeNo e a1) -> e2 = EDGE (edgeNo e a2) -> e3 = EDGE (edgeNo e a3) ->
  o0 = cellW a0 -> o1 = cellW a1 -> o2 = cellW a2 -> o3 = cellW a3 -> d = F (snd e) -> dn = F (move (fst e) 1 (snd e)) ->
  Done (emitQuad SIZE D iso br [(i0, e0, o0); (i1, e1, o1); (i2, e2, o2); (i3, e3, o3)] d dn m) (es ++ [e]).
Proof.
  intros m es e a0 a1 a2 a3 e0 e1 e2 e3 o0 o1 o2 o3 i0 i1 i2 i3 d dn (K & parts & I & B & N & Q) A V0 V1 V2 V3 -> -> -> -> E0 E1 E2 E3 O0 O1 O2 O3 -> ->.
  unfold Done. rewrite filter_app. cbn [filter]. destruct (crossing F iso e) eqn:C.
  - destruct (emit_quad m K e a0 a1 a2 a3 e0 e1 e2 e3 o0 o1 o2 o3 _ I A V0 V1 V2 V3 C E0 E1 E2 E3 O0 O1 O2 O3 eq_refl) as (K' & part & g & I' & N' & P').
    exists K', (parts ++ [part]). split; [exact I'|]. split; [|split].
    + destruct g as (X & -> & HX). apply Forall_app. split; [eapply Forall_impl; [|exact B]; intros k (e' & H & H1); exists e'; split; [apply in_or_app; auto|exact H1]|].
      eapply Forall_impl; [|exact HX]. intros k H. exists e. split; [apply in_or_app; cbn; auto|auto].
    + rewrite N', N, concat_app. cbn [concat]. rewrite app_nil_r. reflexivity.
    + apply Forall2_app; [|constructor; [exact P'|constructor]]. clear - Q g. induction Q; constructor; auto. eapply part_grows; eauto.
  - rewrite emit_none by exact C. exists K, parts. rewrite app_nil_r. split; [exact I|]. split; [|split; assumption].
    eapply Forall_impl; [|exact B]; intros k (e' & H & H1); exists e'; split; [apply in_or_app; auto|exact H1].
Qed.
Lemma done_cell : forall x y z m es, 0 <= x < SIZE -> 0 <= y < SIZE -> 0 <= z < SIZE -> Done m es -> let p := (2 + x, 2 + y, 2 + z) in
  let (m', i) := cellStep SIZE D iso br px py pz x y z (m, idx SIZE p) in Done m' (es ++ [(AX, p); (AY, p); (AZ, p)]) /\ i = idx SIZE p + 1.
Proof.
  intros x y z m es Hx Hy Hz H p. unfold cellStep. split; [|reflexivity].
  assert (G4 : G = SIZE + 4) by reflexivity.
  assert (M : forall i, 2 + i - (2 + i) = 0) by (intros; lia). assert (M1 : forall i, 2 + i - (2 + i + -1) = 1) by (intros; lia).
  change [(AX, p); (AY, p); (AZ, p)] with ([(AX, p)] ++ [(AY, p)] ++ [(AZ, p)]). rewrite !app_assoc.
  repeat (eapply done_edge; [|reflexivity|..]); try exact H.
  all: unfold p; cbn [fst snd next move edgeNo]; rewrite ?M, ?M1; try reflexivity.
  all: try (unfold inGrid; rewrite ?G4; lia).
  all: try (unfold idx, STEP_X, STEP_Y, STEP_Z; ring).
  all: try (unfold F; f_equal; unfold idx, STEP_X, STEP_Y, STEP_Z; ring).
  all: unfold cellW; f_equal; [f_equal|]; rewrite <- minus_IZR; f_equal; lia.
Qed.
Lemma loop : forall (A : Type) (step : Z -> mesh * Z -> mesh * Z) (edges : Z -> list (axis * point)) (start : Z -> Z) n,
  (forall x m es, 0 <= x < Z.of_nat n -> Done m es -> let (m', i) := step x (m, start x) in Done m' (es ++ edges x) /\ i = start (x + 1)) ->
  forall m es, Done m es -> let (m', i) := fold_left (fun s x => step x s) (map (fun i => 0 + Z.of_nat i) (seq 0 n)) (m, start 0) in
    Done m' (es ++ flat_map edges (map (fun i => 0 + Z.of_nat i) (seq 0 n))) /\ i = start (Z.of_nat n).
Proof.
  intros _ step edges start n H m es H0.
  assert (L : forall k a m es, (a + k = n)%nat -> Done m es -> let (m', i) := fold_left (fun s x => step x s) (map (fun i => 0 + Z.of_nat i) (seq a k)) (m, start (Z.of_nat a)) in
    Done m' (es ++ flat_map edges (map (fun i => 0 + Z.of_nat i) (seq a k))) /\ i = start (Z.of_nat n)).
  { clear m es H0. induction k; intros a m es E H0.
    - cbn. rewrite app_nil_r. split; [exact H0|f_equal; lia].
    - cbn [seq map fold_left flat_map]. specialize (H (0 + Z.of_nat a) m es ltac:(lia) H0). rewrite Z.add_0_l in *. destruct (step (Z.of_nat a) (m, start (Z.of_nat a))) as [m1 i1]. destruct H as [H1 ->].
      specialize (IHk (S a) m1 (es ++ edges (Z.of_nat a)) ltac:(lia) H1). replace (Z.of_nat a + 1) with (Z.of_nat (S a)) by lia. rewrite <- app_assoc in IHk. exact IHk. }
  apply (L n 0%nat m es); auto.
Qed.
Lemma zrange_shift : forall (A : Type) (f : Z -> list A) n, flat_map f (zrange 2 n) = flat_map (fun x => f (2 + x)) (zrange 0 n).
Proof. intros. unfold zrange. rewrite !flat_map_concat_map, !map_map. reflexivity. Qed.
Definition rowEdges (y z x : Z) : list (axis * point) := let p := (2 + x, 2 + y, 2 + z) in [(AX, p); (AY, p); (AZ, p)].
Definition planeEdges (z y : Z) : list (axis * point) := flat_map (rowEdges y z) (zrange 0 SIZE).
Lemma cube_edges_alt : cube_edges 2 SIZE = flat_map (fun z => flat_map (planeEdges z) (zrange 0 SIZE)) (zrange 0 SIZE).
Proof.
  unfold cube_edges. rewrite zrange_shift. apply flat_map_ext. intros z. rewrite zrange_shift. apply flat_map_ext. intros y. rewrite zrange_shift. reflexivity.
Qed.
Lemma done_row : forall y z m es, 0 <= y < SIZE -> 0 <= z < SIZE -> Done m es ->
  let (m', i) := rowLoop SIZE D iso br px py pz y z (m, idx SIZE (2, 2 + y, 2 + z)) in Done m' (es ++ planeEdges z y) /\ i = idx SIZE (2, 2 + (y + 1), 2 + z).
Proof.
  intros y z m es Hy Hz H. unfold rowLoop, planeEdges, zrange.
  pose proof (loop unit (fun x s => cellStep SIZE D iso br px py pz x y z s) (rowEdges y z) (fun x => idx SIZE (2 + x, 2 + y, 2 + z)) (Z.to_nat SIZE)) as L.
  cbv beta in L. assert (HS : forall x m es, 0 <= x < Z.of_nat (Z.to_nat SIZE) -> Done m es ->
    let (m', i) := cellStep SIZE D iso br px py pz x y z (m, idx SIZE (2 + x, 2 + y, 2 + z)) in Done m' (es ++ rowEdges y z x) /\ i = idx SIZE (2 + (x + 1), 2 + y, 2 + z)).
  { intros x m0 es0 Hx H0. pose proof (done_cell x y z m0 es0 ltac:(lia) Hy Hz H0) as DC. cbv zeta in DC. remember (cellStep SIZE D iso br px py pz x y z (m0, idx SIZE (2 + x, 2 + y, 2 + z))) as s. destruct s as [m' i].
    destruct DC as [DC E]. split; [exact DC|]. rewrite E. unfold idx, STEP_X. ring. }
  specialize (L HS m es H).
  rewrite Z.add_0_r in L. destruct (fold_left _ _ _) as [m' i]. destruct L as [L ->]. split; [exact L|]. rewrite Z2Nat.id by lia. unfold idx, STEP_X, STEP_Y, STEP_Z, SIZE_GEN. ring.
Qed.
Lemma done_plane : forall z m es, 0 <= z < SIZE -> Done m es ->
  let (m', i) := planeLoop SIZE D iso br px py pz z (m, idx SIZE (2, 2, 2 + z)) in Done m' (es ++ flat_map (planeEdges z) (zrange 0 SIZE)) /\ i = idx SIZE (2, 2, 2 + (z + 1)).
Proof.
  intros z m es Hz H. unfold planeLoop, zrange.
  pose proof (loop unit (fun y s => rowLoop SIZE D iso br px py pz y z s) (planeEdges z) (fun y => idx SIZE (2, 2 + y, 2 + z)) (Z.to_nat SIZE)) as L.
  cbv beta in L. specialize (L ltac:(intros y m0 es0 Hy H0; exact (done_row y z m0 es0 ltac:(lia) Hz H0)) m es H).
  rewrite Z.add_0_r in L. destruct (fold_left _ _ _) as [m' i]. destruct L as [L ->]. split; [exact L|]. rewrite Z2Nat.id by lia. unfold idx, STEP_X, STEP_Y, STEP_Z, SIZE_GEN. ring.
Qed.
Definition empty_mesh : mesh := {| vertexData := []; vertIndexMap := []; indicies := [] |}.
Lemma done_empty : forall es, (forall e, In e es -> crossing F iso e = false) -> Done empty_mesh es.
Proof.
  intros es H. exists [], []. split; [split; [constructor|split; [constructor|]]|split; [constructor|split; [reflexivity|]]].
  - intros k i _. cbn. split; [discriminate|]. intros [_ X]. destruct (Z.to_nat i); discriminate X.
  - replace (filter (crossing F iso) es) with (@nil (axis * point)); [constructor|]. induction es; cbn; [reflexivity|]. rewrite H by (left; reflexivity). apply IHes. intros. apply H. right. auto.
Qed.
Lemma cube_in : forall e, In e (cube_edges 2 SIZE) -> inGrid (snd e) /\ inGrid (move (fst e) 1 (snd e)).
Proof.
  intros e H. unfold cube_edges in H. apply in_flat_map in H as (z & Hz & H). apply in_flat_map in H as (y & Hy & H). apply in_flat_map in H as (x & Hx & H).
  assert (R : forall t, In t (zrange 2 SIZE) -> 2 <= t < SIZE + 2) by (intros t Ht; apply in_map_iff in Ht as (i & <- & Ht); apply in_seq in Ht; lia).
  apply R in Hx, Hy, Hz. unfold inGrid, SIZE_GEN. cbn [In] in H. decompose [or] H; try contradiction; subst e; cbn; lia.
Qed.
Lemma build_done : forall calc minMax, (calc = true -> forall p, inGrid p -> (fst minMax <= F p <= snd minMax)%R) ->
  Done (BuildDmc3DMesh SIZE D iso br px py pz calc minMax) (cube_edges 2 SIZE).
Proof.
  intros calc minMax B. unfold BuildDmc3DMesh. destruct calc; [specialize (B eq_refl)|]; cbn [andb].
  - destruct (Rgt_b (fst minMax) iso || Rgt_b iso (snd minMax)) eqn:E.
    + apply done_empty. intros e H. apply cube_in in H as [H1 H2]. apply B in H1, H2. unfold crossing, above, Rgt_b in *.
      destruct (Rlt_dec iso (fst minMax)), (Rlt_dec (snd minMax) iso); cbn in E; try discriminate E; destruct (Rlt_dec iso (F (snd e))), (Rlt_dec iso (F (move (fst e) 1 (snd e)))); cbn; try reflexivity; exfalso; lra.
    + clear E. revert B. intros _. rewrite cube_edges_alt.
      pose proof (loop unit (fun z s => planeLoop SIZE D iso br px py pz z s) (fun z => flat_map (planeEdges z) (zrange 0 SIZE)) (fun z => idx SIZE (2, 2, 2 + z)) (Z.to_nat SIZE)) as L.
      cbv beta in L. specialize (L ltac:(intros z m0 es0 Hz H0; exact (done_plane z m0 es0 ltac:(lia) H0)) empty_mesh [] (done_empty [] ltac:(intros ? []))).
      fold (zrange 0 SIZE) in L. rewrite Z.add_0_r in L. replace ((STEP_X + STEP_Y SIZE + STEP_Z SIZE) * 2) with (idx SIZE (2, 2, 2)) by (unfold idx; ring).
      fold empty_mesh. destruct (fold_left _ _ _) as [m' i]. exact (proj1 L).
  - rewrite cube_edges_alt.
      pose proof (loop unit (fun z s => planeLoop SIZE D iso br px py pz z s) (fun z => flat_map (planeEdges z) (zrange 0 SIZE)) (fun z => idx SIZE (2, 2, 2 + z)) (Z.to_nat SIZE)) as L.
      cbv beta in L. specialize (L ltac:(intros z m0 es0 Hz H0; exact (done_plane z m0 es0 ltac:(lia) H0)) empty_mesh [] (done_empty [] ltac:(intros ? []))).
      fold (zrange 0 SIZE) in L. rewrite Z.add_0_r in L. replace ((STEP_X + STEP_Y SIZE + STEP_Z SIZE) * 2) with (idx SIZE (2, 2, 2)) by (unfold idx; ring).
      fold empty_mesh. destruct (fold_left _ _ _) as [m' i]. exact (proj1 L).
Qed.
(** C69: the indices are, edge by edge over the grid edges that meet the surface and start in the chunk, two triangles that split the
    polygon of the edge. [K] names the vertices: no vertex is stored twice, none is unused, and each lies where [vertPos] says, at the
    chunk position. *)
Theorem C69_one_quad_per_crossing : forall (calc : bool) (minMax : R * R), (calc = true -> forall p, inGrid p -> (fst minMax <= F p <= snd minMax)%R) ->
  let m := BuildDmc3DMesh SIZE D iso br px py pz calc minMax in
  exists (K : list (point * Z)) (parts : list (list Z)), NoDup K /\ Forall2 (fun k v => fst v = worldPos k) K (vertexData m) /\
    (forall k, In k K -> exists e q, In e (cube_edges 2 SIZE) /\ crossing F iso e = true /\ In q (around e) /\ k = vertexAt F iso e q) /\
    indicies m = concat parts /\ Forall2 (part_ok K) (filter (crossing F iso) (cube_edges 2 SIZE)) parts.
Proof.
  intros calc minMax B m. destruct (build_done calc minMax B) as (K & parts & I & A & N & P). fold m in I, N. exists K, parts. destruct I as (I1 & I2 & I3).
  split; [|split; [exact I1|split; [|split; assumption]]].
  - apply NoDup_nth_error. intros i j Hi E. destruct (nth_error K i) as [k|] eqn:Ei; [|apply nth_error_None in Ei; lia].
    assert (V : valid k) by (rewrite Forall_forall in I2; apply I2; eapply nth_error_In; eauto).
    assert (Ai : map_find (lk k) (vertIndexMap m) = Some (Z.of_nat i)) by (apply I3; auto; rewrite Nat2Z.id; split; [lia|auto]).
    assert (Aj : map_find (lk k) (vertIndexMap m) = Some (Z.of_nat j)) by (apply I3; auto; rewrite Nat2Z.id; split; [lia|auto]).
    rewrite Ai in Aj. injection Aj as Aj. lia.
  - intros k H. rewrite Forall_forall in A. destruct (A k H) as (e & He & C & q & Hq & ->). exists e, q. auto.
Qed.
End M.
Print Assumptions C69_one_quad_per_crossing.
(** C71 for the mesh: every stored vertex is, relative to its cell, the mean of at least three surface points of edges of the cell, so it
    lies in the cell; the cell touches a grid edge of the chunk that meets the surface. *)
Theorem C71_mesh_vertices : forall SIZE (SIZE0 : 0 <= SIZE) (D : Z -> R) iso br px py pz calc minMax, let F p := D (idx SIZE p) in
  (calc = true -> forall p, inGrid SIZE p -> (fst minMax <= F p <= snd minMax)%R) ->
  Forall (fun v => exists e q L, In e (cube_edges 2 SIZE) /\ crossing F iso e = true /\ In q (around e) /\
    NoDup L /\ (3 <= length L)%nat /\ In e L /\ (forall e', In e' L <-> In e' (cellEdges q) /\ crossing F iso e' = true /\ vertexAt F iso e' q = vertexAt F iso e q) /\ in_cell (mean (map (crossPoint F iso q) L)) /\
    match q with (x, y, z) => fst v = vadd (mean (map (crossPoint F iso q) L)) (IZR (px + x - 2), IZR (py + y - 2), IZR (pz + z - 2)) end)
  (vertexData (BuildDmc3DMesh SIZE D iso br px py pz calc minMax)).
Proof.
  intros SIZE SIZE0 D iso br px py pz calc minMax F B.
  destruct (C69_one_quad_per_crossing SIZE SIZE0 D iso br px py pz calc minMax B) as (K & parts & _ & V & A & _). revert V A. generalize (vertexData (BuildDmc3DMesh SIZE D iso br px py pz calc minMax)).
  intros vd V. induction V as [|k v K' vd' E V IH]; intros A; constructor.
  - destruct (A k (or_introl eq_refl)) as (e & q & He & C & Hq & Ek). destruct (C71_vertex_is_mean SIZE D iso e q C Hq) as (L & N & L3 & Le & HL & M & IC).
    exists e, q, L. split; [exact He|]. split; [exact C|]. split; [exact Hq|]. split; [exact N|]. split; [exact L3|]. split; [exact Le|]. split; [exact HL|].
    rewrite M in IC. split; [exact IC|]. rewrite E, Ek. unfold worldPos. change (fst (vertexAt (fun p => D (idx SIZE p)) iso e q)) with q. change (vertexAt (fun p => D (idx SIZE p))) with (vertexAt F). change (vertPos SIZE D iso (idx SIZE q) (snd (vertexAt F iso e q)) = mean (map (crossPoint F iso q) L)) in M. rewrite M. destruct q as [[x y] z]. reflexivity.
  - apply IH. intros. apply A. right. auto.
Qed.
Print Assumptions C71_mesh_vertices.
(** a concrete case: one grid cell, the plane z = 5/2: the z edge of the point (2, 2, 2) is the only crossing edge; the bounds 0 and 4 of
    the field satisfy the hypothesis *)
Example C69_case : let F p := (fun i => IZR (i / 25)) (idx 1 p) in
  filter (crossing F (5/2)%R) (cube_edges 2 1) = [(AZ, (2, 2, 2))] /\ forall p, inGrid 1 p -> (0 <= F p <= 4)%R.
Proof.
  assert (H0 : Rgt_b 2 (5/2) = false) by (unfold Rgt_b; destruct (Rlt_dec (5/2) 2); [exfalso; lra|reflexivity]).
  assert (H1 : Rgt_b 3 (5/2) = true) by (unfold Rgt_b; destruct (Rlt_dec (5/2) 3); [reflexivity|exfalso; lra]).
  intros F. split.
  - change (cube_edges 2 1) with [(AX, (2, 2, 2)); (AY, (2, 2, 2)); (AZ, (2, 2, 2))]. cbn [filter].
    change (crossing F (5/2)%R (AX, (2, 2, 2))) with (xorb (Rgt_b 2 (5/2)) (Rgt_b 2 (5/2))). change (crossing F (5/2)%R (AY, (2, 2, 2))) with (xorb (Rgt_b 2 (5/2)) (Rgt_b 2 (5/2))).
    change (crossing F (5/2)%R (AZ, (2, 2, 2))) with (xorb (Rgt_b 2 (5/2)) (Rgt_b 3 (5/2))). rewrite H0, H1. reflexivity.
  - intros [[x y] z] H. unfold inGrid, SIZE_GEN in H. unfold F, idx, STEP_X, STEP_Y, STEP_Z, SIZE_GEN.
    split; apply IZR_le; [apply Z.div_pos; lia|]. assert (x * 1 + y * (1 + 4) + z * ((1 + 4) * (1 + 4)) < 25 * 5) by lia. apply Z.div_lt_upper_bound in H2; lia.
Qed.
