(** C61: where Simplex and SuperSimplex are not continuous. *)
From Coq Require Import Reals ZArith List Bool Lia Lra Psatz.
From Verif Require Import Prelude Simd_Model Utils_Model Nodes_Model Setters_Model Simd_R Bits P_Hash P_Grad P_Blend P_Lattice Lattice Simplex_Model Simplex_Spec Simplex_Geom Simplex_2D P_Simplex Simplex_3D P_Simplex3 Simplex_Cells Simplex_4D Simplex_4Dmiss P_Simplex4.
Import ListNotations.
Open Scope R_scope.

(** a function that agrees, at positions as near as wanted, with a continuous one of another value *)
Lemma jump : forall (f g : list R -> R) p, continuous_at g p -> (forall d, 0 < d -> exists q, near d p q /\ f q = g q) -> g p <> f p -> ~ continuous_at f p.
Proof.
  intros f g p Cg H N Cf. set (e := Rabs (g p - f p)). assert (0 < e) by (apply Rabs_pos_lt; lra).
  destruct (Cg (e / 2) ltac:(lra)) as (d1 & P1 & Q1). destruct (Cf (e / 2) ltac:(lra)) as (d2 & P2 & Q2).
  destruct (H (Rmin d1 d2) ltac:(apply Rmin_pos; auto)) as (q & Nq & E).
  specialize (Q1 q (near_le _ _ _ _ (Rmin_l _ _) Nq)). specialize (Q2 q (near_le _ _ _ _ (Rmin_r _ _) Nq)). rewrite E in Q2.
  assert (e < e); [|lra]. unfold e at 1. replace (g p - f p) with ((g q - f p) - (g q - g p)) by ring.
  eapply Rle_lt_trans; [apply Rabs_triang|]. rewrite Rabs_Ropp. lra.
Qed.
Lemma Rleb_true : forall x y, x <= y -> Rleb x y = true. Proof. intros. unfold Rleb. destruct (Rle_dec _ _); auto; contradiction. Qed.
Lemma Rleb_false : forall x y, y < x -> Rleb x y = false. Proof. intros. unfold Rleb. destruct (Rle_dec _ _); auto; lra. Qed.
Lemma Rfloor_0 : forall x, 0 <= x < 1 -> Rfloor x = 0%Z.
Proof. intros x H. pose proof (Rfloor_spec x). assert (-1 < Rfloor x < 1)%Z by (split; apply lt_IZR; lra). lia. Qed.

Section J.
Variable inf : R.
Variable bits : R -> Z.
Notation S_ := (Rops inf bits).

(** the position with given skewed coordinates *)
Definition back (n : nat) (k : R) (qs : list R) : list R := map (fun q => q - k / (1 + INR n * k) * sum qs) qs.
Lemma skewed_back3 : forall k x y z, 1 + 3 * k <> 0 -> skewed k 1 (back 3 k [x; y; z]) = [x; y; z].
Proof.
  intros. unfold back. cbn [map]. rewrite skewed3, !sum_cons, sum_nil. replace (INR 3) with 3 by (cbn; ring). repeat (apply (f_equal2 cons)); try reflexivity; field; auto.
Qed.
Theorem C61_simplex3_seam_refuted : exists ft so (freq lo hi : R) (seed : Z) (x y z : R),
  ~ continuous_at (fun pos => SimplexGen (s:=S_) (W:=scalar) ft so freq (out_range inf bits lo hi) seed pos) [x; y; z].
Proof.
  set (ft := {| avx512 := false; avx2 := true; x86 := true; sse41 := true; relaxed := false |}).
  assert (HK : 1 + 3 * kSkew3 <> 0) by (unfold kSkew3; lra).
  set (c := kSkew3 / (1 + INR 3 * kSkew3)).
  exists ft, 0%Z, 1, (-1), 1, 0%Z, (1/2 - c), (1/2 - c), (0 - c).
  set (M := [[0; 0; 0]; [0; 1; 0]; [1; 1; 0]; [1; 1; 1]]%Z).
  apply (jump _ (fun pos => rescale (-1) 1 (kSimplex 3) (bumps kR06 (unskew 3) 0 (skewed kSkew3 1 [nth 0 pos 0; nth 1 pos 0; nth 2 pos 0]) M))).
  - apply cont_rescale, bumps3_cont. intros v Hv. unfold M in Hv. cbn [In] in Hv. decompose [or] Hv; subst; reflexivity || contradiction.
  - intros d Hd. set (t := Rmin (d / 2) (1 / 4)). assert (0 < t /\ t < d /\ t <= 1/4) as (T1 & T2 & T3) by (unfold t, Rmin; destruct (Rle_dec _ _); lra).
    assert (E : back 3 kSkew3 [1/2 - t; 1/2 + t; 0] = [1/2 - t - c; 1/2 + t - c; 0 - c]).
    { unfold back. cbn [map]. rewrite !sum_cons, sum_nil. fold c. repeat (apply (f_equal2 cons)); try reflexivity; field. }
    exists [1/2 - t - c; 1/2 + t - c; 0 - c]. split.
    + repeat constructor; apply Rabs_def1; lra.
    + rewrite simplex3_eq. cbn [nth]. rewrite <- E, skewed_back3 by exact HK. f_equal. change (z_add 0 (s32 0)) with 0%Z. f_equal.
      cbn [simplex3_taken]. cbv zeta. rewrite !Rfloor_0 by lra. rewrite Rleb_false, !Rleb_true by lra. reflexivity.
  - rewrite simplex3_eq. cbn [nth]. assert (E : back 3 kSkew3 [1/2; 1/2; 0] = [1/2 - c; 1/2 - c; 0 - c]).
    { unfold back. cbn [map]. rewrite !sum_cons, sum_nil. fold c. repeat (apply (f_equal2 cons)); try reflexivity; field. }
    rewrite <- E, skewed_back3 by exact HK. change (z_add 0 (s32 0)) with 0%Z.
    cbn [simplex3_taken]. cbv zeta. rewrite !Rfloor_0 by lra. rewrite !Rleb_true by lra.
    unfold sx3_vertices, M, bumps. cbn [map b2z andb orb negb]. rewrite !sum_cons.
    assert (A : forall v, bump kR06 (unskew 3) 0 [1/2; 1/2; 0] v = bump kR06 (unskew 3) 0 [1/2; 1/2; 0] v) by reflexivity. clear A.
    assert (B1 : bump kR06 (unskew 3) 0 [1/2; 1/2; 0] [1; 0; 0]%Z = 0).
    { unfold bump, perlin_corner. rewrite off3. replace (hash31 0 [1; 0; 0]%Z) with 366584256%Z by (vm_compute; reflexivity).
      change (common_grad 366584256) with ((1, 1, 0) : R * R * R). unfold dot3. field. }
    assert (B2 : bump kR06 (unskew 3) 0 [1/2; 1/2; 0] [0; 1; 0]%Z < 0).
    { unfold bump, perlin_corner, falloff. rewrite sqlen3, off3. replace (hash31 0 [0; 1; 0]%Z) with 784208225%Z by (vm_compute; reflexivity).
      change (common_grad 784208225) with ((-1, 1, 0) : R * R * R). unfold dot3. rewrite Rmax_right by (unfold Q3, kR06; lra).
      assert (0 < (kR06 - Q3 (1 / 2 - 0) (1 / 2 - 1) (0 - 0)) ^ 4) by (apply pow_lt; unfold Q3, kR06; lra). nra. }
    change (0 + 1)%Z with 1%Z. change (0 + 0)%Z with 0%Z. rewrite B1. pose proof (kSimplex_pos 3). unfold rescale. intros C.
    assert (bump kR06 (unskew 3) 0 [1 / 2; 1 / 2; 0] [0; 1; 0]%Z = 0); [|lra].
    set (b := bump kR06 (unskew 3) 0 [1 / 2; 1 / 2; 0] [0; 1; 0]%Z) in *.
    assert (Dv : forall p q : R, -1 + (1 - -1) * ((p + kSimplex 3) / (2 * kSimplex 3)) = -1 + (1 - -1) * ((q + kSimplex 3) / (2 * kSimplex 3)) -> p = q).
    { intros p q Hpq. apply Rplus_eq_reg_l, Rmult_eq_reg_l in Hpq; [|lra]. unfold Rdiv in Hpq. apply Rmult_eq_reg_r in Hpq; [lra|]. apply Rinv_neq_0_compat. lra. }
    apply Dv in C. lra.
Qed.

(** ** 4D *)
Definition kSkew4 : R := (sqrt 5 - 1) / 4.
Lemma kSkew4_pos : 0 < kSkew4.
Proof. unfold kSkew4. assert (1 < sqrt 5); [|lra]. rewrite <- sqrt_1 at 1. apply sqrt_lt_1; lra. Qed.
Lemma skewed_back4 : forall k x y z w, 1 + 4 * k <> 0 -> skewed k 1 (back 4 k [x; y; z; w]) = [x; y; z; w].
Proof.
  intros. unfold back. cbn [map]. rewrite skewed4, !sum_cons, sum_nil. cbv zeta. replace (INR 4) with 4 by (cbn; ring). repeat (apply (f_equal2 cons)); try reflexivity; field; auto.
Qed.
Definition gen4 (f : R -> R -> R -> R -> R) (pos : list R) : R := match pos with [x; y; z; w] => f x y z w | _ => 0 end.
Lemma rescale_inj : forall B p q, 0 < B -> rescale (-1) 1 B p = rescale (-1) 1 B q -> p = q.
Proof.
  intros B p q HB Hpq. unfold rescale in Hpq. apply Rplus_eq_reg_l, Rmult_eq_reg_l in Hpq; [|lra]. unfold Rdiv in Hpq. apply Rmult_eq_reg_r in Hpq; [lra|]. apply Rinv_neq_0_compat. lra.
Qed.
Theorem C61_simplex4_seam_refuted : exists ft so (freq lo hi : R) (seed : Z) (x y z w : R),
  ~ continuous_at (gen4 (SimplexGen4 (s:=S_) (W:=scalar) ft (sx4k_exact inf bits kSkew4 (3/5)) so freq (out_range inf bits lo hi) seed)) [x; y; z; w].
Proof.
  set (ft := {| avx512 := false; avx2 := true; x86 := true; sse41 := true; relaxed := false |}).
  pose proof kSkew4_pos as KP. assert (HK : 1 + 4 * kSkew4 <> 0) by lra.
  set (c := kSkew4 / (1 + INR 4 * kSkew4)).
  exists ft, 0%Z, 1, (-1), 1, 2%Z, (1/2 - c), (1/2 - c), (0 - c), (0 - c).
  set (M := [[0; 0; 0; 0]; [0; 1; 0; 0]; [1; 1; 0; 0]; [1; 1; 1; 0]; [1; 1; 1; 1]]%Z).
  apply (jump _ (fun pos => rescale (-1) 1 (kSimplex 4) (bumps (3/5) (unskew 4) 2 (skewed kSkew4 1 [nth 0 pos 0; nth 1 pos 0; nth 2 pos 0; nth 3 pos 0]) M))).
  - apply cont_rescale, bumps4_cont. intros v Hv. unfold M in Hv. cbn [In] in Hv. decompose [or] Hv; subst; reflexivity || contradiction.
  - intros d Hd. set (t := Rmin (d / 2) (1 / 4)). assert (0 < t /\ t < d /\ t <= 1/4) as (T1 & T2 & T3) by (unfold t, Rmin; destruct (Rle_dec _ _); lra).
    assert (E : back 4 kSkew4 [1/2 - t; 1/2 + t; 0; 0] = [1/2 - t - c; 1/2 + t - c; 0 - c; 0 - c]).
    { unfold back. cbn [map]. rewrite !sum_cons, sum_nil. fold c. repeat (apply (f_equal2 cons)); try reflexivity; field. }
    exists [1/2 - t - c; 1/2 + t - c; 0 - c; 0 - c]. split.
    + repeat constructor; apply Rabs_def1; lra.
    + unfold gen4. rewrite simplex4_eq. cbn [nth]. rewrite <- E, skewed_back4 by exact HK. f_equal. change (z_add 2 (s32 0)) with 2%Z. f_equal.
      cbn [simplex4_taken]. cbv zeta. rewrite !Rfloor_0 by lra. rewrite Rleb_false by lra. rewrite !Rleb_true by lra. reflexivity.
  - unfold gen4. rewrite simplex4_eq. cbn [nth]. assert (E : back 4 kSkew4 [1/2; 1/2; 0; 0] = [1/2 - c; 1/2 - c; 0 - c; 0 - c]).
    { unfold back. cbn [map]. rewrite !sum_cons, sum_nil. fold c. repeat (apply (f_equal2 cons)); try reflexivity; field. }
    rewrite <- E, skewed_back4 by exact HK. change (z_add 2 (s32 0)) with 2%Z.
    cbn [simplex4_taken]. cbv zeta. rewrite !Rfloor_0 by lra. rewrite !Rleb_true by lra.
    change (sx4_vertices 0 0 0 0 true true true true true true) with [[0; 0; 0; 0]; [1; 0; 0; 0]; [1; 1; 0; 0]; [1; 1; 1; 0]; [1; 1; 1; 1]]%Z.
    unfold M, bumps. cbn [map]. rewrite !sum_cons. intros C. apply rescale_inj in C; [|apply kSimplex_pos].
    assert (B1 : bump (3/5) (unskew 4) 2 [1/2; 1/2; 0; 0] [1; 0; 0; 0]%Z = (1/10) ^ 4).
    { unfold bump, perlin_corner, falloff. rewrite sqlen4, off4. replace (hash31 2 [1; 0; 0; 0]%Z) with 1508340409%Z by (vm_compute; reflexivity).
      change (perlin4_grad 1508340409) with ((-1, 1, 1, 0) : R * R * R * R). unfold dot4, Q4. rewrite Rmax_right by lra. field. }
    assert (B2 : bump (3/5) (unskew 4) 2 [1/2; 1/2; 0; 0] [0; 1; 0; 0]%Z = 0).
    { unfold bump, perlin_corner, falloff. rewrite sqlen4, off4. replace (hash31 2 [0; 1; 0; 0]%Z) with 1635820792%Z by (vm_compute; reflexivity).
      change (perlin4_grad 1635820792) with ((1, 1, 1, 0) : R * R * R * R). unfold dot4, Q4. field. }
    rewrite B1, B2 in C. assert (0 < (1/10) ^ 4) by (apply pow_lt; lra). lra.
Qed.

(** SuperSimplex 4D *)
Lemma near4_unique : forall N x y z w c, x + y + z + w = N -> (forall c', In c' cands -> c' <> c -> sc4 N x y z w c' < sc4 N x y z w c) -> In c cands -> near4 N x y z w = c.
Proof.
  intros N x y z w c E H I. destruct (near4_best N x y z w E) as (I' & B). destruct (Z.eq_dec (near4 N x y z w) c) as [|D]; auto. exfalso.
  specialize (H _ I' D). specialize (B _ I). lra.
Qed.
Lemma sqrt5_bounds : 2236/1000 < sqrt 5 < 2237/1000.
Proof.
  split.
  - rewrite <- (sqrt_pow2 (2236/1000)) by lra. apply sqrt_lt_1; lra.
  - rewrite <- (sqrt_pow2 (2237/1000)) by lra. apply sqrt_lt_1; lra.
Qed.
Lemma base_left : forall t, 0 < t <= 1/100 -> ss4_base [77/100 - t; 36/100; 36/100; 36/100] = [0; 0; 0; 0]%Z.
Proof.
  intros t T. rewrite ss4_base_eq. cbv zeta. rewrite !Rfloor_0 by lra.
  rewrite (near4_unique _ _ _ _ _ 0%Z); [reflexivity|field| |cbn; tauto].
  intros c I D. unfold cands in I. cbn [In] in I. decompose [or] I; try contradiction; subst c; try (exfalso; apply D; reflexivity); clear D I; sctac; lra.
Qed.
Lemma base_right : forall t, 0 < t <= 1/100 -> ss4_base [77/100 + t; 36/100; 36/100; 36/100] = [1; 0; 0; 0]%Z.
Proof.
  intros t T. rewrite ss4_base_eq. cbv zeta. rewrite !Rfloor_0 by lra.
  rewrite (near4_unique _ _ _ _ _ 1%Z); [reflexivity|field| |cbn; tauto].
  intros c I D. unfold cands in I. cbn [In] in I. decompose [or] I; try contradiction; subst c; try (exfalso; apply D; reflexivity); clear D I; sctac; lra.
Qed.
Definition v0 : list Z := [2; 1; 1; 1]%Z.
Lemma left_sum : forall t seed L, 0 < t <= 1/100 -> let qs := [77/100 - t; 36/100; 36/100; 36/100] in reaching (4/5) (unskew 4) qs L ->
  bumps (4/5) (unskew 4) seed qs (ss4_taken qs) = bumps (4/5) (unskew 4) seed qs L - bump (4/5) (unskew 4) seed qs v0.
Proof.
  intros t seed L T qs HL. unfold ss4_taken. pose proof (base_left t T) as E. fold qs in E. rewrite E. apply ss4_cell in E as C. clear E.
  pose proof (ss4_reaching 0 0 0 0 _ _ _ _ C) as RE. pose proof (ss4_miss 0 0 0 0 _ _ _ _ C) as MI. cbv zeta in RE, MI. unfold qs at 2. cbn [ss4_from]. cbv zeta.
  set (vs := ss4_vertices _ _ _ _ _ _ _ _ _ _ _ _ _ _ _ _ _ _ _) in *. fold qs in RE, MI.
  assert (M : missed4 0 0 0 0 (77/100 - t - 0) (36/100 - 0) (36/100 - 0) (36/100 - 0) = v0).
  { unfold missed4, v0. cbv zeta. rewrite (far_p (77/100 - t - 0 - _)) by lra. rewrite (far_m (- _)) by lra. rewrite !far_0 by lra. reflexivity. }
  rewrite M in MI.
  assert (NI : ~ In v0 vs). { unfold vs, v0, ss4_vertices. cbn [In]. intros I. assert (SG : forall b, (0 + sg b <> 2)%Z) by (intros []; discriminate).
    repeat destruct I as [I|I]; try contradiction; apply (f_equal (hd 0%Z)) in I; cbn [hd] in I; first [discriminate I | exact (SG _ I)]. }
  clearbody vs. destruct RE as (ND & LEN & RE).
  rewrite (bumps_reaching (4/5) _ seed qs L (v0 :: vs) HL); [unfold bumps; cbn [map]; rewrite sum_cons; ring|].
  split; [constructor; auto|split; [intros v [<-|H]; auto|]]. intros v Hv Dv. destruct (MI v Hv Dv) as [?| ->]; [right|left]; auto.
Qed.
Lemma right_sum : forall t seed L, 0 < t <= 1/100 -> let qs := [77/100 + t; 36/100; 36/100; 36/100] in reaching (4/5) (unskew 4) qs L ->
  bumps (4/5) (unskew 4) seed qs (ss4_taken qs) = bumps (4/5) (unskew 4) seed qs L.
Proof.
  intros t seed L T qs HL. unfold ss4_taken. pose proof (base_right t T) as E. fold qs in E. rewrite E. apply ss4_cell in E as C. clear E.
  pose proof (ss4_reaching 1 0 0 0 _ _ _ _ C) as RE. pose proof (ss4_miss 1 0 0 0 _ _ _ _ C) as MI. cbv zeta in RE, MI. unfold qs at 2. cbn [ss4_from]. cbv zeta.
  set (vs := ss4_vertices _ _ _ _ _ _ _ _ _ _ _ _ _ _ _ _ _ _ _) in *. fold qs in RE, MI.
  assert (M : missed4 1 0 0 0 (77/100 + t - 1) (36/100 - 0) (36/100 - 0) (36/100 - 0) = [0; 0; 0; 0]%Z).
  { unfold missed4. cbv zeta. rewrite (far_m (77/100 + t - 1 - _)) by lra. rewrite !far_0 by lra. reflexivity. }
  rewrite M in MI. clearbody vs. apply bumps_reaching; auto. destruct RE as (ND & LEN & RE). split; [auto|split; [auto|]].
  intros v Hv Dv. destruct (MI v Hv Dv) as [?| ->]; auto. apply RE; auto. unfold qs. rewrite sqlen4. unfold Q4. nra.
Qed.
Lemma small_t : forall r, 0 < r -> forall d, 0 < d -> exists t, 0 < t <= 1/100 /\ t < r /\ t < d.
Proof.
  intros r Hr d Hd. exists (Rmin (1/100) (Rmin (r/2) (d/2))).
  pose proof (Rmin_l (1/100) (Rmin (r/2) (d/2))). pose proof (Rmin_r (1/100) (Rmin (r/2) (d/2))). pose proof (Rmin_l (r/2) (d/2)). pose proof (Rmin_r (r/2) (d/2)).
  assert (0 < Rmin (1/100) (Rmin (r/2) (d/2))) by (repeat apply Rmin_pos; lra). repeat split; lra.
Qed.
Theorem C61_supersimplex4_seam_refuted : exists ft so (freq lo hi : R) (seed : Z) (x y z w : R),
  ~ continuous_at (gen4 (SuperSimplexGen4 (s:=S_) (W:=scalar) ft (ss4k_exact inf bits kSkew4) so freq (out_range inf bits lo hi) seed)) [x; y; z; w].
Proof.
  set (ft := {| avx512 := false; avx2 := true; x86 := true; sse41 := true; relaxed := false |}).
  pose proof kSkew4_pos as KP. assert (HK : 1 + 4 * kSkew4 <> 0) by lra.
  set (c := kSkew4 / (1 + INR 4 * kSkew4)). assert (Hc : 0 <= c <= 1/4).
  { unfold c. replace (INR 4) with 4 by (cbn; ring). split; [apply Rlt_le, Rdiv_lt_0_compat; lra|]. apply Rmult_le_reg_r with (1 + 4 * kSkew4); [lra|]. unfold Rdiv. rewrite Rmult_assoc, Rinv_l by lra. lra. }
  assert (E : forall t, back 4 kSkew4 [77/100 + t; 36/100; 36/100; 36/100] = [77/100 + t - c * (185/100 + t); 36/100 - c * (185/100 + t); 36/100 - c * (185/100 + t); 36/100 - c * (185/100 + t)]).
  { intros t. unfold back. cbn [map]. rewrite !sum_cons, sum_nil. fold c. repeat (apply (f_equal2 cons)); try reflexivity; field. }
  set (x0 := 77/100 - c * (185/100)). set (y0 := 36/100 - c * (185/100)).
  assert (E0 : [x0; y0; y0; y0] = back 4 kSkew4 [77/100; 36/100; 36/100; 36/100]).
  { unfold back. cbn [map]. rewrite !sum_cons, sum_nil. fold c. unfold x0, y0. repeat (apply (f_equal2 cons)); try reflexivity; field. }
  exists ft, 0%Z, 1, (-1), 1, 1%Z, x0, y0, y0, y0.
  destruct (local_vertices4 kSkew4 1 x0 y0 y0 y0) as (r & L & Hr & HL & HR).
  set (F := fun pos => bumps (4/5) (unskew 4) 1 (skewed kSkew4 1 [nth 0 pos 0; nth 1 pos 0; nth 2 pos 0; nth 3 pos 0]) L).
  set (G := fun pos => bumps (4/5) (unskew 4) 1 (skewed kSkew4 1 [nth 0 pos 0; nth 1 pos 0; nth 2 pos 0; nth 3 pos 0]) [v0]).
  set (K := 16 * kSuper 4). assert (HKp : 0 < K) by (unfold K; pose proof (kSuper_pos 4); lra).
  set (f := gen4 _).
  assert (CF : continuous_at F [x0; y0; y0; y0]) by exact (bumps4_cont (4/5) kSkew4 1 1%Z L x0 y0 y0 y0 HL).
  assert (CG : continuous_at G [x0; y0; y0; y0]) by (refine (bumps4_cont (4/5) kSkew4 1 1%Z [v0] x0 y0 y0 y0 _); intros v [<-|[]]; reflexivity).
  pose proof (small_t r Hr) as SM.
  assert (NR : forall d t, - d < t < d -> forall p, p = [77/100 + t - c * (185/100 + t); 36/100 - c * (185/100 + t); 36/100 - c * (185/100 + t); 36/100 - c * (185/100 + t)] -> near d [x0; y0; y0; y0] p).
  { intros d t Hd p ->. unfold x0, y0. assert (A : Rabs t < d) by (apply Rabs_def1; lra). pose proof (Rabs_pos t).
    repeat constructor.
    1: replace (77/100 + t - c * (185/100 + t) - (77/100 - c * (185/100))) with ((1 - c) * t) by ring; rewrite Rabs_mult, (Rabs_right (1 - c)) by lra; nra.
    all: replace (36/100 - c * (185/100 + t) - (36/100 - c * (185/100))) with (- (c * t)) by ring; rewrite Rabs_Ropp, Rabs_mult, (Rabs_right c) by lra; nra. }
  assert (RR : forall t, - r < t < r -> reaching (4/5) (unskew 4) [77/100 + t; 36/100; 36/100; 36/100] L).
  { intros t Ht. pose proof (NR r t Ht _ eq_refl) as N. rewrite <- (skewed_back4 kSkew4 (77/100 + t) (36/100) (36/100) (36/100) HK), E.
    apply near4l in N as (a & b & g & e & EQ & H1 & H2 & H3 & H4). injection EQ as -> -> -> ->. apply HR; auto. }
  destruct (Req_dec (rescale (-1) 1 K (F [x0; y0; y0; y0])) (f [x0; y0; y0; y0])) as [EQ|NE].
  - apply (jump _ (fun pos => rescale (-1) 1 K (F pos - G pos))).
    + apply cont_rescale, cont_minus; auto.
    + intros d Hd. destruct (SM d Hd) as (t & T & T2 & T3). eexists. split; [apply (NR d (- t) ltac:(lra)); reflexivity|].
      unfold f, gen4. rewrite supersimplex4_eq. fold K. change (z_add 1 (s32 0)) with 1%Z. f_equal. unfold F, G. cbn [nth].
      rewrite <- E, skewed_back4 by exact HK. replace (77/100 + - t) with (77/100 - t) by ring.
      rewrite (left_sum t 1 L T). 2: { replace (77/100 - t) with (77/100 + - t) by ring. apply RR; lra. }
      unfold bumps at 3. cbn [map]. rewrite sum_cons, sum_nil. ring.
    + rewrite <- EQ. intros C. apply rescale_inj in C; auto. unfold G in C. cbn [nth] in C. rewrite E0, skewed_back4 in C by exact HK.
      unfold bumps in C. cbn [map] in C. rewrite sum_cons, sum_nil in C. assert (B : bump (4/5) (unskew 4) 1 [77/100; 36/100; 36/100; 36/100] v0 < 0); [|lra].
      unfold bump, perlin_corner, falloff, v0. rewrite sqlen4, off4. replace (hash31 1 [2; 1; 1; 1]%Z) with 687323360%Z by (vm_compute; reflexivity).
      change (perlin4_grad 687323360) with ((0, 1, 1, 1) : R * R * R * R). unfold dot4, Q4. rewrite Rmax_right by lra.
      match goal with |- ?a ^ 4 * _ < 0 => assert (0 < a ^ 4) by (apply pow_lt; lra) end.
      assert (U : -139/1000 < unskew 4 < -138/1000). { cbn [unskew]. pose proof sqrt5_bounds. assert (I : / (sqrt 5 + 5) * (sqrt 5 + 5) = 1) by (apply Rinv_l; lra). unfold Rdiv. split; nra. }
      set (u := unskew 4) in *. clearbody u. match goal with |- ?a * ?b < 0 => assert (b < 0) by lra; nra end.
  - apply (jump _ (fun pos => rescale (-1) 1 K (F pos))); auto.
    + apply cont_rescale; auto.
    + intros d Hd. destruct (SM d Hd) as (t & T & T2 & T3). eexists. split; [apply (NR d t ltac:(lra)); reflexivity|].
      unfold f, gen4. rewrite supersimplex4_eq. fold K. change (z_add 1 (s32 0)) with 1%Z. f_equal. unfold F. cbn [nth].
      rewrite <- E, skewed_back4 by exact HK. rewrite (right_sum t 1 L T); auto. apply RR; lra.
Qed.

(** ** At the lattice vertices the noise is neutral *)
Lemma reaching_vertex4 : forall a b c d, reaching (4/5) (unskew 4) [IZR a; IZR b; IZR c; IZR d] [[a; b; c; d]].
Proof.
  intros a b c d. split; [repeat constructor; auto|]. split; [intros v [<-|[]]; reflexivity|].
  intros [|a' [|b' [|c' [|d' [|? ?]]]]] L D; try discriminate L. rewrite sqlen4, <- !minus_IZR in D. left.
  set (p := (a - a')%Z) in *. set (q := (b - b')%Z) in *. set (r := (c - c')%Z) in *. set (t := (d - d')%Z) in *.
  assert (E : p = 0%Z /\ q = 0%Z /\ r = 0%Z /\ t = 0%Z).
  { assert (Q : (p * p + q * q + r * r + t * t + (p - q) * (p - q) + (p - r) * (p - r) + (p - t) * (p - t) + (q - r) * (q - r) + (q - t) * (q - t) + (r - t) * (r - t) < 4)%Z).
    { apply lt_IZR. unfold Q4 in D. rewrite !plus_IZR, !mult_IZR, !minus_IZR. lra. }
    assert (S : forall n : Z, (0 <= n * n)%Z) by (intros; nia).
    assert (Cp : p = 0%Z \/ (1 <= p * p)%Z) by nia. assert (Cq : q = 0%Z \/ (1 <= q * q)%Z) by nia. assert (Cr : r = 0%Z \/ (1 <= r * r)%Z) by nia. assert (Ct : t = 0%Z \/ (1 <= t * t)%Z) by nia.
    pose proof (S p). pose proof (S q). pose proof (S r). pose proof (S t). pose proof (S (p - q)%Z). pose proof (S (p - r)%Z). pose proof (S (q - r)%Z). pose proof (S (p - t)%Z). pose proof (S (q - t)%Z). pose proof (S (r - t)%Z).
    clearbody p q r t. destruct Cp as [->|Cp], Cq as [->|Cq], Cr as [->|Cr], Ct as [->|Ct]; try lia; exfalso; rewrite ?Z.sub_0_r, ?Z.sub_0_l, ?Z.mul_opp_opp in *; lia. }
  unfold p, q, r, t in E. repeat f_equal; lia.
Qed.
Lemma all_zero : forall r2 u seed qs vs, (forall v, In v vs -> bump r2 u seed qs v = 0) -> bumps r2 u seed qs vs = 0.
Proof. intros r2 u seed qs vs. unfold bumps. induction vs as [|v vs IH]; intros H; cbn [map]; [apply sum_nil|]. rewrite sum_cons, IH, (H v); [ring|left; auto|intros; apply H; right; auto]. Qed.
Lemma zero_at_vertex : forall r2 u seed qs v0 vs, reaching r2 u qs [v0] -> bumps r2 u seed qs [v0] = 0 -> bumps r2 u seed qs vs = 0 \/ exists v, In v vs /\ length v <> length qs.
Proof.
  intros r2 u seed qs w vs (_ & _ & R) Z. destruct (in_dec Bool.bool_dec false (map (fun v => Nat.eqb (length v) (length qs)) vs)) as [I|N].
  { right. apply in_map_iff in I as (v & E & I). exists v. split; auto. apply Nat.eqb_neq; auto. }
  left. apply all_zero. intros v Hv. destruct (Rlt_le_dec (sqlen (offset u qs v)) r2) as [D|D].
  - destruct (Nat.eq_dec (length v) (length qs)) as [E|E]; [|exfalso; apply N, in_map_iff; exists v; split; auto; apply Nat.eqb_neq; auto].
    destruct (R v E D) as [<-|[]]. unfold bumps in Z. cbn [map] in Z. rewrite sum_cons, sum_nil in Z. lra.
  - apply bump_out. auto.
Qed.
Lemma bump_vertex4 : forall r2 seed a b c d, bumps r2 (unskew 4) seed [IZR a; IZR b; IZR c; IZR d] [[a; b; c; d]] = 0.
Proof.
  intros. unfold bumps, bump, offset. cbn [map offs perlin_corner]. rewrite !sum_cons, !sum_nil, !Rminus_diag_eq, !Rplus_0_r, !Rmult_0_r, !Rplus_0_r by reflexivity.
  unfold dot4. destruct (perlin4_grad _) as [[[? ?] ?] ?]. ring.
Qed.
Lemma reaching_le : forall r2 r2' u qs L, r2 <= r2' -> reaching r2' u qs L -> reaching r2 u qs L.
Proof. intros r2 r2' u qs L H (A & B & C). split; [auto|split; [auto|]]. intros v Hv D. apply C; auto. lra. Qed.
Theorem C60_vertices_neutral : forall ft so (freq lo hi : R) (seed : Z) (a b c : Z) (x y z : R), skewed kSkew3 freq [x; y; z] = [IZR a; IZR b; IZR c] ->
  SimplexGen (s:=S_) (W:=scalar) ft so freq (out_range inf bits lo hi) seed [x; y; z] = (lo + hi) / 2.
Proof.
  intros ft so freq lo hi seed a b c x y z E. destruct (C60_simplex3 inf bits ft so freq lo hi seed x y z) as (vs & (_ & L & _) & ->).
  rewrite E in *. assert (H : kR06 <= 3/4) by (unfold kR06; lra).
  destruct (zero_at_vertex kR06 (unskew 3) (z_add seed (s32 so)) [IZR a; IZR b; IZR c] [a; b; c] vs (reaching_vertex3 kR06 a b c H) (bump_vertex3 _ _ _ _ _)) as [->|(v & I & D)]; [apply rescale_mid, kSimplex_pos|exfalso; apply D, L, I].
Qed.
Theorem C60_vertices_neutral4 : forall ft so (k freq lo hi : R) (seed : Z) (a b c d : Z) (x y z w : R), skewed k freq [x; y; z; w] = [IZR a; IZR b; IZR c; IZR d] ->
  (forall r, r <= 4/5 -> SimplexGen4 (s:=S_) (W:=scalar) ft (sx4k_exact inf bits k r) so freq (out_range inf bits lo hi) seed x y z w = (lo + hi) / 2) /\
  SuperSimplexGen4 (s:=S_) (W:=scalar) ft (ss4k_exact inf bits k) so freq (out_range inf bits lo hi) seed x y z w = (lo + hi) / 2.
Proof.
  intros ft so k freq lo hi seed a b c d x y z w E. split.
  - intros r Hr. destruct (C60_simplex4 inf bits ft so k r freq lo hi seed x y z w) as (vs & (_ & L & _) & ->). rewrite E in *.
    destruct (zero_at_vertex r (unskew 4) (z_add seed (s32 so)) _ [a; b; c; d] vs (reaching_le _ _ _ _ _ Hr (reaching_vertex4 a b c d)) (bump_vertex4 _ _ _ _ _ _)) as [->|(v & I & D)]; [apply rescale_mid, kSimplex_pos|exfalso; apply D, L, I].
  - destruct (C60_supersimplex4 inf bits ft so k freq lo hi seed x y z w) as (vs & (_ & L & _) & ->). rewrite E in *.
    destruct (zero_at_vertex (4/5) (unskew 4) (z_add seed (s32 so)) _ [a; b; c; d] vs (reaching_vertex4 a b c d) (bump_vertex4 _ _ _ _ _ _)) as [->|(v & I & D)]; [apply rescale_mid; pose proof (kSuper_pos 4); lra|exfalso; apply D, L, I].
Qed.
End J.
Print Assumptions C61_supersimplex4_seam_refuted.
Print Assumptions C60_vertices_neutral4.
