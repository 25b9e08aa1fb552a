(** C62 (whole nodes), C64 and C65: the displacement of DomainWarpSimplex and DomainWarpSuperSimplex. Real
    arithmetic, one lane. *)
From Coq Require Import Reals ZArith List Bool Lia Lra Psatz.
From Verif Require Import Prelude Simd_Model Utils_Model Nodes_Model Setters_Model Simplex_Model Warp_Model SimplexWarp_Model Simd_R Bits P_Hash P_Grad P_Blend P_Modifiers P_Lattice Lattice
  P_Warp Simplex_Spec Simplex_Geom Simplex_2D P_Simplex Simplex_3D P_Simplex3 SimplexWarp_Spec P_SimplexWarpOuter P_SimplexWarpOuter4 P_SimplexWarpOrtho.
Import ListNotations.
Open Scope R_scope.

(** ** Specification *)
(** the vector a lattice vertex with hash [h] makes of the offset [os] of the position *)
Definition turned (scheme : VectorizationScheme) (h : Z) (os : list R) : list R :=
  match scheme, os with
  | GradientOuterProduct, [x; y] => let d := dot2 (simplex2_grad h) x y in [d * fst (outer2_vec h); d * snd (outer2_vec h)]
  | OrthogonalGradientMatrix, [x; y] => [dot2 (fst (ortho2_rows h)) x y; dot2 (snd (ortho2_rows h)) x y]
  | GradientOuterProduct, [x; y; z] => let d := dot3 (warp3_grad h) x y z in let '(a, b, c) := outer3_vec h in [d * a; d * b; d * c]
  | OrthogonalGradientMatrix, [x; y; z] => let '(a, b, c) := ortho3_rows h in [dot3 a x y z; dot3 b x y z; dot3 c x y z]
  | GradientOuterProduct, [x; y; z; w] => let e := dot4 (simplex4_grad h) x y z w in let '(a, b, c, d) := outer4_vec h in [e * a; e * b; e * c; e * d]
  | _, _ => []
  end.
(** component [i] of the sum of the vectors of the vertices [L], each fading out with the distance *)
Definition push (scheme : VectorizationScheme) (r2 u : R) (seed : Z) (qs : list R) (i : nat) (v : list Z) : R :=
  falloff r2 (offset u qs v) * nth i (turned scheme (hash31 seed v) (offset u qs v)) 0.
Definition pushes (scheme : VectorizationScheme) (r2 u : R) (seed : Z) (qs : list R) (L : list (list Z)) (i : nat) : R :=
  sum (map (push scheme r2 u seed qs i) L).
(** The schemes and dimensions with one matrix for all SIMD levels *)
Definition uniform (scheme : VectorizationScheme) (d : nat) : Prop := scheme = GradientOuterProduct \/ (d <= 3)%nat.

Section P.
Variable inf : R.
Variable bits : R -> Z.
Notation S_ := (Rops inf bits).

Lemma hash_range : forall (seed : Z) (p : list Z), (0 <= HashPrimes (W:=scalar) seed p < 2^31)%Z.
Proof.
  intros. unfold HashPrimes, slet. sunf. unfold z_shr. apply xorshift_range. unfold z_mul. apply in32_s32.
Qed.
Lemma apply_eq : forall ft scheme (seed : Z) (c : contrib S_ scalar) (value : list R),
  uniform scheme (length (cd c)) -> (2 <= length (cd c) <= 4)%nat -> length value = length (cd c) ->
  ApplyVectorContribution (s:=S_) (W:=scalar) ft scheme seed c value =
  map (fun i => nth i value 0 + cf c * nth i (turned scheme (HashPrimes (W:=scalar) seed (cp c)) (cd c)) 0) (seq 0 (length value)).
Proof.
  intros ft scheme seed [p d f] value HU Hd Hl. cbn [cp cd cf] in *. pose proof (hash_range seed p) as HR.
  unfold ApplyVectorContribution. cbn [cp cd cf]. set (h := HashPrimes (W:=scalar) seed p) in *. change (list (F S_ scalar)) with (list R) in d.
  destruct d as [|x [|y [|z [|w [|? ?]]]]]; cbn [length] in Hd; try lia;
    destruct value as [|a [|b [|c [|e [|? ?]]]]]; cbn [length] in Hl; try discriminate Hl; destruct scheme; cbn [length seq map nth turned].
  - rewrite C62_ortho2 by exact HR. cbn [nth]. reflexivity.
  - rewrite C62_outer2 by exact HR. cbn [nth]. repeat (apply (f_equal2 cons)); try reflexivity; toR; ring.
  - rewrite C62_ortho3 by exact HR. destruct (ortho3_rows h) as [[r0 r1] r2]. cbn [nth]. reflexivity.
  - rewrite C62_outer3 by exact HR. cbv zeta. destruct (outer3_vec h) as [[r0 r1] r2]. cbn [nth]. repeat (apply (f_equal2 cons)); try reflexivity; toR; ring.
  - destruct HU as [HU|HU]; [discriminate HU|cbn [length] in HU; lia].
  - rewrite C62_outer4 by exact HR. cbv zeta. destruct (outer4_vec h) as [[[r0 r1] r2] r3]. cbn [nth]. repeat (apply (f_equal2 cons)); try reflexivity; toR; ring.
Qed.
Lemma apply_length : forall ft scheme (seed : Z) (c : contrib S_ scalar) (value : list R), length (ApplyVectorContribution (s:=S_) (W:=scalar) ft scheme seed c value) = length value.
Proof.
  intros ft scheme seed [p d f] value. unfold ApplyVectorContribution. cbn [cp cd cf].
  destruct d as [|x [|y [|z [|w [|? ?]]]]]; destruct value as [|a [|b [|c [|e [|? ?]]]]]; try reflexivity; destruct scheme;
    repeat match goal with |- context [let '(_, _) := ?t in _] => destruct t end; reflexivity.
Qed.

(** ** C62: every SIMD level *)
Lemma vector_sum_level : forall ft ft' scheme seed d (l : list (contrib S_ scalar)), uniform scheme d -> (2 <= d <= 4)%nat ->
  vector_sum (s:=S_) (W:=scalar) ft scheme seed d l = vector_sum (s:=S_) (W:=scalar) ft' scheme seed d l.
Proof.
  intros ft ft' scheme seed d l HU Hd. unfold vector_sum.
  assert (H0 : length (repeat (num (s:=S_) (W:=scalar) 0) d) = d) by apply repeat_length. revert H0.
  generalize (repeat (num (s:=S_) (W:=scalar) 0) d). induction l as [|c l IH]; intros acc Hl; [reflexivity|]. cbn [fold_left].
  assert (E : ApplyVectorContribution (s:=S_) (W:=scalar) ft scheme seed c acc = ApplyVectorContribution (s:=S_) (W:=scalar) ft' scheme seed c acc).
  { destruct (Nat.eq_dec (length (cd c)) d) as [Ed|Ed].
    - pose proof (apply_eq ft scheme seed c acc) as A. pose proof (apply_eq ft' scheme seed c acc) as A'. rewrite Ed in A, A'.
      exact (eq_trans (A HU Hd Hl) (eq_sym (A' HU Hd Hl))).
    - unfold ApplyVectorContribution. rewrite <- Hl in Ed. destruct (cd c) as [|x [|y [|z [|w [|? ?]]]]]; try reflexivity;
        destruct acc as [|a [|b [|? [|? [|? ?]]]]]; try reflexivity; exfalso; apply Ed; reflexivity. }
  change (list (F S_ scalar)) with (list R). rewrite E. apply IH. rewrite apply_length. exact Hl.
Qed.
Theorem C62_simplex_warps_agree : forall ft ft' scheme so axis seed amp pos out, uniform scheme (length pos) ->
  SimplexWarp (s:=S_) (W:=scalar) ft scheme so axis seed amp pos out = SimplexWarp (s:=S_) (W:=scalar) ft' scheme so axis seed amp pos out /\
  SuperSimplexWarp (s:=S_) (W:=scalar) ft scheme axis seed amp pos out = SuperSimplexWarp (s:=S_) (W:=scalar) ft' scheme axis seed amp pos out.
Proof.
  intros ft ft' scheme so axis seed amp pos out HU. unfold SimplexWarp, SuperSimplexWarp, SimplexWarpK, SuperSimplexWarpK, slet.
  destruct pos as [|x [|y [|z [|w [|? ?]]]]]; cbn [length] in HU; split; try reflexivity;
    rewrite (vector_sum_level ft ft') by (try exact HU; lia); reflexivity.
Qed.

(** ** C64: the orientation of the 3D outer product vectors *)
Lemma kRS : (@kReflectSimplex S_ : R) = -1. Proof. unfold kReflectSimplex, cm1. cbn [lit Rops]. rewrite pow2_0. lra. Qed.
Lemma kRSS : (@kReflectSuper S_ : R) = - (11184811 / 16777216).
Proof. unfold kReflectSuper. cbn [lit Rops]. change (-24)%Z with (- (24))%Z. rewrite (pow2_neg 24) by lia. change (IZR (2^24)) with 16777216. lra. Qed.
Lemma reflect3_eq : forall k vx vy vz : R, reflect3 (s:=S_) (W:=scalar) k [vx; vy; vz] = [vx + k * (vx + vy + vz); vy + k * (vx + vy + vz); vz + k * (vx + vy + vz)].
Proof. intros. unfold reflect3, slet. sunf. reflexivity. Qed.
(** SuperSimplex: a reflection, up to the rounding of 2/3 *)
Theorem C64_supersimplex_keeps_length : forall v : list R, length v = 3%nat ->
  Rabs (sumsq (reflect3 (s:=S_) (W:=scalar) kReflectSuper v) - sumsq v) <= / 2^20 * sumsq v.
Proof.
  intros [|vx [|vy [|vz [|? ?]]]] H; try discriminate H. rewrite reflect3_eq, kRSS.
  assert (E20 : / 2^20 = / 1048576) by (f_equal; ring). rewrite E20. unfold sumsq. cbn [fold_right].
  pose proof (Rle_0_sqr (vx - vy)). pose proof (Rle_0_sqr (vy - vz)). pose proof (Rle_0_sqr (vx - vz)).
  pose proof (Rle_0_sqr vx). pose proof (Rle_0_sqr vy). pose proof (Rle_0_sqr vz). pose proof (Rle_0_sqr (vx + vy + vz)). unfold Rsqr in *.
  apply Rabs_le. split; nra.
Qed.
(** Simplex: the constant is -1 where it should be -2/3: a vector along the diagonal gets twice as long *)
Theorem C64_simplex_keeps_length_refuted : exists v : list R, length v = 3%nat /\ 0 < sumsq v /\
  sumsq (reflect3 (s:=S_) (W:=scalar) kReflectSimplex v) = 4 * sumsq v.
Proof. exists [1; 1; 1]. split; [reflexivity|]. rewrite reflect3_eq, kRS. unfold sumsq. cbn [fold_right]. split; lra. Qed.

(** ** C65: the displacement *)
Definition ones : list R := [1; 1; 1; 1].
Lemma vector_sum_length : forall ft scheme seed d (l : list (contrib S_ scalar)), length (vector_sum (s:=S_) (W:=scalar) ft scheme seed d l) = d.
Proof.
  intros ft scheme seed d l. unfold vector_sum. rewrite <- (repeat_length (num (s:=S_) (W:=scalar) 0) d) at 2.
  generalize (repeat (num (s:=S_) (W:=scalar) 0) d). induction l as [|c l IH]; intros acc; [reflexivity|]. cbn [fold_left]. rewrite IH. apply apply_length.
Qed.
Lemma reflected_length : forall scheme k (v : list R), length (reflected (s:=S_) (W:=scalar) scheme k v) = length v.
Proof. intros [] k v; [reflexivity|]. unfold reflected, reflect3, slet. destruct v as [|? [|? [|? [|? ?]]]]; reflexivity. Qed.
(** the direction: the summed vector times the bounding constant and the axis scale *)
Definition scaled (B : R) (axis value : list R) : list R := map (fun i => B * nth i axis 0 * nth i value 0) (seq 0 (length value)).
Lemma warp_tail_eq : forall (B : R) (axis : list R) (a : R) (value out : list R), (2 <= length value <= 4)%nat -> length axis = 4%nat -> length out = length value ->
  warp_tail (s:=S_) (W:=scalar) B (firstn (length value) axis) a value out = (sumsq (scaled B axis value), moved a ones (scaled B axis value) out).
Proof.
  intros B axis a value out Hv Ha Ho. destruct axis as [|a0 [|a1 [|a2 [|a3 [|? ?]]]]]; try discriminate Ha.
  destruct value as [|v0 [|v1 [|v2 [|v3 [|? ?]]]]]; cbn [length] in Hv; try lia;
    destruct out as [|o0 [|o1 [|o2 [|o3 [|? ?]]]]]; cbn [length] in Ho; try discriminate Ho;
    unfold warp_tail, scaled, moved, sumsq, ones; cbn [length firstn combine map fold_left seq nth fold_right]; sunf;
    (apply (f_equal2 pair); [toR; ring|repeat (apply (f_equal2 cons)); try reflexivity; toR; ring]).
Qed.
Lemma scaled_length : forall B axis value, length (scaled B axis value) = length value.
Proof. intros. unfold scaled. rewrite map_length, seq_length. reflexivity. Qed.
Lemma moved_unit : forall ds : list R, (length ds <= 4)%nat -> moved 1 ones ds (map (fun _ => 0) ds) = ds.
Proof.
  intros [|d0 [|d1 [|d2 [|d3 [|? ?]]]]] H; cbn [length] in H; try lia; unfold moved, ones; cbn [length map seq nth]; repeat (apply (f_equal2 cons)); try reflexivity; ring.
Qed.
(** The displacement is the amplitude times the displacement at amplitude 1, which depends on the seed and the
    scaled position only; the returned strength is its squared length. *)
Definition unit_warp (warp : warp_fn S_ scalar) (seed : Z) (zs : list R) : list R := snd (warp seed 1 zs (map (fun _ => 0) zs)).
Lemma tail_is_warp : forall (warp : warp_fn S_ scalar) (value : Z -> list R -> list R) (B : nat -> R) axis, length axis = 4%nat ->
  (forall seed zs, dims zs -> length (value seed zs) = length zs) ->
  (forall seed (a : R) (zs out : list R), dims zs -> warp seed a zs out = warp_tail (s:=S_) (W:=scalar) (B (length zs)) (firstn (length zs) axis) a (value seed zs) out) ->
  is_warp inf bits ones (unit_warp warp) warp.
Proof.
  intros warp value B axis Ha Hl Hw seed a zs out Hd Ho. pose proof (Hl seed zs Hd) as L. unfold dims in Hd.
  assert (E : forall a out, length out = length zs -> warp seed a zs out = (sumsq (scaled (B (length zs)) axis (value seed zs)), moved a ones (scaled (B (length zs)) axis (value seed zs)) out)).
  { intros a' out' Ho'. rewrite Hw by exact Hd. rewrite <- L at 2. apply warp_tail_eq; [lia|exact Ha|exact (eq_trans Ho' (eq_sym L))]. }
  assert (U : unit_warp warp seed zs = scaled (B (length zs)) axis (value seed zs)).
  { unfold unit_warp. rewrite E by apply map_length. cbn [snd].
    assert (map (fun _ : R => 0) zs = map (fun _ : R => 0) (scaled (B (length zs)) axis (value seed zs))) as ->.
    { pose proof (scaled_length (B (length zs)) axis (value seed zs)) as K. rewrite L in K.
      generalize dependent (scaled (B (length zs)) axis (value seed zs)). intros l _ K. clear - K. revert l K. induction zs; intros [|? ?] K; try discriminate K; [reflexivity|]. cbn [map]. f_equal. apply IHzs. auto. }
    apply moved_unit. rewrite scaled_length. lia. }
  rewrite U. apply E. exact Ho.
Qed.
Theorem C65_simplex_is_warp : forall ft K scheme so axis, length axis = 4%nat ->
  let warp := SimplexWarpK (s:=S_) (W:=scalar) ft K scheme so axis in is_warp inf bits ones (unit_warp warp) warp.
Proof.
  intros ft K scheme so axis Ha warp.
  apply (tail_is_warp warp (fun seed zs => match zs with
    | [x; y] => vector_sum (s:=S_) (W:=scalar) ft scheme (z_add seed (s32 so)) 2 (simplex2 (s:=S_) (W:=scalar) (sw2 K) x y)
    | [x; y; z] => reflected (s:=S_) (W:=scalar) scheme kReflectSimplex (vector_sum (s:=S_) (W:=scalar) ft scheme (z_add seed (s32 so)) 3 (simplex3 (s:=S_) (W:=scalar) (sw3 K) x y z))
    | [x; y; z; w] => vector_sum (s:=S_) (W:=scalar) ft scheme (z_add seed (s32 so)) 4 (simplex4 (s:=S_) (W:=scalar) (sw4 K) x y z w)
    | _ => [] end) (kBoundWarp (s:=S_) scheme) axis Ha).
  - intros seed zs Hd. unfold dims in Hd. destruct zs as [|x [|y [|z [|w [|? ?]]]]]; cbn [length] in *; try lia;
      rewrite ?reflected_length, ?vector_sum_length; reflexivity.
  - intros seed a zs out Hd. unfold dims in Hd. destruct zs as [|x [|y [|z [|w [|? ?]]]]]; cbn [length] in *; try lia; reflexivity.
Qed.
Theorem C65_supersimplex_is_warp : forall ft K scheme axis, length axis = 4%nat ->
  let warp := SuperSimplexWarpK (s:=S_) (W:=scalar) ft K scheme axis in is_warp inf bits ones (unit_warp warp) warp.
Proof.
  intros ft K scheme axis Ha warp.
  apply (tail_is_warp warp (fun seed zs => match zs with
    | [x; y] => vector_sum (s:=S_) (W:=scalar) ft scheme seed 2 (supersimplex2 (s:=S_) (W:=scalar) (sws2 K) x y)
    | [x; y; z] => reflected (s:=S_) (W:=scalar) scheme kReflectSuper (vector_sum (s:=S_) (W:=scalar) ft scheme seed 3 (supersimplex3 (s:=S_) (W:=scalar) (sws3 K) x y z))
    | [x; y; z; w] => vector_sum (s:=S_) (W:=scalar) ft scheme seed 4 (supersimplex4 (s:=S_) (W:=scalar) (sws4 K) x y z w)
    | _ => [] end) (kBoundWarpSuper (s:=S_) scheme) axis Ha).
  - intros seed zs Hd. unfold dims in Hd. destruct zs as [|x [|y [|z [|w [|? ?]]]]]; cbn [length] in *; try lia;
      rewrite ?reflected_length, ?vector_sum_length; reflexivity.
  - intros seed a zs out Hd. unfold dims in Hd. destruct zs as [|x [|y [|z [|w [|? ?]]]]]; cbn [length] in *; try lia; reflexivity.
Qed.

(** *** The sum over all vertices in reach *)
Lemma nth_mapseq : forall n (f : nat -> R) i, (i < n)%nat -> nth i (map f (seq 0 n)) 0 = f i.
Proof. intros n f i H. rewrite (nth_indep _ 0 (f 0%nat)) by (rewrite map_length, seq_length; auto). rewrite map_nth, seq_nth by auto. reflexivity. Qed.
Lemma offset_length : forall u qs v, length v = length qs -> length (offset u qs v) = length qs.
Proof.
  intros u qs v H. unfold offset. rewrite map_length. revert v H. induction qs as [|q qs IH]; intros [|a v] H; try discriminate; auto. cbn [offs length]. f_equal. apply IH. auto.
Qed.
Lemma vector_sum_eq : forall ft scheme (seed : Z) (u : R) qs (g : list Z -> R) (cs : list (contrib S_ scalar)) vs,
  uniform scheme (length qs) -> (2 <= length qs <= 4)%nat ->
  Forall2 (fun (c : contrib S_ scalar) (v : list Z) => cp c = primed PrimesLookup v /\ (cd c : list R) = offset u qs v /\ (cf c : R) = g v) cs vs ->
  (forall v, In v vs -> length v = length qs) ->
  vector_sum (s:=S_) (W:=scalar) ft scheme seed (length qs) cs =
  map (fun i => sum (map (fun v => g v * nth i (turned scheme (hash31 seed v) (offset u qs v)) 0) vs)) (seq 0 (length qs)).
Proof.
  intros ft scheme seed u qs g cs vs HU Hq H Hl. unfold vector_sum.
  transitivity (map (fun i => nth i (repeat (num (s:=S_) (W:=scalar) 0) (length qs)) 0 + sum (map (fun v => g v * nth i (turned scheme (hash31 seed v) (offset u qs v)) 0) vs)) (seq 0 (length qs))).
  2:{ apply map_ext_in. intros i Hi. apply in_seq in Hi.  assert (N : forall n j, nth j (repeat (num (s:=S_) (W:=scalar) 0) n) 0 = 0).
      { induction n as [|n IH]; intros [|j]; cbn [repeat nth]; try reflexivity; [sunf; rlit; reflexivity|apply IH]. }
      rewrite N. toR. ring. }
  assert (H0 : length (repeat (num (s:=S_) (W:=scalar) 0) (length qs)) = length qs) by apply repeat_length. revert H0.
  generalize (repeat (num (s:=S_) (W:=scalar) 0) (length qs)). induction H as [|c v cs vs Hc H IH]; intros acc HA; cbn [fold_left map].
  - change (list (F S_ scalar)) with (list R) in acc. apply (nth_ext _ _ 0 0).
    + rewrite map_length, seq_length. exact HA.
    + intros i Hi. assert (Hi' : (i < length qs)%nat) by (exact (eq_ind _ (fun n => (i < n)%nat) Hi _ HA)). rewrite nth_mapseq by exact Hi'. rewrite sum_nil. exact (eq_sym (Rplus_0_r (nth i acc 0))).
  - destruct Hc as (Hp & Ho & Hf). assert (Lv : length v = length qs) by (apply Hl; left; auto).
    assert (Lc : length (cd c) = length qs).
    { transitivity (length (offset u qs v)); [f_equal; exact Ho|apply offset_length; auto]. }
    refine (eq_trans (IH _ _ _) _); [intros; apply Hl; right; auto|rewrite apply_length; exact HA|].
    apply map_ext_in. intros i Hi. apply in_seq in Hi.
    pose proof (apply_eq ft scheme seed c acc) as A. rewrite Lc in A. specialize (A HU Hq HA).
    assert (A' : nth i (ApplyVectorContribution (s:=S_) (W:=scalar) ft scheme seed c acc : list R) 0 =
                 nth i (acc : list R) 0 + g v * nth i (turned scheme (hash31 seed v) (offset u qs v)) 0).
    { refine (eq_trans (f_equal (fun l : list R => nth i l 0) A) _).
      refine (eq_trans (nth_mapseq (length acc) _ i _) _); [exact (eq_ind _ (fun n => (i < n)%nat) (proj2 Hi) _ (eq_sym HA))|].
      f_equal. refine (f_equal2 Rmult Hf _). rewrite Hp. unfold hash31. exact (f_equal (fun l : list R => nth i (turned scheme (HashPrimes (W:=scalar) seed (primed PrimesLookup v)) l) 0) Ho). }
    rewrite sum_cons. refine (eq_trans (f_equal2 Rplus A' eq_refl) _). apply Rplus_assoc.
Qed.
Lemma push_reaching : forall scheme r2 u seed qs L M i, reaching r2 u qs L -> reaching r2 u qs M -> pushes scheme r2 u seed qs L i = pushes scheme r2 u seed qs M i.
Proof.
  intros scheme r2 u seed qs L M i (NL & HL & CL) (NM & HM & CM). unfold pushes. apply (sum_support vdec); auto.
  intros v Hv. destruct (Rlt_le_dec (sqlen (offset u qs v)) r2) as [D|D]; [|exfalso; apply Hv; unfold push; rewrite falloff_out by auto; ring].
  split; intros; [apply CM|apply CL]; auto.
Qed.
(** kBounding *)
Definition bound (super : bool) (scheme : VectorizationScheme) (d : nat) : R :=
  if super then kBoundWarpSuper (s:=S_) scheme d else kBoundWarp (s:=S_) scheme d.
Lemma tail_sum : forall (B : R) (axis : list R) (a : R) (value out : list R) (p : nat -> R) d, (2 <= d <= 4)%nat -> length axis = 4%nat -> length out = d ->
  value = map p (seq 0 d) ->
  snd (warp_tail (s:=S_) (W:=scalar) B (firstn d axis) a value out) = map (fun i => nth i out 0 + a * (nth i axis 0 * (B * p i))) (seq 0 d).
Proof.
  intros B axis a value out p d Hd Ha Ho ->. assert (L : length (map p (seq 0 d)) = d) by (rewrite map_length, seq_length; reflexivity).
  rewrite <- L at 1. rewrite warp_tail_eq; [|lia|exact Ha|congruence]. cbn [snd]. unfold moved, scaled. rewrite Ho, L.
  apply map_ext_in. intros i Hi. apply in_seq in Hi. rewrite !nth_mapseq by lia.
  assert (nth i ones 0 = 1) as ->. { unfold ones. assert (i = 0 \/ i = 1 \/ i = 2 \/ i = 3)%nat as [->|[->|[->| ->]]] by lia; reflexivity. }
  ring.
Qed.
Lemma sum2 : forall k (x y : R), skew k [x; y] = [x + k * (x + y); y + k * (x + y)].
Proof. intros. unfold skew; cbn [map]; rewrite !sum_cons, sum_nil, !Rplus_0_r; reflexivity. Qed.
Lemma sum3 : forall k (x y z : R), skew k [x; y; z] = [x + k * (x + y + z); y + k * (x + y + z); z + k * (x + y + z)].
Proof. intros. unfold skew; cbn [map]; rewrite !sum_cons, sum_nil, !Rplus_0_r, <- !Rplus_assoc; reflexivity. Qed.

(** In 2D the displacement is the sum over all vertices in reach (constants before rounding). *)
Theorem C65_simplex2_all_vertices : forall ft (K : swk S_) scheme so axis (k : R) (seed : Z) (a x y : R) L out,
  length axis = 4%nat -> length out = 2%nat -> sw2 K = sx2k_exact inf bits k -> reaching (1/2) (unskew 2) (skew k [x; y]) L ->
  snd (SimplexWarpK (s:=S_) (W:=scalar) ft K scheme so axis seed a [x; y] out) =
  map (fun i => nth i out 0 + a * (nth i axis 0 * (bound false scheme 2 * pushes scheme (1/2) (unskew 2) (z_add seed (s32 so)) (skew k [x; y]) L i))) (seq 0 2).
Proof.
  intros ft K scheme so axis k seed a x y L out Ha Ho HK HL. cbn [SimplexWarpK]. unfold slet.
  apply (tail_sum (kBoundWarp (s:=S_) scheme 2) axis a _ out (pushes scheme (1/2) (unskew 2) (z_add seed (s32 so)) (skew k [x; y]) L) 2); auto.
  rewrite so_eq, HK. unfold simplex2, slet. cbn [sx2k_exact sx2_kSkew]. rewrite sum2 in *.
  change (fadd (s:=S_) (W:=scalar) x (fmul (s:=S_) (W:=scalar) (fv (s:=S_) (W:=scalar) k) (fadd (s:=S_) (W:=scalar) x y))) with (x + k * (x + y)).
  change (fadd (s:=S_) (W:=scalar) y (fmul (s:=S_) (W:=scalar) (fv (s:=S_) (W:=scalar) k) (fadd (s:=S_) (W:=scalar) x y))) with (y + k * (x + y)).
  generalize dependent (x + k * (x + y)). generalize (y + k * (x + y)). clear x y. intros y x HL. unfold prX, prY. rewrite !lower, !frac0.
  pose proof (sx2_reaching x y) as RE. pose proof RE as (_ & Len & _).
  refine (eq_trans (vector_sum_eq ft scheme (z_add seed (s32 so)) (unskew 2) [x; y] (fun v => falloff (1/2) (offset (unskew 2) [x; y] v)) _ _ _ _ (sx2_at_visits inf bits k (Rfloor x) (Rfloor y) x y) Len) _).
  - right. cbn. lia.
  - cbn. lia.
  - apply map_ext. intros i. exact (push_reaching scheme (1/2) (unskew 2) (z_add seed (s32 so)) [x; y] _ L i RE HL).
Qed.
Theorem C65_supersimplex2_all_vertices : forall ft (K : swk S_) scheme axis (k : R) (seed : Z) (a x y : R) L out,
  length axis = 4%nat -> length out = 2%nat -> sws2 K = ss2k_exact inf bits k -> reaching (2/3) (unskew 2) (skew k [x; y]) L ->
  snd (SuperSimplexWarpK (s:=S_) (W:=scalar) ft K scheme axis seed a [x; y] out) =
  map (fun i => nth i out 0 + a * (nth i axis 0 * (bound true scheme 2 * pushes scheme (2/3) (unskew 2) seed (skew k [x; y]) L i))) (seq 0 2).
Proof.
  intros ft K scheme axis k seed a x y L out Ha Ho HK HL. cbn [SuperSimplexWarpK].
  apply (tail_sum (kBoundWarpSuper (s:=S_) scheme 2) axis a _ out (pushes scheme (2/3) (unskew 2) seed (skew k [x; y]) L) 2); auto.
  rewrite HK. unfold supersimplex2, slet. cbn [ss2k_exact ss2_kSkew]. rewrite sum2 in *.
  change (fadd (s:=S_) (W:=scalar) x (fmul (s:=S_) (W:=scalar) (fv (s:=S_) (W:=scalar) k) (fadd (s:=S_) (W:=scalar) x y))) with (x + k * (x + y)).
  change (fadd (s:=S_) (W:=scalar) y (fmul (s:=S_) (W:=scalar) (fv (s:=S_) (W:=scalar) k) (fadd (s:=S_) (W:=scalar) x y))) with (y + k * (x + y)).
  generalize dependent (x + k * (x + y)). generalize (y + k * (x + y)). clear x y. intros y x HL. unfold prX, prY. rewrite !lower, !frac0.
  pose proof (ss2_reaching x y) as RE. pose proof RE as (_ & Len & _). pose proof (Rfloor_spec x) as Fx. pose proof (Rfloor_spec y) as Fy.
  refine (eq_trans (vector_sum_eq ft scheme seed (unskew 2) [x; y] (fun v => falloff (2/3) (offset (unskew 2) [x; y] v)) _ _ _ _ (ss2_at_visits inf bits k (Rfloor x) (Rfloor y) x y _ _) Len) _).
  - right. cbn. lia.
  - cbn. lia.
  - lra.
  - lra.
  - apply map_ext. intros i. exact (push_reaching scheme (2/3) (unskew 2) seed [x; y] _ L i RE HL).
Qed.
(** 3D SuperSimplex with the constants of the code. The outer product vectors are reflected; falloffs are
    divided by 16. *)
Definition oriented (scheme : VectorizationScheme) (p : nat -> R) (i : nat) : R :=
  match scheme with OrthogonalGradientMatrix => p i | GradientOuterProduct => p i - 11184811 / 16777216 * (p 0%nat + p 1%nat + p 2%nat) end.
Theorem C65_supersimplex3_all_vertices : forall ft scheme axis (seed : Z) (a x y z : R) L out,
  length axis = 4%nat -> length out = 3%nat -> reaching (3/4) (unskew 3) (skew kSkew3 [x; y; z]) L ->
  snd (SuperSimplexWarp (s:=S_) (W:=scalar) ft scheme axis seed a [x; y; z] out) =
  map (fun i => nth i out 0 + a * (nth i axis 0 * (bound true scheme 3 / 16 * oriented scheme (pushes scheme (3/4) (unskew 3) seed (skew kSkew3 [x; y; z]) L) i))) (seq 0 3).
Proof.
  intros ft scheme axis seed a x y z L out Ha Ho HL. unfold SuperSimplexWarp. cbn [SuperSimplexWarpK].
  transitivity (map (fun i => nth i (out : list R) 0 + a * (nth i (axis : list R) 0 * (kBoundWarpSuper (s:=S_) scheme 3 * (oriented scheme (pushes scheme (3/4) (unskew 3) seed (skew kSkew3 [x; y; z]) L) i / 16)))) (seq 0 3)).
  2:{ apply map_ext. intros i. f_equal. f_equal. f_equal. unfold bound, Rdiv. toR. ring. }
  apply (tail_sum (kBoundWarpSuper (s:=S_) scheme 3) axis a _ out (fun i => oriented scheme (pushes scheme (3/4) (unskew 3) seed (skew kSkew3 [x; y; z]) L) i / 16) 3); auto.
  assert (V : vector_sum (s:=S_) (W:=scalar) ft scheme seed 3 (supersimplex3 (s:=S_) (W:=scalar) (sws3 swk_code) x y z) =
    map (fun i => pushes scheme (3/4) (unskew 3) seed (skew kSkew3 [x; y; z]) L i / 16) (seq 0 3)).
  { cbn [swk_code sws3]. unfold supersimplex3, slet. cbn [ss3k_code ss3_kSkew]. rewrite sum3 in *.
    assert (K : @lit S_ 11184811 (-25) = kSkew3) by (unfold kSkew3; cbn [lit Rops]; change (-25)%Z with (- (25))%Z; rewrite (pow2_neg 25) by lia; reflexivity).
    rewrite K. clear K. rename x into X. rename y into Y. rename z into Z0.
    change (fadd (s:=S_) (W:=scalar) X (fmul (s:=S_) (W:=scalar) (fv (s:=S_) (W:=scalar) kSkew3) (fadd (s:=S_) (W:=scalar) (fadd (s:=S_) (W:=scalar) X Y) Z0))) with (X + kSkew3 * (X + Y + Z0)).
    change (fadd (s:=S_) (W:=scalar) Y (fmul (s:=S_) (W:=scalar) (fv (s:=S_) (W:=scalar) kSkew3) (fadd (s:=S_) (W:=scalar) (fadd (s:=S_) (W:=scalar) X Y) Z0))) with (Y + kSkew3 * (X + Y + Z0)).
    change (fadd (s:=S_) (W:=scalar) Z0 (fmul (s:=S_) (W:=scalar) (fv (s:=S_) (W:=scalar) kSkew3) (fadd (s:=S_) (W:=scalar) (fadd (s:=S_) (W:=scalar) X Y) Z0))) with (Z0 + kSkew3 * (X + Y + Z0)).
    generalize dependent (X + kSkew3 * (X + Y + Z0)). generalize (Y + kSkew3 * (X + Y + Z0)) (Z0 + kSkew3 * (X + Y + Z0)). clear X Y Z0. intros y z x HL.
    unfold prX, prY, prZ. rewrite !move_p, !move_d.
    rewrite !frac0, near3_eq.
    pose proof (Rfloor_spec x) as Fx. pose proof (Rfloor_spec y) as Fy. pose proof (Rfloor_spec z) as Fz.
    pose proof (near3_spec inf bits (x - IZR (Rfloor x)) (y - IZR (Rfloor y)) (z - IZR (Rfloor z)) ltac:(lra) ltac:(lra) ltac:(lra)) as C. cbv zeta in C.
    set (b := near3 _ _ _ _) in *. clearbody b.
    rewrite !(bitb b 1), !(bitb b 2), !(bitb b 4) by reflexivity.
    replace (x - IZR (Rfloor x) - IZR (bit b 1)) with (x - IZR (Rfloor x + bit b 1)) in C by (rewrite plus_IZR; ring).
    replace (y - IZR (Rfloor y) - IZR (bit b 2)) with (y - IZR (Rfloor y + bit b 2)) in C by (rewrite plus_IZR; ring).
    replace (z - IZR (Rfloor z) - IZR (bit b 4)) with (z - IZR (Rfloor z + bit b 4)) in C by (rewrite plus_IZR; ring).
    set (n := (Rfloor x + bit b 1)%Z) in *. set (m := (Rfloor y + bit b 2)%Z) in *. set (l := (Rfloor z + bit b 4)%Z) in *. clearbody n m l.
    pose proof (ss3_reaching n m l x y z C) as RE. cbv zeta in RE.
    refine (eq_trans (vector_sum_eq ft scheme seed (unskew 3) [x; y; z] (fun v => falloff (3/4) (offset (unskew 3) [x; y; z] v) / 16) _ _ _ _ (ss3_at_visits inf bits n m l x y z C) _) _).
    - right. cbn. lia.
    - cbn. lia.
    - apply RE.
    - apply map_ext. intros i. rewrite (push_reaching scheme (3/4) (unskew 3) seed [x; y; z] L _ i HL RE).
      unfold pushes. match goal with |- sum (map _ ?l) = _ => set (vs := l) end. clearbody vs. clear. unfold push.
      induction vs as [|v vs IH]; cbn [map]; [rewrite sum_nil; field|]. rewrite !sum_cons. toR. rewrite IH. field. }
  rewrite V. destruct scheme; cbn [reflected oriented]; [reflexivity|]. cbn [seq map].
  refine (eq_trans (reflect3_eq (@kReflectSuper S_) _ _ _) _). rewrite kRSS. repeat (apply (f_equal2 cons)); try reflexivity; toR; field.
Qed.

(** *** The warped position is continuous *)
Lemma cont_turned2 : forall scheme h i f g xs, continuous_at f xs -> continuous_at g xs -> continuous_at (fun ys => nth i (turned scheme h [f ys; g ys]) 0) xs.
Proof.
  intros scheme h i f g xs Hf Hg. destruct scheme, i as [|[|i]]; cbn [turned nth]; unfold dot2;
    try (destruct i; apply cont_const); repeat first [apply cont_plus | apply cont_mult | apply cont_const | assumption].
Qed.
Lemma cont_turned3 : forall scheme h i f g e xs, continuous_at f xs -> continuous_at g xs -> continuous_at e xs -> continuous_at (fun ys => nth i (turned scheme h [f ys; g ys; e ys]) 0) xs.
Proof.
  intros scheme h i f g e xs Hf Hg He. destruct scheme; cbn [turned].
  - destruct (ortho3_rows h) as [[[[? ?] ?] [[? ?] ?]] [[? ?] ?]]. destruct i as [|[|[|i]]]; cbn [nth]; unfold dot3;
    try (destruct i; apply cont_const); repeat first [apply cont_plus | apply cont_mult | apply cont_const | assumption].
  - destruct (outer3_vec h) as [[? ?] ?], (warp3_grad h) as [[? ?] ?]. destruct i as [|[|[|i]]]; cbn [nth]; unfold dot3;
    try (destruct i; apply cont_const); repeat first [apply cont_plus | apply cont_mult | apply cont_const | assumption].
Qed.
Lemma cont_push2 : forall scheme r2 u seed i a b f g xs, continuous_at f xs -> continuous_at g xs ->
  continuous_at (fun ys => push scheme r2 u seed [f ys; g ys] i [a; b]) xs.
Proof.
  intros scheme r2 u seed i a b f g xs Hf Hg.
  assert (A : continuous_at (fun ys => f ys - IZR a) xs) by (apply cont_minus; auto using cont_const).
  assert (B : continuous_at (fun ys => g ys - IZR b) xs) by (apply cont_minus; auto using cont_const).
  assert (S : continuous_at (fun ys => u * (f ys - IZR a + (g ys - IZR b + 0))) xs) by (repeat first [apply cont_mult | apply cont_plus | apply cont_const | assumption]).
  assert (A' : continuous_at (fun ys => f ys - IZR a + u * (f ys - IZR a + (g ys - IZR b + 0))) xs) by (apply cont_plus; auto).
  assert (B' : continuous_at (fun ys => g ys - IZR b + u * (f ys - IZR a + (g ys - IZR b + 0))) xs) by (apply cont_plus; auto).
  unfold push, falloff, sqlen, offset. cbn [offs map]. cbn [sum fold_right].
  apply cont_mult; [|exact (cont_turned2 scheme (hash31 seed [a; b]) i _ _ xs A' B')].
  apply cont_pow, cont_max0. apply cont_minus; [apply cont_const|]. repeat first [apply cont_plus | apply cont_const | apply cont_mult; assumption].
Qed.
Lemma cont_push3 : forall scheme r2 u seed i a b c f g h xs, continuous_at f xs -> continuous_at g xs -> continuous_at h xs ->
  continuous_at (fun ys => push scheme r2 u seed [f ys; g ys; h ys] i [a; b; c]) xs.
Proof.
  intros scheme r2 u seed i a b c f g h xs Hf Hg Hh.
  assert (A : continuous_at (fun ys => f ys - IZR a) xs) by (apply cont_minus; auto using cont_const).
  assert (B : continuous_at (fun ys => g ys - IZR b) xs) by (apply cont_minus; auto using cont_const).
  assert (C : continuous_at (fun ys => h ys - IZR c) xs) by (apply cont_minus; auto using cont_const).
  assert (S : continuous_at (fun ys => u * (f ys - IZR a + (g ys - IZR b + (h ys - IZR c + 0)))) xs) by (repeat first [apply cont_mult | apply cont_plus | apply cont_const | assumption]).
  assert (A' : continuous_at (fun ys => f ys - IZR a + u * (f ys - IZR a + (g ys - IZR b + (h ys - IZR c + 0)))) xs) by (apply cont_plus; auto).
  assert (B' : continuous_at (fun ys => g ys - IZR b + u * (f ys - IZR a + (g ys - IZR b + (h ys - IZR c + 0)))) xs) by (apply cont_plus; auto).
  assert (C' : continuous_at (fun ys => h ys - IZR c + u * (f ys - IZR a + (g ys - IZR b + (h ys - IZR c + 0)))) xs) by (apply cont_plus; auto).
  unfold push, falloff, sqlen, offset. cbn [offs map]. cbn [sum fold_right].
  apply cont_mult; [|exact (cont_turned3 scheme (hash31 seed [a; b; c]) i _ _ _ xs A' B' C')].
  apply cont_pow, cont_max0. apply cont_minus; [apply cont_const|]. repeat first [apply cont_plus | apply cont_const | apply cont_mult; assumption].
Qed.
Lemma pushes2_cont : forall scheme r2 k seed i L x y, (forall v, In v L -> length v = 2%nat) ->
  continuous_at (fun pos => pushes scheme r2 (unskew 2) seed (skew k [nth 0 pos 0; nth 1 pos 0]) L i) [x; y].
Proof.
  intros scheme r2 k seed i L x y HL. unfold pushes. apply (cont_sum (fun v pos => push scheme r2 (unskew 2) seed (skew k [nth 0 pos 0; nth 1 pos 0]) i v)).
  intros v Hv. specialize (HL v Hv). destruct v as [|a [|b [|? ?]]]; try discriminate HL.
  apply (cont_ext (fun pos => push scheme r2 (unskew 2) seed [nth 0 pos 0 + k * (nth 0 pos 0 + nth 1 pos 0); nth 1 pos 0 + k * (nth 0 pos 0 + nth 1 pos 0)] i [a; b])).
  { intros. rewrite sum2. reflexivity. }
  apply cont_push2; repeat first [apply cont_plus | apply cont_mult | apply cont_const | apply cont_nth].
Qed.
Lemma pushes3_cont : forall scheme r2 k seed i L x y z, (forall v, In v L -> length v = 3%nat) ->
  continuous_at (fun pos => pushes scheme r2 (unskew 3) seed (skew k [nth 0 pos 0; nth 1 pos 0; nth 2 pos 0]) L i) [x; y; z].
Proof.
  intros scheme r2 k seed i L x y z HL. unfold pushes. apply (cont_sum (fun v pos => push scheme r2 (unskew 3) seed (skew k [nth 0 pos 0; nth 1 pos 0; nth 2 pos 0]) i v)).
  intros v Hv. specialize (HL v Hv). destruct v as [|a [|b [|c [|? ?]]]]; try discriminate HL.
  apply (cont_ext (fun pos => let s := nth 0 pos 0 + nth 1 pos 0 + nth 2 pos 0 in push scheme r2 (unskew 3) seed [nth 0 pos 0 + k * s; nth 1 pos 0 + k * s; nth 2 pos 0 + k * s] i [a; b; c])).
  { intros. rewrite sum3. reflexivity. }
  cbv zeta. apply cont_push3; repeat first [apply cont_plus | apply cont_mult | apply cont_const | apply cont_nth].
Qed.
Lemma skewed_1 : forall k pos, skewed k 1 pos = skew k pos.
Proof. intros. unfold skewed, scale. f_equal. rewrite <- (map_id pos) at 2. apply map_ext. intros. ring. Qed.
Lemma warp2_cont : forall scheme r2 k seed B axis a out i (w : list R -> list R) x y, r2 <= 2/3 ->
  (forall x y L, reaching r2 (unskew 2) (skew k [x; y]) L ->
     w [x; y] = map (fun i => nth i out 0 + a * (nth i axis 0 * (B * pushes scheme r2 (unskew 2) seed (skew k [x; y]) L i))) (seq 0 2)) ->
  continuous_at (fun pos => nth i (w pos) 0) [x; y].
Proof.
  intros scheme r2 k seed B axis a out i w x y Hr Hw. destruct (local_vertices2 k 1 x y) as (d & L & Hd & HL & HR).
  destruct (Nat.lt_ge_cases i 2) as [Hi|Hi].
  - apply (cont_local d _ (fun pos => nth i out 0 + a * (nth i axis 0 * (B * pushes scheme r2 (unskew 2) seed (skew k [nth 0 pos 0; nth 1 pos 0]) L i)))); auto.
    + intros ys N. apply near2 in N as (x' & y' & -> & Hx & Hy). cbn [nth]. rewrite (Hw x' y' L) by (rewrite <- skewed_1; apply HR; auto). rewrite nth_mapseq by exact Hi. reflexivity.
    + apply cont_plus; [apply cont_const|]. apply cont_mult; [apply cont_const|]. apply cont_mult; [apply cont_const|]. apply cont_mult; [apply cont_const|]. apply pushes2_cont. exact HL.
  - apply (cont_local d _ (fun _ => 0)); auto; [|apply cont_const]. intros ys N. apply near2 in N as (x' & y' & -> & Hx & Hy). rewrite (Hw x' y' L) by (rewrite <- skewed_1; apply HR; auto).
    apply nth_overflow. rewrite map_length, seq_length. exact Hi.
Qed.
Theorem C65_simplex2_continuous : forall ft (K : swk S_) scheme so axis (k : R) (seed : Z) (a x y : R) out i,
  length axis = 4%nat -> length out = 2%nat -> sw2 K = sx2k_exact inf bits k ->
  continuous_at (fun pos => nth i (snd (SimplexWarpK (s:=S_) (W:=scalar) ft K scheme so axis seed a pos out)) 0) [x; y].
Proof.
  intros ft K scheme so axis k seed a x y out i Ha Ho HK.
  apply (warp2_cont scheme (1/2) k (z_add seed (s32 so)) (bound false scheme 2) axis a out i (fun pos => snd (SimplexWarpK (s:=S_) (W:=scalar) ft K scheme so axis seed a pos out))); [lra|].
  intros. apply C65_simplex2_all_vertices; auto.
Qed.
Theorem C65_supersimplex2_continuous : forall ft (K : swk S_) scheme axis (k : R) (seed : Z) (a x y : R) out i,
  length axis = 4%nat -> length out = 2%nat -> sws2 K = ss2k_exact inf bits k ->
  continuous_at (fun pos => nth i (snd (SuperSimplexWarpK (s:=S_) (W:=scalar) ft K scheme axis seed a pos out)) 0) [x; y].
Proof.
  intros ft K scheme axis k seed a x y out i Ha Ho HK.
  apply (warp2_cont scheme (2/3) k seed (bound true scheme 2) axis a out i (fun pos => snd (SuperSimplexWarpK (s:=S_) (W:=scalar) ft K scheme axis seed a pos out))); [lra|].
  intros. apply C65_supersimplex2_all_vertices; auto.
Qed.
Theorem C65_supersimplex3_continuous : forall ft scheme axis (seed : Z) (a x y z : R) out i,
  length axis = 4%nat -> length out = 3%nat ->
  continuous_at (fun pos => nth i (snd (SuperSimplexWarp (s:=S_) (W:=scalar) ft scheme axis seed a pos out)) 0) [x; y; z].
Proof.
  intros ft scheme axis seed a x y z out i Ha Ho. destruct (local_vertices3 kSkew3 1 x y z) as (d & L & Hd & HL & HR).
  assert (E : forall x' y' z', Rabs (x' - x) < d -> Rabs (y' - y) < d -> Rabs (z' - z) < d ->
     snd (SuperSimplexWarp (s:=S_) (W:=scalar) ft scheme axis seed a [x'; y'; z'] out) =
     map (fun i => nth i out 0 + a * (nth i axis 0 * (bound true scheme 3 / 16 * oriented scheme (pushes scheme (3/4) (unskew 3) seed (skew kSkew3 [x'; y'; z']) L) i))) (seq 0 3)).
  { intros. apply C65_supersimplex3_all_vertices; auto. rewrite <- skewed_1. apply HR; auto; lra. }
  destruct (Nat.lt_ge_cases i 3) as [Hi|Hi].
  - apply (cont_local d _ (fun pos => nth i (out : list R) 0 + a * (nth i (axis : list R) 0 * (bound true scheme 3 / 16 * oriented scheme (pushes scheme (3/4) (unskew 3) seed (skew kSkew3 [nth 0 pos 0; nth 1 pos 0; nth 2 pos 0]) L) i)))); auto.
    + intros ys N. apply near3l in N as (x' & y' & z' & -> & Hx & Hy & Hz). cbn [nth]. refine (eq_trans (f_equal (fun l : list R => nth i l 0) (E x' y' z' Hx Hy Hz)) _).
      rewrite nth_mapseq by exact Hi. reflexivity.
    + apply cont_plus; [apply cont_const|]. apply cont_mult; [apply cont_const|]. apply cont_mult; [apply cont_const|]. apply cont_mult; [apply cont_const|].
      destruct scheme; cbn [oriented]; [apply pushes3_cont; exact HL|]. apply cont_minus; [apply pushes3_cont; exact HL|].
      apply cont_mult; [apply cont_const|]. repeat apply cont_plus; apply pushes3_cont; exact HL.
  - apply (cont_local d _ (fun _ => 0)); auto; [|apply cont_const]. intros ys N. apply near3l in N as (x' & y' & z' & -> & Hx & Hy & Hz).
    refine (eq_trans (f_equal (fun l : list R => nth i l 0) (E x' y' z' Hx Hy Hz)) _). apply nth_overflow. rewrite map_length, seq_length. exact Hi.
Qed.

(** *** The nodes *)
Definition simplex_node (ft : feat) (src : source S_ scalar) (amp : hyb S_ scalar) (scheme : VectorizationScheme) (axis : list R) (so : Z) (freq : R) : warp_node S_ scalar :=
  {| wSource := src; wAmplitude := amp; wAxisScale := axis; wSeedOffset := so; wFrequency := freq; wWarp := SimplexWarp (s:=S_) (W:=scalar) ft scheme so axis |}.
Definition supersimplex_node (ft : feat) (src : source S_ scalar) (amp : hyb S_ scalar) (scheme : VectorizationScheme) (axis : list R) (so : Z) (freq : R) : warp_node S_ scalar :=
  {| wSource := src; wAmplitude := amp; wAxisScale := axis; wSeedOffset := so; wFrequency := freq; wWarp := SuperSimplexWarp (s:=S_) (W:=scalar) ft scheme axis |}.
Notation val := (val inf bits).
Lemma node_eq : forall (w : warp_node S_ scalar) (seed : Z) (pos : list R), is_warp inf bits ones (unit_warp (wWarp w)) (wWarp w) -> dims pos ->
  DomainWarpGen (s:=S_) (W:=scalar) w seed pos =
  wSource w seed (moved (val (wAmplitude w) seed pos) ones (unit_warp (wWarp w) (z_add seed (s32 (wSeedOffset w))) (map (fun p => p * wFrequency w) pos)) pos).
Proof.
  intros w seed pos Hw Hd. unfold DomainWarpGen, slet. rewrite gsv_val, so_eq.
  match goal with |- context [wWarp w _ _ ?z _] => change z with (map (fun p : R => p * wFrequency w) pos) end.
  rewrite (Hw (z_add seed (s32 (wSeedOffset w))) (val (wAmplitude w) seed pos) (map (fun p : R => p * wFrequency w) pos) pos); [reflexivity|apply scale_dims; exact Hd|rewrite map_length; reflexivity].
Qed.
(** With zero amplitude the nodes are their source. *)
Theorem C65_zero_amplitude : forall ft src amp scheme axis so freq (seed : Z) (pos : list R), length axis = 4%nat -> dims pos -> val amp seed pos = 0 ->
  DomainWarpGen (simplex_node ft src amp scheme axis so freq) seed pos = src seed pos /\
  DomainWarpGen (supersimplex_node ft src amp scheme axis so freq) seed pos = src seed pos.
Proof.
  intros ft src amp scheme axis so freq seed pos Ha Hd H0. split.
  - rewrite (node_eq (simplex_node ft src amp scheme axis so freq)) by (auto; apply C65_simplex_is_warp; auto).
    cbn [wSource wAmplitude simplex_node]. rewrite H0, moved_0. reflexivity.
  - rewrite (node_eq (supersimplex_node ft src amp scheme axis so freq)) by (auto; apply C65_supersimplex_is_warp; auto).
    cbn [wSource wAmplitude supersimplex_node]. rewrite H0, moved_0. reflexivity.
Qed.
(** The seed offset shifts the seed of the warp, not of the source: twice for Simplex, once for SuperSimplex. *)
Theorem C65_seed_offset : forall ft src amp scheme axis so freq (seed : Z) (pos : list R), length axis = 4%nat -> dims pos ->
  DomainWarpGen (simplex_node ft src amp scheme axis so freq) seed pos =
    src seed (moved (val amp seed pos) ones (unit_warp (SimplexWarp (s:=S_) (W:=scalar) ft scheme 0 axis) (s32 (seed + 2 * so)) (map (fun p => p * freq) pos)) pos) /\
  DomainWarpGen (supersimplex_node ft src amp scheme axis so freq) seed pos =
    src seed (moved (val amp seed pos) ones (unit_warp (SuperSimplexWarp (s:=S_) (W:=scalar) ft scheme axis) (s32 (seed + so)) (map (fun p => p * freq) pos)) pos).
Proof.
  intros ft src amp scheme axis so freq seed pos Ha Hd. split.
  - rewrite (node_eq (simplex_node ft src amp scheme axis so freq)) by (auto; apply C65_simplex_is_warp; auto).
    cbn [wSource wAmplitude wSeedOffset wFrequency wWarp simplex_node]. unfold unit_warp.
    assert (iadd (W:=scalar) (z_add seed (s32 so)) (iv (W:=scalar) so) = iadd (W:=scalar) (s32 (seed + 2 * so)) (iv (W:=scalar) 0))%Z as E.
    { rewrite (so_eq (z_add seed (s32 so)) so), (so_eq (s32 (seed + 2 * so)) 0). unfold z_add. change (s32 0) with 0%Z. rewrite Z.add_0_r.
      apply s32_eq_iff. rewrite (s32_mod (seed + 2 * so)), <- (Zplus_mod_idemp_l (s32 (seed + s32 so))), s32_mod, Zplus_mod_idemp_l.
      rewrite <- (Zplus_mod_idemp_r (s32 so)), s32_mod, Zplus_mod_idemp_r. replace (seed + s32 so + so)%Z with (seed + so + s32 so)%Z by lia.
      rewrite <- (Zplus_mod_idemp_r (s32 so)), s32_mod, Zplus_mod_idemp_r. f_equal. lia. }
    unfold SimplexWarp, SimplexWarpK, slet. rewrite E. reflexivity.
  - rewrite (node_eq (supersimplex_node ft src amp scheme axis so freq)) by (auto; apply C65_supersimplex_is_warp; auto).
    cbn [wSource wAmplitude wSeedOffset wFrequency wWarp supersimplex_node].
    assert (z_add seed (s32 so) = s32 (seed + so))%Z as -> by (unfold z_add; apply s32_eq_iff; rewrite Zplus_mod, s32_mod, <- Zplus_mod; reflexivity). reflexivity.
Qed.
(** Warp fractals over simplex warps: C53 applies. *)
Theorem C65_fractal : forall ft progressive (fr : fractal S_ scalar) src amp scheme axis so freq (seed : Z) (pos : list R),
  length axis = 4%nat -> in32 seed -> dims pos ->
  let octave_sum warp := octave_pos ones (unit_warp warp) progressive freq (frLacunarity fr) (val (frGain fr) seed pos) (val (frWeight fr) seed pos)
    seed pos (val amp seed pos) (octaves (frOctaves fr)) in
  fractal_warp inf bits ft progressive fr (simplex_node ft src amp scheme axis so freq) seed pos = src seed (octave_sum (SimplexWarp (s:=S_) (W:=scalar) ft scheme so axis)) /\
  fractal_warp inf bits ft progressive fr (supersimplex_node ft src amp scheme axis so freq) seed pos = src seed (octave_sum (SuperSimplexWarp (s:=S_) (W:=scalar) ft scheme axis)).
Proof.
  intros ft progressive fr src amp scheme axis so freq seed pos Ha Hs Hd octave_sum. split.
  - apply (C53_fractal inf bits ft progressive ones _ fr (simplex_node ft src amp scheme axis so freq)); auto. apply C65_simplex_is_warp; auto.
  - apply (C53_fractal inf bits ft progressive ones _ fr (supersimplex_node ft src amp scheme axis so freq)); auto. apply C65_supersimplex_is_warp; auto.
Qed.
End P.
(** ** Concrete cases *)
(** a position between the vertices, all 81 vertices around it listed, the 2D orthogonal warp *)
Example C65_case2 : forall inf bits ft, exists L, reaching (1/2) (unskew 2) (skew 0 [1/3; 1/4]) L /\
  snd (SimplexWarpK (s:=Rops inf bits) (W:=scalar) ft {| sw2 := sx2k_exact inf bits 0; sw3 := sx3k_code; sw4 := sx4k_code; sws2 := ss2k_code; sws3 := ss3k_code; sws4 := ss4k_code |}
         OrthogonalGradientMatrix 3 [1; 2; 1; 1] 7%Z 30 [1/3; 1/4] [5; 6]) =
  map (fun i => nth i [5; 6] 0 + 30 * (nth i [1; 2; 1; 1] 0 * (bound inf bits false OrthogonalGradientMatrix 2 * pushes OrthogonalGradientMatrix (1/2) (unskew 2) 10 (skew 0 [1/3; 1/4]) L i))) (seq 0 2).
Proof.
  intros inf bits ft. assert (R0 : reaching (1/2) (unskew 2) (skew 0 [1/3; 1/4]) (box [Rfloor (1/3); Rfloor (1/4)])).
  { rewrite sum2. apply box2_reaching; try lra; apply Rabs_def1; lra. }
  eexists. split; [exact R0|]. change 10%Z with (z_add 7 (s32 3)). apply C65_simplex2_all_vertices; auto.
Qed.
Example C65_case3 : forall inf bits ft scheme, exists L, reaching (3/4) (unskew 3) (skew kSkew3 [1/3; 1/4; 2]) L /\
  snd (SuperSimplexWarp (s:=Rops inf bits) (W:=scalar) ft scheme [1; 2; 1; 1] 7%Z 30 [1/3; 1/4; 2] [5; 6; 7]) =
  map (fun i => nth i [5; 6; 7] 0 + 30 * (nth i [1; 2; 1; 1] 0 * (bound inf bits true scheme 3 / 16 * oriented scheme (pushes scheme (3/4) (unskew 3) 7 (skew kSkew3 [1/3; 1/4; 2]) L) i))) (seq 0 3).
Proof.
  intros inf bits ft scheme. destruct (local_vertices3 kSkew3 1 (1/3) (1/4) 2) as (d & L & Hd & HL & HR).
  assert (R0 : reaching (3/4) (unskew 3) (skew kSkew3 [1/3; 1/4; 2]) L) by (rewrite <- skewed_1; apply HR; try lra; rewrite Rminus_diag_eq, Rabs_R0 by reflexivity; exact Hd).
  exists L. split; [exact R0|]. apply C65_supersimplex3_all_vertices; auto.
Qed.
Example C62_case : uniform OrthogonalGradientMatrix 3 /\ uniform GradientOuterProduct 4. Proof. split; [right|left]; auto. Qed.
Example C65_zero_case : forall inf bits ft, DomainWarpGen (simplex_node inf bits ft (fun _ p => nth 1 p 0) (@HConst (Rops inf bits) scalar 0) GradientOuterProduct [1; 1; 1; 1] 3 (1/100)) 7%Z [1; 2; 3] = 2.
Proof. intros. refine (eq_trans (proj1 (C65_zero_amplitude inf bits ft _ _ _ _ _ _ _ _ _ _ _)) _); try reflexivity. unfold dims; cbn; lia. Qed.
Print Assumptions C62_simplex_warps_agree.
Print Assumptions C64_supersimplex_keeps_length.
Print Assumptions C64_simplex_keeps_length_refuted.
Print Assumptions C65_simplex_is_warp.
Print Assumptions C65_supersimplex_is_warp.
Print Assumptions C65_simplex2_all_vertices.
Print Assumptions C65_supersimplex2_all_vertices.
Print Assumptions C65_supersimplex3_all_vertices.
Print Assumptions C65_simplex2_continuous.
Print Assumptions C65_supersimplex2_continuous.
Print Assumptions C65_supersimplex3_continuous.
Print Assumptions C65_zero_amplitude.
Print Assumptions C65_seed_offset.
Print Assumptions C65_fractal.
