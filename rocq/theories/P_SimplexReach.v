(** C65 (3D Simplex, 4D) and C66: how far the simplex domain warps move a position. Real arithmetic, one lane. *)
From Coq Require Import Reals ZArith List Bool Lia Lra Psatz.
From Verif Require Import Prelude Simd_Model Utils_Model Nodes_Model Setters_Model Simplex_Model Warp_Model SimplexWarp_Model Simd_R Bits P_Hash P_Grad P_Blend P_Modifiers P_Lattice Lattice P_Warp
  Simplex_Spec Simplex_Geom Simplex_2D Simplex_3D Simplex_4D Simplex_Cells P_Simplex P_Simplex3 P_Simplex4 SimplexWarp_Spec P_SimplexWarpNorm P_SimplexWarp P_SimplexJumps SimplexRange P_SimplexRange SimplexReach.
Import ListNotations.
Open Scope R_scope.
Lemma skew4_list : forall k (x y z w : R), skew k [x; y; z; w] = [x + k * (x + y + z + w); y + k * (x + y + z + w); z + k * (x + y + z + w); w + k * (x + y + z + w)].
Proof. intros. unfold skew; cbn [map]; rewrite !sum_cons, sum_nil, !Rplus_0_r, <- !Rplus_assoc; reflexivity. Qed.

Section P.
Variable inf : R.
Variable bits : R -> Z.
Notation S_ := (Rops inf bits).

(** ** C65: the cells of Simplex 3D and of the 4D warps *)
(** Simplex 3D: the orientation step of the outer products, with the constant -1 of the code *)
Definition tilted (scheme : VectorizationScheme) (p : nat -> R) (i : nat) : R :=
  match scheme with OrthogonalGradientMatrix => p i | GradientOuterProduct => p i - (p 0%nat + p 1%nat + p 2%nat) end.
Lemma simplex3_warp_eq : forall ft scheme so axis (seed : Z) (a x y z : R) out, length axis = 4%nat -> length out = 3%nat ->
  snd (SimplexWarp (s:=S_) (W:=scalar) ft scheme so axis seed a [x; y; z] out) =
  map (fun i => nth i out 0 + a * (nth i axis 0 * (bound inf bits false scheme 3 * tilted scheme (pushes scheme kR06 (unskew 3) (z_add seed (s32 so)) (skew kSkew3 [x; y; z]) (simplex3_taken (skew kSkew3 [x; y; z]))) i))) (seq 0 3).
Proof.
  intros ft scheme so axis seed a x y z out Ha Ho. unfold SimplexWarp. cbn [SimplexWarpK]. unfold slet.
  apply (tail_sum inf bits (kBoundWarp (s:=S_) scheme 3) axis a _ out (fun i => tilted scheme (pushes scheme kR06 (unskew 3) (z_add seed (s32 so)) (skew kSkew3 [x; y; z]) (simplex3_taken (skew kSkew3 [x; y; z]))) i) 3); auto.
  rewrite so_eq.
  assert (V : vector_sum (s:=S_) (W:=scalar) ft scheme (z_add seed (s32 so)) 3 (simplex3 (s:=S_) (W:=scalar) (sw3 swk_code) x y z) =
    map (pushes scheme kR06 (unskew 3) (z_add seed (s32 so)) (skew kSkew3 [x; y; z]) (simplex3_taken (skew kSkew3 [x; y; z]))) (seq 0 3)).
  { cbn [swk_code sw3]. unfold simplex3, slet. cbn [sx3_kSkew sx3k_code]. rewrite sum3.
    assert (K : @lit S_ 11184811 (-25) = kSkew3) by (unfold kSkew3; cbn [lit Rops]; change (-25)%Z with (- (25))%Z; rewrite (pow2_neg 25) by lia; reflexivity).
    rewrite K. clear K. rename x into X. rename y into Y. rename z into Z0.
    change (fadd (s:=S_) (W:=scalar) X (fmul (s:=S_) (W:=scalar) (fv (s:=S_) (W:=scalar) kSkew3) (fadd (s:=S_) (W:=scalar) (fadd (s:=S_) (W:=scalar) X Y) Z0))) with (X + kSkew3 * (X + Y + Z0)).
    change (fadd (s:=S_) (W:=scalar) Y (fmul (s:=S_) (W:=scalar) (fv (s:=S_) (W:=scalar) kSkew3) (fadd (s:=S_) (W:=scalar) (fadd (s:=S_) (W:=scalar) X Y) Z0))) with (Y + kSkew3 * (X + Y + Z0)).
    change (fadd (s:=S_) (W:=scalar) Z0 (fmul (s:=S_) (W:=scalar) (fv (s:=S_) (W:=scalar) kSkew3) (fadd (s:=S_) (W:=scalar) (fadd (s:=S_) (W:=scalar) X Y) Z0))) with (Z0 + kSkew3 * (X + Y + Z0)).
    generalize (X + kSkew3 * (X + Y + Z0)) (Y + kSkew3 * (X + Y + Z0)) (Z0 + kSkew3 * (X + Y + Z0)). clear X Y Z0. intros x y z.
    unfold prX, prY, prZ. rewrite !lower, !frac0.
    assert (KR : kR06 = sx3_r inf bits sx3k_code) by (unfold kR06, sx3_r; cbn [sx3_kR sx3k_code lit Rops]; change (-23)%Z with (- (23))%Z; rewrite (pow2_neg 23) by lia; reflexivity).
    rewrite KR. unfold simplex3_taken. cbv zeta.
    refine (vector_sum_eq inf bits ft scheme (z_add seed (s32 so)) (unskew 3) [x; y; z] (fun v => falloff (sx3_r inf bits sx3k_code) (offset (unskew 3) [x; y; z] v)) _ _ _ _ (sx3_at_visits inf bits sx3k_code (Rfloor x) (Rfloor y) (Rfloor z) x y z) _).
    - right. cbn. lia.
    - cbn. lia.
    - pose proof (Rfloor_spec x). pose proof (Rfloor_spec y). pose proof (Rfloor_spec z). apply sx3_simplex; lra. }
  rewrite V. destruct scheme; cbn [reflected tilted]; [reflexivity|]. cbn [seq map].
  refine (eq_trans (reflect3_eq inf bits (@kReflectSimplex S_) _ _ _) _). rewrite kRS. repeat (apply (f_equal2 cons)); try reflexivity; toR; ring.
Qed.
Theorem C65_simplex3 : forall ft scheme so axis (seed : Z) (a x y z : R) out, length axis = 4%nat -> length out = 3%nat -> exists vs,
  simplex_around (skew kSkew3 [x; y; z]) vs /\
  snd (SimplexWarp (s:=S_) (W:=scalar) ft scheme so axis seed a [x; y; z] out) =
  map (fun i => nth i out 0 + a * (nth i axis 0 * (bound inf bits false scheme 3 * tilted scheme (pushes scheme kR06 (unskew 3) (z_add seed (s32 so)) (skew kSkew3 [x; y; z]) vs) i))) (seq 0 3).
Proof.
  intros. exists (simplex3_taken (skew kSkew3 [x; y; z])). split; [|apply simplex3_warp_eq; assumption]. rewrite sum3. cbn [simplex3_taken]. cbv zeta.
  match goal with |- simplex_around [?a; ?b; ?c] _ => pose proof (Rfloor_spec a); pose proof (Rfloor_spec b); pose proof (Rfloor_spec c) end. apply sx3_simplex; lra.
Qed.
(** 4D, outer product scheme, constants of the lattice search before rounding *)
Theorem C65_simplex4 : forall ft (K : swk S_) so axis (k : R) (seed : Z) (a x y z w : R) out, length axis = 4%nat -> length out = 4%nat -> sw4 K = sx4k_exact inf bits k kR06 -> exists vs,
  simplex_around (skew k [x; y; z; w]) vs /\
  snd (SimplexWarpK (s:=S_) (W:=scalar) ft K GradientOuterProduct so axis seed a [x; y; z; w] out) =
  map (fun i => nth i out 0 + a * (nth i axis 0 * (bound inf bits false GradientOuterProduct 4 * pushes GradientOuterProduct kR06 (unskew 4) (z_add seed (s32 so)) (skew k [x; y; z; w]) vs i))) (seq 0 4).
Proof.
  intros ft K so axis k seed a x y z w out Ha Ho HK. exists (simplex4_taken (skew k [x; y; z; w])). split.
  { rewrite skew4_list. cbn [simplex4_taken]. cbv zeta.
    match goal with |- simplex_around [?a; ?b; ?c; ?d] _ => pose proof (Rfloor_spec a); pose proof (Rfloor_spec b); pose proof (Rfloor_spec c); pose proof (Rfloor_spec d) end. apply sx4_simplex; lra. }
  cbn [SimplexWarpK]. unfold slet.
  apply (tail_sum inf bits (kBoundWarp (s:=S_) GradientOuterProduct 4) axis a _ out (pushes GradientOuterProduct kR06 (unskew 4) (z_add seed (s32 so)) (skew k [x; y; z; w]) (simplex4_taken (skew k [x; y; z; w]))) 4); auto.
  rewrite so_eq, HK. rewrite skew4_list. rename x into X. rename y into Y. rename z into Z0. rename w into W0.
  unfold simplex4, slet. change (sx4_kSkew (sx4k_exact inf bits k kR06)) with k.
  change (fmul (s:=S_) (W:=scalar) (fv (s:=S_) (W:=scalar) k) (fadd (s:=S_) (W:=scalar) (fadd (s:=S_) (W:=scalar) (fadd (s:=S_) (W:=scalar) X Y) Z0) W0)) with (k * (X + Y + Z0 + W0)).
  change (fadd (s:=S_) (W:=scalar) X (k * (X + Y + Z0 + W0))) with (X + k * (X + Y + Z0 + W0)). change (fadd (s:=S_) (W:=scalar) Y (k * (X + Y + Z0 + W0))) with (Y + k * (X + Y + Z0 + W0)).
  change (fadd (s:=S_) (W:=scalar) Z0 (k * (X + Y + Z0 + W0))) with (Z0 + k * (X + Y + Z0 + W0)). change (fadd (s:=S_) (W:=scalar) W0 (k * (X + Y + Z0 + W0))) with (W0 + k * (X + Y + Z0 + W0)).
  generalize (X + k * (X + Y + Z0 + W0)) (Y + k * (X + Y + Z0 + W0)) (Z0 + k * (X + Y + Z0 + W0)) (W0 + k * (X + Y + Z0 + W0)). clear X Y Z0 W0. intros x y z w.
  unfold prX, prY, prZ, prW. rewrite !lower, !frac0. cbn [simplex4_taken]. cbv zeta.
  refine (vector_sum_eq inf bits ft GradientOuterProduct (z_add seed (s32 so)) (unskew 4) [x; y; z; w] (fun v => falloff kR06 (offset (unskew 4) [x; y; z; w] v)) _ _ _ _ (sx4_at_visits inf bits k kR06 (Rfloor x) (Rfloor y) (Rfloor z) (Rfloor w) x y z w) _).
  - left. reflexivity.
  - cbn. lia.
  - pose proof (Rfloor_spec x). pose proof (Rfloor_spec y). pose proof (Rfloor_spec z). pose proof (Rfloor_spec w). apply sx4_simplex; lra.
Qed.
Theorem C65_supersimplex4 : forall ft (K : swk S_) axis (k : R) (seed : Z) (a x y z w : R) out, length axis = 4%nat -> length out = 4%nat -> sws4 K = ss4k_exact inf bits k -> exists vs,
  reaching (18/25) (unskew 4) (skew k [x; y; z; w]) vs /\
  snd (SuperSimplexWarpK (s:=S_) (W:=scalar) ft K GradientOuterProduct axis seed a [x; y; z; w] out) =
  map (fun i => nth i out 0 + a * (nth i axis 0 * (bound inf bits true GradientOuterProduct 4 / 16 * pushes GradientOuterProduct (4/5) (unskew 4) seed (skew k [x; y; z; w]) vs i))) (seq 0 4).
Proof.
  intros ft K axis k seed a x y z w out Ha Ho HK. exists (ss4_taken (skew k [x; y; z; w])). split.
  { rewrite skew4_list. match goal with |- reaching _ _ [?a; ?b; ?c; ?d] _ => pose proof (ss4_base_eq a b c d) as E; cbv zeta in E; unfold ss4_taken; rewrite E; apply ss4_cell in E; cbn [ss4_from]; cbv zeta; apply ss4_reaching; exact E end. }
  cbn [SuperSimplexWarpK].
  transitivity (map (fun i => nth i (out : list R) 0 + a * (nth i (axis : list R) 0 * (kBoundWarpSuper (s:=S_) GradientOuterProduct 4 * (pushes GradientOuterProduct (4/5) (unskew 4) seed (skew k [x; y; z; w]) (ss4_taken (skew k [x; y; z; w])) i / 16)))) (seq 0 4)).
  2:{ apply map_ext. intros i. f_equal. f_equal. f_equal. unfold bound, Rdiv. toR. ring. }
  apply (tail_sum inf bits (kBoundWarpSuper (s:=S_) GradientOuterProduct 4) axis a _ out (fun i => pushes GradientOuterProduct (4/5) (unskew 4) seed (skew k [x; y; z; w]) (ss4_taken (skew k [x; y; z; w])) i / 16) 4); auto.
  rewrite HK. rewrite skew4_list. rename x into X. rename y into Y. rename z into Z0. rename w into W0.
  unfold supersimplex4, slet. change (ss4_kSkew (ss4k_exact inf bits k)) with k.
  change (fmul (s:=S_) (W:=scalar) (fv (s:=S_) (W:=scalar) k) (fadd (s:=S_) (W:=scalar) (fadd (s:=S_) (W:=scalar) (fadd (s:=S_) (W:=scalar) X Y) Z0) W0)) with (k * (X + Y + Z0 + W0)).
  change (fadd (s:=S_) (W:=scalar) X (k * (X + Y + Z0 + W0))) with (X + k * (X + Y + Z0 + W0)). change (fadd (s:=S_) (W:=scalar) Y (k * (X + Y + Z0 + W0))) with (Y + k * (X + Y + Z0 + W0)).
  change (fadd (s:=S_) (W:=scalar) Z0 (k * (X + Y + Z0 + W0))) with (Z0 + k * (X + Y + Z0 + W0)). change (fadd (s:=S_) (W:=scalar) W0 (k * (X + Y + Z0 + W0))) with (W0 + k * (X + Y + Z0 + W0)).
  generalize (X + k * (X + Y + Z0 + W0)) (Y + k * (X + Y + Z0 + W0)) (Z0 + k * (X + Y + Z0 + W0)) (W0 + k * (X + Y + Z0 + W0)). clear X Y Z0 W0. intros x y z w.
  unfold prX, prY, prZ, prW. rewrite !move_p, !move_d, !frac0, near4_eq. unfold ss4_taken.
  pose proof (ss4_base_eq x y z w) as E. cbv zeta in E. apply ss4_cell in E as C. rewrite E. clear E.
  set (b := near4 _ _ _ _ _) in *. clearbody b.
  rewrite !(bitb b 1), !(bitb b 2), !(bitb b 4), !(bitb b 8) by reflexivity.
  set (n := (Rfloor x + bit b 1)%Z) in *. set (m := (Rfloor y + bit b 2)%Z) in *. set (l := (Rfloor z + bit b 4)%Z) in *. set (o := (Rfloor w + bit b 8)%Z) in *. clearbody n m l o.
  cbn [ss4_from]. cbv zeta.
  refine (eq_trans (vector_sum_eq inf bits ft GradientOuterProduct seed (unskew 4) [x; y; z; w] (fun v => falloff (4/5) (offset (unskew 4) [x; y; z; w] v) / 16) _ _ _ _ (ss4_at_visits inf bits k n m l o x y z w C) _) _).
  - left. reflexivity.
  - cbn. lia.
  - apply (ss4_reaching n m l o x y z w C).
  - apply map_ext. intros i. unfold pushes. match goal with |- sum (map _ ?l) = _ => set (vs := l) end. clearbody vs. clear. unfold push.
    induction vs as [|v vs IH]; cbn [map]; [rewrite sum_nil; field|]. rewrite !sum_cons. toR. rewrite IH. field.
Qed.

(** ** C66 *)
(** [q] is [p] moved by the amplitude [a] times, on each axis, its scale, times a vector no longer than [m] *)
Definition moved_within (m a : R) (axis p q : list R) : Prop :=
  exists D, length D = length p /\ sumsq D <= m * m /\ q = map (fun i => nth i p 0 + a * (nth i axis 0 * nth i D 0)) (seq 0 (length p)).
Lemma sumsq_scale : forall B (p : nat -> R) l, sumsq (map (fun i => B * p i) l) = B * B * sumsq (map p l).
Proof. intros B p l. unfold sumsq. induction l as [|i l IH]; cbn [map fold_right]; [ring|]. rewrite IH. ring. Qed.
Lemma moved_within_sum : forall n m M B a axis out (p : nat -> R), length out = n -> 0 < B -> 0 <= M -> M * B <= m -> sumsq (map p (seq 0 n)) <= M * M ->
  moved_within m a axis out (map (fun i => nth i out 0 + a * (nth i axis 0 * (B * p i))) (seq 0 n)).
Proof.
  intros n m M B a axis out p Lo HB HM0 HM H. exists (map (fun i => B * p i) (seq 0 n)). split; [rewrite map_length, seq_length; auto|]. split.
  - rewrite sumsq_scale. pose proof (sumsq_pos (map p (seq 0 n))) as P. apply Rle_trans with (B * B * (M * M)); [apply Rmult_le_compat_l; [nra|exact H]|].
    replace (B * B * (M * M)) with ((M * B) * (M * B)) by ring. apply Rmult_le_compat; nra.
  - rewrite Lo. apply map_ext_in. intros i Hi. apply in_seq in Hi. rewrite nth_mapseq by lia. reflexivity.
Qed.
Ltac kb := unfold bound; cbn [kBoundWarp kBoundWarpSuper lit Rops];
  repeat match goal with |- context [pow2 (Zneg ?k)] => change (Zneg k) with (- (Zpos k))%Z; rewrite (pow2_neg (Zpos k)) by lia end;
  repeat match goal with |- context [(2 ^ Zpos ?k)%Z] => let v := eval compute in (2 ^ Zpos k)%Z in change (2 ^ Zpos k)%Z with v end.
Lemma bsx2 : forall s, bound inf bits false s 2 = match s with GradientOuterProduct => 1635727/65536 | _ => 4597223/65536 end. Proof. intros []; kb; reflexivity. Qed.
Lemma bss2 : forall s, bound inf bits true s 2 = match s with GradientOuterProduct => 9741205/2097152 | _ => 6561/512 end. Proof. intros []; kb; reflexivity. Qed.
Lemma bsx3 : forall s, bound inf bits false s 3 = match s with GradientOuterProduct => 12120673/524288 | _ => 1067033/65536 end. Proof. intros []; kb; reflexivity. Qed.
Lemma bss3 : forall s, bound inf bits true s 3 = match s with GradientOuterProduct => 13414447/131072 | _ => 4933155/131072 end. Proof. intros []; kb; reflexivity. Qed.
Lemma bsx4 : bound inf bits false GradientOuterProduct 4 = 6238071/262144. Proof. kb; reflexivity. Qed.
Lemma bss4 : bound inf bits true GradientOuterProduct 4 = 10678461/131072. Proof. kb; reflexivity. Qed.

(** 2D: both nodes, both schemes (lattice constants before rounding): the position moves by at most the amplitude. *)
Theorem C66_simplex2 : forall ft (K : swk S_) scheme so axis (k : R) (seed : Z) (a x y : R) out,
  length axis = 4%nat -> length out = 2%nat -> sw2 K = sx2k_exact inf bits k ->
  moved_within (1 + 1/500) a axis out (snd (SimplexWarpK (s:=S_) (W:=scalar) ft K scheme so axis seed a [x; y] out)).
Proof.
  intros ft K scheme so axis k seed a x y out Ha Ho HK. destruct (local_vertices2 k 1 x y) as (d & L & Hd & _ & HR).
  assert (RE : reaching (1/2) (unskew 2) (skew k [x; y]) L) by (rewrite <- skewed_1; apply HR; [lra| |]; rewrite Rminus_diag_eq, Rabs_R0 by reflexivity; exact Hd).
  rewrite (C65_simplex2_all_vertices inf bits ft K scheme so axis k seed a x y L out Ha Ho HK RE).
  assert (Lq : length (skew k [x; y]) = 2%nat) by reflexivity. apply reaching_distinct in RE. rewrite Lq in RE. rewrite bsx2.
  destruct scheme.
  - apply (moved_within_sum 2 _ ((1 + 1/500) / (4597223/65536))); [exact Ho|lra|lra|lra|]. apply sxw2_ortho_reach; assumption.
  - apply (moved_within_sum 2 _ ((1 + 1/500) / (1635727/65536))); [exact Ho|lra|lra|lra|]. apply sxw2_outer_reach; assumption.
Qed.
Theorem C66_supersimplex2 : forall ft (K : swk S_) scheme axis (k : R) (seed : Z) (a x y : R) out,
  length axis = 4%nat -> length out = 2%nat -> sws2 K = ss2k_exact inf bits k ->
  moved_within (1 + 1/500) a axis out (snd (SuperSimplexWarpK (s:=S_) (W:=scalar) ft K scheme axis seed a [x; y] out)).
Proof.
  intros ft K scheme axis k seed a x y out Ha Ho HK. destruct (local_vertices2 k 1 x y) as (d & L & Hd & _ & HR).
  assert (RE : reaching (2/3) (unskew 2) (skew k [x; y]) L) by (rewrite <- skewed_1; apply HR; [lra| |]; rewrite Rminus_diag_eq, Rabs_R0 by reflexivity; exact Hd).
  rewrite (C65_supersimplex2_all_vertices inf bits ft K scheme axis k seed a x y L out Ha Ho HK RE).
  assert (Lq : length (skew k [x; y]) = 2%nat) by reflexivity. apply reaching_distinct in RE. rewrite Lq in RE. rewrite bss2.
  destruct scheme.
  - apply (moved_within_sum 2 _ ((1 + 1/500) / (6561/512))); [exact Ho|lra|lra|lra|]. apply ssw2_ortho_reach; assumption.
  - apply (moved_within_sum 2 _ ((1 + 1/500) / (9741205/2097152))); [exact Ho|lra|lra|lra|]. apply ssw2_outer_reach; assumption.
Qed.
(** 3D, constants of the code *)
Theorem C66_simplex3_matrix : forall ft so axis (seed : Z) (a x y z : R) out, length axis = 4%nat -> length out = 3%nat ->
  moved_within (1 + 1/50) a axis out (snd (SimplexWarp (s:=S_) (W:=scalar) ft OrthogonalGradientMatrix so axis seed a [x; y; z] out)).
Proof.
  intros ft so axis seed a x y z out Ha Ho. destruct (C65_simplex3 ft OrthogonalGradientMatrix so axis seed a x y z out Ha Ho) as (vs & A & ->).
  assert (Lq : length (skew kSkew3 [x; y; z]) = 3%nat) by reflexivity. apply simplex_distinct in A. rewrite Lq in A. rewrite bsx3. cbn [tilted].
  apply (moved_within_sum 3 _ ((1 + 1/50) / (1067033/65536))); [exact Ho|lra|lra|lra|]. apply sxw3_ortho_reach; assumption.
Qed.
(** The wrong constant of the orientation (C64) leaves only a bound of twice the amplitude. *)
Theorem C66_simplex3_product_partial : forall ft so axis (seed : Z) (a x y z : R) out, length axis = 4%nat -> length out = 3%nat ->
  moved_within (2 * (1 + 1/50)) a axis out (snd (SimplexWarp (s:=S_) (W:=scalar) ft GradientOuterProduct so axis seed a [x; y; z] out)).
Proof.
  intros ft so axis seed a x y z out Ha Ho. destruct (C65_simplex3 ft GradientOuterProduct so axis seed a x y z out Ha Ho) as (vs & A & ->).
  assert (Lq : length (skew kSkew3 [x; y; z]) = 3%nat) by reflexivity. apply simplex_distinct in A. rewrite Lq in A. rewrite bsx3.
  apply (moved_within_sum 3 _ (2 * ((1 + 1/50) / (12120673/524288)))); [exact Ho|lra|lra|lra|].
  pose proof (sxw3_outer_reach (z_add seed (s32 so)) _ vs Lq A) as H. set (p := pushes _ _ _ _ _ _) in *. clearbody p. cbn [seq map tilted] in *. unfold sumsq in *. cbn [fold_right] in *.
  set (p0 := p 0%nat) in *. set (p1 := p 1%nat) in *. set (p2 := p 2%nat) in *. pose proof (Rle_0_sqr (p0 - p1)). pose proof (Rle_0_sqr (p1 - p2)). pose proof (Rle_0_sqr (p0 - p2)). unfold Rsqr in *. lra.
Qed.
Theorem C66_supersimplex3_product : forall ft axis (seed : Z) (a x y z : R) out, length axis = 4%nat -> length out = 3%nat ->
  moved_within (1 + 1/40) a axis out (snd (SuperSimplexWarp (s:=S_) (W:=scalar) ft GradientOuterProduct axis seed a [x; y; z] out)).
Proof.
  intros ft axis seed a x y z out Ha Ho. destruct (local_vertices3 kSkew3 1 x y z) as (d & L & Hd & _ & HR).
  assert (RE : reaching (3/4) (unskew 3) (skew kSkew3 [x; y; z]) L) by (rewrite <- skewed_1; apply HR; [lra| | |]; rewrite Rminus_diag_eq, Rabs_R0 by reflexivity; exact Hd).
  rewrite (C65_supersimplex3_all_vertices inf bits ft GradientOuterProduct axis seed a x y z L out Ha Ho RE).
  assert (Lq : length (skew kSkew3 [x; y; z]) = 3%nat) by reflexivity. apply reaching_distinct in RE. rewrite Lq in RE. rewrite bss3.
  apply (moved_within_sum 3 _ ((1 + 1/40) / (13414447/131072/16))); [exact Ho|lra|lra|lra|].
  pose proof (ssw3_outer_reach seed _ L Lq RE) as H. set (p := pushes _ _ _ _ _ _) in *. clearbody p.
  pose proof (C64_supersimplex_keeps_length inf bits [p 0%nat; p 1%nat; p 2%nat] eq_refl) as R0. rewrite reflect3_eq, kRSS in R0. rewrite e20 in R0.
  cbn [seq map oriented] in *. unfold sumsq in *. cbn [fold_right] in *.
  match type of R0 with Rabs ?e <= ?f => assert (R1 : e <= f) by (eapply Rle_trans; [apply Rle_abs|exact R0]) end. lra.
Qed.
(** The matrix scheme of SuperSimplex 3D uses only half of the amplitude. *)
Theorem C66_supersimplex3_matrix_half : forall ft axis (seed : Z) (a x y z : R) out, length axis = 4%nat -> length out = 3%nat ->
  moved_within ((1 + 1/50) / 2) a axis out (snd (SuperSimplexWarp (s:=S_) (W:=scalar) ft OrthogonalGradientMatrix axis seed a [x; y; z] out)).
Proof.
  intros ft axis seed a x y z out Ha Ho. destruct (local_vertices3 kSkew3 1 x y z) as (d & L & Hd & _ & HR).
  assert (RE : reaching (3/4) (unskew 3) (skew kSkew3 [x; y; z]) L) by (rewrite <- skewed_1; apply HR; [lra| | |]; rewrite Rminus_diag_eq, Rabs_R0 by reflexivity; exact Hd).
  rewrite (C65_supersimplex3_all_vertices inf bits ft OrthogonalGradientMatrix axis seed a x y z L out Ha Ho RE).
  assert (Lq : length (skew kSkew3 [x; y; z]) = 3%nat) by reflexivity. apply reaching_distinct in RE. rewrite Lq in RE. rewrite bss3.
  apply (moved_within_sum 3 _ ((1 + 1/50) / 2 / (4933155/131072/16))); [exact Ho|lra|lra|lra|]. apply ssw3_ortho_reach; assumption.
Qed.
(** 4D, outer product scheme, lattice constants before rounding *)
Theorem C66_simplex4_partial : forall ft (K : swk S_) so axis (k : R) (seed : Z) (a x y z w : R) out,
  length axis = 4%nat -> length out = 4%nat -> sw4 K = sx4k_exact inf bits k kR06 ->
  moved_within (1 + 1/40) a axis out (snd (SimplexWarpK (s:=S_) (W:=scalar) ft K GradientOuterProduct so axis seed a [x; y; z; w] out)).
Proof.
  intros ft K so axis k seed a x y z w out Ha Ho HK. destruct (C65_simplex4 ft K so axis k seed a x y z w out Ha Ho HK) as (vs & A & ->).
  assert (Lq : length (skew k [x; y; z; w]) = 4%nat) by reflexivity. apply simplex_distinct in A. rewrite Lq in A. rewrite bsx4.
  apply (moved_within_sum 4 _ ((1 + 1/40) / (6238071/262144))); [exact Ho|lra|lra|lra|]. apply sxw4_outer_reach; assumption.
Qed.
Theorem C66_supersimplex4_partial : forall ft (K : swk S_) axis (k : R) (seed : Z) (a x y z w : R) out,
  length axis = 4%nat -> length out = 4%nat -> sws4 K = ss4k_exact inf bits k ->
  moved_within (1 + 1/15) a axis out (snd (SuperSimplexWarpK (s:=S_) (W:=scalar) ft K GradientOuterProduct axis seed a [x; y; z; w] out)).
Proof.
  intros ft K axis k seed a x y z w out Ha Ho HK. destruct (C65_supersimplex4 ft K axis k seed a x y z w out Ha Ho HK) as (vs & A & ->).
  assert (Lq : length (skew k [x; y; z; w]) = 4%nat) by reflexivity. apply reaching_distinct in A. rewrite Lq in A. rewrite bss4.
  apply (moved_within_sum 4 _ ((1 + 1/15) / (10678461/131072/16))); [exact Ho|lra|lra|lra|]. apply ssw4_outer_reach; assumption.
Qed.
(** What the nodes do with it: the source is evaluated at the moved position. *)
Theorem C66_node : forall (w : warp_node S_ scalar) m (seed : Z) (pos : list R), dims pos ->
  (forall (seed' : Z) (a : R) zs, length zs = length pos -> moved_within m a (wAxisScale w) pos (snd (wWarp w seed' a zs pos))) ->
  exists q, moved_within m (val inf bits (wAmplitude w) seed pos) (wAxisScale w) pos q /\ DomainWarpGen (s:=S_) (W:=scalar) w seed pos = wSource w seed q.
Proof.
  intros w m seed pos Hd H. unfold DomainWarpGen, slet. rewrite gsv_val, so_eq.
  eexists. split; [|reflexivity]. apply H. rewrite map_length. reflexivity.
Qed.

(** The outer product scheme of Simplex 3D: a position that moves by 1.7 times the amplitude. *)
Theorem C66_simplex3_product_refuted : exists (seed : Z) (x y z : R), forall ft (a : R),
  (17/10 * a) * (17/10 * a) <= sumsq (snd (SimplexWarp (s:=S_) (W:=scalar) ft GradientOuterProduct 0 [1; 1; 1; 1] seed a [x; y; z] [0; 0; 0])).
Proof.
  assert (HK : 1 + 3 * kSkew3 <> 0) by (unfold kSkew3; lra).
  set (c := kSkew3 / (1 + INR 3 * kSkew3) * (60/64)).
  exists 176792%Z, (11/64 - c), (49/64 - c), (0 - c). intros ft a.
  assert (E : back 3 kSkew3 [11/64; 49/64; 0] = [11/64 - c; 49/64 - c; 0 - c]).
  { unfold back. cbn [map]. rewrite !sum_cons, sum_nil. unfold c. replace (11 / 64 + (49 / 64 + (0 + 0))) with (60/64) by lra. reflexivity. }
  rewrite simplex3_warp_eq by reflexivity. rewrite <- E, <- skewed_1, skewed_back3 by exact HK. change (z_add 176792 (s32 0)) with 176792%Z.
  assert (T : simplex3_taken [11/64; 49/64; 0] = [[0; 0; 0]; [0; 1; 0]; [1; 1; 0]; [1; 1; 1]]%Z).
  { cbn [simplex3_taken]. cbv zeta. rewrite !Rfloor_0 by lra. rewrite Rleb_false, !Rleb_true by lra. reflexivity. }
  rewrite T. cbn [seq map nth tilted]. rewrite bsx3. unfold pushes. cbn [map]. rewrite !sum_cons, !sum_nil. unfold push, falloff. rewrite !sqlen3, !off3.
  replace (hash31 176792 [0; 0; 0]%Z) with 1397733913%Z by (vm_compute; reflexivity). replace (hash31 176792 [0; 1; 0]%Z) with 454365840%Z by (vm_compute; reflexivity).
  replace (hash31 176792 [1; 1; 0]%Z) with 1211556258%Z by (vm_compute; reflexivity). replace (hash31 176792 [1; 1; 1]%Z) with 1269219038%Z by (vm_compute; reflexivity).
  cbn [turned]. cbv zeta.
  change (warp3_grad 1397733913) with ((-1, 0, -1) : R * R * R). change (warp3_grad 454365840) with ((1, -1, 0) : R * R * R). change (warp3_grad 1211556258) with ((1, 0, -1) : R * R * R). change (warp3_grad 1269219038) with ((-1, 0, -1) : R * R * R).
  change (outer3_vec 1397733913) with ((1, 1, 0) : R * R * R). change (outer3_vec 454365840) with ((1, 1, 0) : R * R * R). change (outer3_vec 1211556258) with ((-1, -1, 0) : R * R * R). change (outer3_vec 1269219038) with ((0, -1, 1) : R * R * R).
  cbn [nth]. unfold dot3, Q3, kR06, sumsq. cbn [fold_right].
  repeat match goal with |- context [Rmax 0 ?e] => first [rewrite (Rmax_right 0 e) by lra | rewrite (Rmax_left 0 e) by lra] end.
  match goal with |- _ <= (0 + a * (1 * ?A)) * _ + ((0 + a * (1 * ?B)) * _ + ((0 + a * (1 * ?C)) * _ + 0)) => set (A0 := A); set (B0 := B); set (C0 := C) end.
  assert (HA : A0 <= -7/10) by (unfold A0; lra). assert (HB : B0 <= -7/10) by (unfold B0; lra). assert (HC : C0 <= -14/10) by (unfold C0; lra). clearbody A0 B0 C0.
  assert (0 <= a * a) by nra. assert (289/100 <= A0 * A0 + B0 * B0 + C0 * C0) by nra.
  match goal with |- ?l <= ?r => replace l with (a * a * (289/100)) by field; replace r with (a * a * (A0 * A0 + B0 * B0 + C0 * C0)) by ring end. apply Rmult_le_compat_l; assumption.
Qed.
End P.
(** ** What the bound means, and concrete cases *)
(** With the default axis scale of 1 the distance moved is at most [m] times the amplitude. *)
Example C66_meaning : forall m a p q, 0 <= m -> length p = length q -> (length p <= 4)%nat -> moved_within m a [1; 1; 1; 1] p q ->
  sumsq (map (fun i => nth i q 0 - nth i p 0) (seq 0 (length p))) <= (m * a) * (m * a).
Proof.
  intros m a p q Hm L L4 (D & LD & S & ->). assert (E : map (fun i => nth i (map (fun i0 => nth i0 p 0 + a * (nth i0 [1; 1; 1; 1] 0 * nth i0 D 0)) (seq 0 (length p))) 0 - nth i p 0) (seq 0 (length p)) = map (fun i => a * nth i D 0) (seq 0 (length p))).
  { apply map_ext_in. intros i Hi. apply in_seq in Hi. rewrite nth_mapseq by lia. assert (nth i [1; 1; 1; 1] 0 = 1) as -> by (destruct i as [|[|[|[|i]]]]; try reflexivity; lia). ring. }
  rewrite E, sumsq_scale. assert (F : map (fun i => nth i D 0) (seq 0 (length p)) = D).
  { rewrite <- LD. apply (nth_ext _ _ 0 0); [rewrite map_length, seq_length; reflexivity|]. intros i Hi. rewrite map_length, seq_length in Hi. apply nth_mapseq. exact Hi. }
  rewrite F. replace (m * a * (m * a)) with (a * a * (m * m)) by ring. apply Rmult_le_compat_l; [nra|exact S].
Qed.
(** SuperSimplex 3D at amplitude 50 moves (100, 250, 7) by at most 51.25 *)
Example C66_case : forall inf bits ft, let q : list R := snd (SuperSimplexWarp (s:=Rops inf bits) (W:=scalar) ft GradientOuterProduct [1; 1; 1; 1] 1337%Z 50 [1; 2.5; 0.07] [100; 250; 7]) in
  length q = 3%nat -> (nth 0 q 0 - 100) ^ 2 + (nth 1 q 0 - 250) ^ 2 + (nth 2 q 0 - 7) ^ 2 <= 51.25 ^ 2.
Proof.
  intros inf bits ft q L. pose proof (C66_supersimplex3_product inf bits ft [1; 1; 1; 1] 1337%Z 50 1 2.5 0.07 [100; 250; 7] eq_refl eq_refl : moved_within (1 + 1/40) 50 [1; 1; 1; 1] [100; 250; 7] q) as H.
  clearbody q. apply C66_meaning in H; [|lra|symmetry; exact L|cbn; lia]. cbn [length seq map] in H. unfold sumsq in H. cbn [fold_right nth] in H.
  set (X := nth 0 q 0 - 100) in *. set (Y := nth 1 q 0 - 250) in *. set (Z0 := nth 2 q 0 - 7) in *. clearbody X Y Z0. replace (X ^ 2 + Y ^ 2 + Z0 ^ 2) with (X * X + (Y * Y + (Z0 * Z0 + 0))) by ring. lra.
Qed.
Print Assumptions C65_simplex3.
Print Assumptions C65_simplex4.
Print Assumptions C65_supersimplex4.
Print Assumptions C66_simplex2.
Print Assumptions C66_supersimplex2.
Print Assumptions C66_simplex3_matrix.
Print Assumptions C66_simplex3_product_partial.
Print Assumptions C66_simplex3_product_refuted.
Print Assumptions C66_supersimplex3_product.
Print Assumptions C66_supersimplex3_matrix_half.
Print Assumptions C66_simplex4_partial.
Print Assumptions C66_supersimplex4_partial.
Print Assumptions C66_node.
