(** C52, C53: domain warp. Real arithmetic, one lane (C51 carries the results to every lane). *)
From Coq Require Import Reals ZArith List Bool Lia Lra Psatz.
From Verif Require Import Prelude Simd_Model Utils_Model Nodes_Model Setters_Model Warp_Model Cellular_Model Simd_R Bits P_Hash P_Blend P_Modifiers Lattice P_Lattice.
Import ListNotations.
Open Scope R_scope.

Section Warp.
Variable inf : R.
Variable bits : R -> Z.
Notation S_ := (Rops inf bits).
Notation source := (source S_ scalar).
Notation fsub_ := (fsub (s:=S_) (W:=scalar)). Notation fmul_ := (fmul (s:=S_) (W:=scalar)).
Notation fmadd_ := (fmadd (s:=S_) (W:=scalar)). Notation num_ := (num (s:=S_) (W:=scalar)).

(** the component of the warp direction a lattice point contributes along axis k, in d dimensions, from 0 to top d *)
Definition top (d : nat) : R := match d with 2%nat => 65535 | 3%nat => 1023 | _ => 255 end.
Definition field (d k : nat) (h : Z) : Z :=
  match d, k with
  | 2%nat, O => Z.land h 0xffff | 2%nat, _ => z_ushr 16 h
  | 3%nat, O => Z.land h 0x3ff | 3%nat, 1%nat => Z.land (h / 2^11) 0x3ff | 3%nat, _ => z_ushr 22 h
  | _, O => Z.land h 0xff | _, 1%nat => Z.land (h / 2^8) 0xff | _, 2%nat => Z.land (h / 2^16) 0xff | _, _ => z_ushr 24 h
  end.
Definition corner (d k : nat) (seed : Z) (cs : list Z) (os : list R) : R := IZR (field d k (hash_hb seed cs)).
(** the warp direction at a (scaled) position: components from -1 to 1 *)
Definition dir (d k : nat) (seed : Z) (zs : list R) : R := 2 / top d * lattice hermite (corner d k seed) zs - 1.
Definition dirs (seed : Z) (zs : list R) : list R := map (fun k => dir (length zs) k seed zs) (seq 0 (length zs)).
Lemma contrib2 : forall c00 c10 c01 c11 xs ys : R, (fmadd_ (fmul_ xs ys) c11 (fmadd_ (fmul_ (fsub_ (num_ 1) xs) ys) c01 (fmadd_ (fmul_ xs (fsub_ (num_ 1) ys)) c10 (fmul_ (fmul_ (fsub_ (num_ 1) xs) (fsub_ (num_ 1) ys)) c00)))) = ((1 - xs) * ((1 - ys) * c00 + ys * c01) + xs * ((1 - ys) * c10 + ys * c11)).
Proof. intros. sunf. rlit. toR. ring. Qed.
Lemma contrib3 : forall c000 c100 c010 c110 c001 c101 c011 c111 xs ys zs : R, (fmadd_ (fmul_ (fmul_ xs ys) zs) c111 (fmadd_ (fmul_ (fmul_ (fsub_ (num_ 1) xs) ys) zs) c011 (fmadd_ (fmul_ (fmul_ xs (fsub_ (num_ 1) ys)) zs) c101 (fmadd_ (fmul_ (fmul_ (fsub_ (num_ 1) xs) (fsub_ (num_ 1) ys)) zs) c001 (fmadd_ (fmul_ (fmul_ xs ys) (fsub_ (num_ 1) zs)) c110 (fmadd_ (fmul_ (fmul_ (fsub_ (num_ 1) xs) ys) (fsub_ (num_ 1) zs)) c010 (fmadd_ (fmul_ (fmul_ xs (fsub_ (num_ 1) ys)) (fsub_ (num_ 1) zs)) c100 (fmul_ (fmul_ (fmul_ (fsub_ (num_ 1) xs) (fsub_ (num_ 1) ys)) (fsub_ (num_ 1) zs)) c000)))))))) = ((1 - xs) * ((1 - ys) * ((1 - zs) * c000 + zs * c001) + ys * ((1 - zs) * c010 + zs * c011)) + xs * ((1 - ys) * ((1 - zs) * c100 + zs * c101) + ys * ((1 - zs) * c110 + zs * c111))).
Proof. intros. sunf. rlit. toR. ring. Qed.
Lemma contrib4 : forall c0000 c1000 c0100 c1100 c0010 c1010 c0110 c1110 c0001 c1001 c0101 c1101 c0011 c1011 c0111 c1111 xs ys zs ws : R, (fmadd_ (fmul_ (fmul_ (fmul_ xs ys) zs) ws) c1111 (fmadd_ (fmul_ (fmul_ (fmul_ (fsub_ (num_ 1) xs) ys) zs) ws) c0111 (fmadd_ (fmul_ (fmul_ (fmul_ xs (fsub_ (num_ 1) ys)) zs) ws) c1011 (fmadd_ (fmul_ (fmul_ (fmul_ (fsub_ (num_ 1) xs) (fsub_ (num_ 1) ys)) zs) ws) c0011 (fmadd_ (fmul_ (fmul_ (fmul_ xs ys) (fsub_ (num_ 1) zs)) ws) c1101 (fmadd_ (fmul_ (fmul_ (fmul_ (fsub_ (num_ 1) xs) ys) (fsub_ (num_ 1) zs)) ws) c0101 (fmadd_ (fmul_ (fmul_ (fmul_ xs (fsub_ (num_ 1) ys)) (fsub_ (num_ 1) zs)) ws) c1001 (fmadd_ (fmul_ (fmul_ (fmul_ (fsub_ (num_ 1) xs) (fsub_ (num_ 1) ys)) (fsub_ (num_ 1) zs)) ws) c0001 (fmadd_ (fmul_ (fmul_ (fmul_ xs ys) zs) (fsub_ (num_ 1) ws)) c1110 (fmadd_ (fmul_ (fmul_ (fmul_ (fsub_ (num_ 1) xs) ys) zs) (fsub_ (num_ 1) ws)) c0110 (fmadd_ (fmul_ (fmul_ (fmul_ xs (fsub_ (num_ 1) ys)) zs) (fsub_ (num_ 1) ws)) c1010 (fmadd_ (fmul_ (fmul_ (fmul_ (fsub_ (num_ 1) xs) (fsub_ (num_ 1) ys)) zs) (fsub_ (num_ 1) ws)) c0010 (fmadd_ (fmul_ (fmul_ (fmul_ xs ys) (fsub_ (num_ 1) zs)) (fsub_ (num_ 1) ws)) c1100 (fmadd_ (fmul_ (fmul_ (fmul_ (fsub_ (num_ 1) xs) ys) (fsub_ (num_ 1) zs)) (fsub_ (num_ 1) ws)) c0100 (fmadd_ (fmul_ (fmul_ (fmul_ xs (fsub_ (num_ 1) ys)) (fsub_ (num_ 1) zs)) (fsub_ (num_ 1) ws)) c1000 (fmul_ (fmul_ (fmul_ (fmul_ (fsub_ (num_ 1) xs) (fsub_ (num_ 1) ys)) (fsub_ (num_ 1) zs)) (fsub_ (num_ 1) ws)) c0000)))))))))))))))) = ((1 - xs) * ((1 - ys) * ((1 - zs) * ((1 - ws) * c0000 + ws * c0001) + zs * ((1 - ws) * c0010 + ws * c0011)) + ys * ((1 - zs) * ((1 - ws) * c0100 + ws * c0101) + zs * ((1 - ws) * c0110 + ws * c0111))) + xs * ((1 - ys) * ((1 - zs) * ((1 - ws) * c1000 + ws * c1001) + zs * ((1 - ws) * c1010 + ws * c1011)) + ys * ((1 - zs) * ((1 - ws) * c1100 + ws * c1101) + zs * ((1 - ws) * c1110 + ws * c1111)))).
Proof. intros. sunf. rlit. toR. ring. Qed.
Lemma norm2 : forall e : R, fmsub (s:=S_) (W:=scalar) e (fv (s:=S_) (W:=scalar) (s_div (lit 1 0) (s_div (lit 65535 0) (lit 2 0)))) (num_ 1) = 2 / top 2 * e - 1.
Proof. intros. sunf. rlit. unfold top. toR. field. Qed.
Lemma gradient2 : forall so (axis : list R) (seed : Z) (a x y xo yo : R),
  let s := z_add seed (s32 so) in
  GradientWarp (s:=S_) (W:=scalar) so axis seed a [x; y] [xo; yo] = (dir 2 0 s [x; y] * dir 2 0 s [x; y] + dir 2 1 s [x; y] * dir 2 1 s [x; y], [dir 2 0 s [x; y] * (a * nth 0 axis 0) + xo; dir 2 1 s [x; y] * (a * nth 1 axis 0) + yo]).
Proof.
  intros. cbn [GradientWarp]. unfold GradientWarp2, grad2, slet, prX, prY. cbn [fst snd]. rewrite !contrib2, !hermite_eq, so_eq, !upper, !lower, !norm2. fold s.
  match goal with |- context [2 / top 2 * ?e - 1] =>
    assert (E0 : e = lattice hermite (corner 2 0 s) [x; y]) by (unfold lattice; cbn [map wsum nth offs]; unfold corner, hash_hb; cbn [primed PrimesLookup field]; reflexivity); rewrite E0; clear E0; fold (dir 2 0 s [x; y]) end.
  match goal with |- context [2 / top 2 * ?e - 1] =>
    assert (E1 : e = lattice hermite (corner 2 1 s) [x; y]) by (unfold lattice; cbn [map wsum nth offs]; unfold corner, hash_hb; cbn [primed PrimesLookup field]; reflexivity); rewrite E1; clear E1; fold (dir 2 1 s [x; y]) end.
  sunf. rlit. reflexivity.
Qed.
Lemma norm3 : forall e : R, fmsub (s:=S_) (W:=scalar) e (fv (s:=S_) (W:=scalar) (s_div (lit 1 0) (s_div (lit 1023 0) (lit 2 0)))) (num_ 1) = 2 / top 3 * e - 1.
Proof. intros. sunf. rlit. unfold top. toR. field. Qed.
Lemma gradient3 : forall so (axis : list R) (seed : Z) (a x y z xo yo zo : R),
  let s := z_add seed (s32 so) in
  GradientWarp (s:=S_) (W:=scalar) so axis seed a [x; y; z] [xo; yo; zo] = (dir 3 0 s [x; y; z] * dir 3 0 s [x; y; z] + (dir 3 1 s [x; y; z] * dir 3 1 s [x; y; z] + dir 3 2 s [x; y; z] * dir 3 2 s [x; y; z]), [dir 3 0 s [x; y; z] * (a * nth 0 axis 0) + xo; dir 3 1 s [x; y; z] * (a * nth 1 axis 0) + yo; dir 3 2 s [x; y; z] * (a * nth 2 axis 0) + zo]).
Proof.
  intros. cbn [GradientWarp]. unfold GradientWarp3, grad3, slet, prX, prY, prZ. cbn [fst snd]. rewrite !contrib3, !hermite_eq, so_eq, !upper, !lower, !norm3. fold s.
  match goal with |- context [2 / top 3 * ?e - 1] =>
    assert (E0 : e = lattice hermite (corner 3 0 s) [x; y; z]) by (unfold lattice; cbn [map wsum nth offs]; unfold corner, hash_hb; cbn [primed PrimesLookup field]; reflexivity); rewrite E0; clear E0; fold (dir 3 0 s [x; y; z]) end.
  match goal with |- context [2 / top 3 * ?e - 1] =>
    assert (E1 : e = lattice hermite (corner 3 1 s) [x; y; z]) by (unfold lattice; cbn [map wsum nth offs]; unfold corner, hash_hb; cbn [primed PrimesLookup field]; reflexivity); rewrite E1; clear E1; fold (dir 3 1 s [x; y; z]) end.
  match goal with |- context [2 / top 3 * ?e - 1] =>
    assert (E2 : e = lattice hermite (corner 3 2 s) [x; y; z]) by (unfold lattice; cbn [map wsum nth offs]; unfold corner, hash_hb; cbn [primed PrimesLookup field]; reflexivity); rewrite E2; clear E2; fold (dir 3 2 s [x; y; z]) end.
  sunf. rlit. reflexivity.
Qed.
Lemma norm4 : forall e : R, fmsub (s:=S_) (W:=scalar) e (fv (s:=S_) (W:=scalar) (s_div (lit 1 0) (s_div (lit 255 0) (lit 2 0)))) (num_ 1) = 2 / top 4 * e - 1.
Proof. intros. sunf. rlit. unfold top. toR. field. Qed.
Lemma gradient4 : forall so (axis : list R) (seed : Z) (a x y z w xo yo zo wo : R),
  let s := z_add seed (s32 so) in
  GradientWarp (s:=S_) (W:=scalar) so axis seed a [x; y; z; w] [xo; yo; zo; wo] = (dir 4 0 s [x; y; z; w] * dir 4 0 s [x; y; z; w] + (dir 4 1 s [x; y; z; w] * dir 4 1 s [x; y; z; w] + (dir 4 2 s [x; y; z; w] * dir 4 2 s [x; y; z; w] + dir 4 3 s [x; y; z; w] * dir 4 3 s [x; y; z; w])), [dir 4 0 s [x; y; z; w] * (a * nth 0 axis 0) + xo; dir 4 1 s [x; y; z; w] * (a * nth 1 axis 0) + yo; dir 4 2 s [x; y; z; w] * (a * nth 2 axis 0) + zo; dir 4 3 s [x; y; z; w] * (a * nth 3 axis 0) + wo]).
Proof.
  intros. cbn [GradientWarp]. unfold GradientWarp4, grad4, slet, prX, prY, prZ, prW. cbn [fst snd]. rewrite !contrib4, !hermite_eq, so_eq, !upper, !lower, !norm4. fold s.
  match goal with |- context [2 / top 4 * ?e - 1] =>
    assert (E0 : e = lattice hermite (corner 4 0 s) [x; y; z; w]) by (unfold lattice; cbn [map wsum nth offs]; unfold corner, hash_hb; cbn [primed PrimesLookup field]; reflexivity); rewrite E0; clear E0; fold (dir 4 0 s [x; y; z; w]) end.
  match goal with |- context [2 / top 4 * ?e - 1] =>
    assert (E1 : e = lattice hermite (corner 4 1 s) [x; y; z; w]) by (unfold lattice; cbn [map wsum nth offs]; unfold corner, hash_hb; cbn [primed PrimesLookup field]; reflexivity); rewrite E1; clear E1; fold (dir 4 1 s [x; y; z; w]) end.
  match goal with |- context [2 / top 4 * ?e - 1] =>
    assert (E2 : e = lattice hermite (corner 4 2 s) [x; y; z; w]) by (unfold lattice; cbn [map wsum nth offs]; unfold corner, hash_hb; cbn [primed PrimesLookup field]; reflexivity); rewrite E2; clear E2; fold (dir 4 2 s [x; y; z; w]) end.
  match goal with |- context [2 / top 4 * ?e - 1] =>
    assert (E3 : e = lattice hermite (corner 4 3 s) [x; y; z; w]) by (unfold lattice; cbn [map wsum nth offs]; unfold corner, hash_hb; cbn [primed PrimesLookup field]; reflexivity); rewrite E3; clear E3; fold (dir 4 3 s [x; y; z; w]) end.
  sunf. rlit. reflexivity.
Qed.
(** ** Specification *)
Definition sumsq (ds : list R) : R := fold_right (fun d acc => d * d + acc) 0 ds.
(** coordinate k of [out] moved by a * axis_k * ds_k *)
Definition moved (a : R) (axis ds out : list R) : list R :=
  map (fun k => nth k out 0 + a * nth k axis 0 * nth k ds 0) (seq 0 (length out)).
(** A warp: moves the out position along a direction that depends on the seed and the scaled position only, by the
    given amplitude, and returns the squared length of the direction. *)
Definition is_warp (axis : list R) (dirf : Z -> list R -> list R) (warp : warp_fn S_ scalar) : Prop :=
  forall seed (a : R) (zs out : list R), dims zs -> length out = length zs ->
  warp seed a zs out = (sumsq (dirf seed zs), moved a axis (dirf seed zs) out).
Definition gradient_dir (so : Z) (seed : Z) (zs : list R) : list R := dirs (z_add seed (s32 so)) zs.

Theorem C53_gradient_is_warp : forall so axis, is_warp axis (gradient_dir so) (GradientWarp (s:=S_) (W:=scalar) so axis).
Proof.
  intros so axis seed a zs out Hd Hl. unfold dims in Hd.
  destruct zs as [|x [|y [|z [|w [|? ?]]]]]; cbn [length] in Hd; try lia;
    destruct out as [|xo [|yo [|zo [|wo [|? ?]]]]]; cbn [length] in Hl; try discriminate.
  - rewrite gradient2. unfold gradient_dir, dirs, moved, sumsq. cbn [length seq map nth fold_right]. apply (f_equal2 pair); [toR; ring|]. repeat apply (f_equal2 cons); try reflexivity; toR; ring.
  - rewrite gradient3. unfold gradient_dir, dirs, moved, sumsq. cbn [length seq map nth fold_right]. apply (f_equal2 pair); [toR; ring|]. repeat apply (f_equal2 cons); try reflexivity; toR; ring.
  - rewrite gradient4. unfold gradient_dir, dirs, moved, sumsq. cbn [length seq map nth fold_right]. apply (f_equal2 pair); [toR; ring|]. repeat apply (f_equal2 cons); try reflexivity; toR; ring.
Qed.

(** ** The direction has components from -1 to 1 *)
Lemma land_ones_range : forall h n, (0 <= n)%Z -> (0 <= Z.land h (Z.ones n) < 2^n)%Z.
Proof. intros. rewrite Z.land_ones by assumption. apply Z.mod_pos_bound. lia. Qed.
Lemma ushr_range : forall h n, (1 <= n <= 32)%Z -> (0 <= z_ushr n h < 2^(32 - n))%Z.
Proof.
  intros h n H. unfold z_ushr, u32. pose proof (Z.mod_pos_bound h (2^32) ltac:(lia)) as M.
  assert (P : (0 < 2^n)%Z) by (apply Z.pow_pos_nonneg; lia).
  assert (E : (2^32 = 2^n * 2^(32-n))%Z) by (rewrite <- Z.pow_add_r by lia; f_equal; lia).
  assert (A : (0 <= h mod 2^32 / 2^n < 2^(32-n))%Z) by (split; [apply Z.div_pos; lia|apply Z.div_lt_upper_bound; [lia|rewrite <- E; lia]]).
  assert (B : (2^(32-n) <= 2^31)%Z) by (apply Z.pow_le_mono_r; lia).
  rewrite s32_id by lia. exact A.
Qed.
Lemma field_range : forall d k h, 0 <= IZR (field d k h) <= top d.
Proof.
  intros d k h. assert (X : (exists n : Z, (0 <= field d k h < 2^n)%Z /\ IZR (2^n - 1) <= top d)).
  { pose proof (land_ones_range h 16 ltac:(lia)). pose proof (ushr_range h 16 ltac:(lia)).
    pose proof (land_ones_range h 10 ltac:(lia)). pose proof (land_ones_range (h / 2^11) 10 ltac:(lia)). pose proof (ushr_range h 22 ltac:(lia)).
    pose proof (land_ones_range h 8 ltac:(lia)). pose proof (land_ones_range (h / 2^8) 8 ltac:(lia)). pose proof (land_ones_range (h / 2^16) 8 ltac:(lia)). pose proof (ushr_range h 24 ltac:(lia)).
    destruct d as [|[|[|[|d]]]]; [exists 8%Z|exists 8%Z|exists 16%Z|exists 10%Z|exists 8%Z];
      (split; [|cbn [top]; apply IZR_le; cbv; discriminate]); destruct k as [|[|[|k]]]; cbn [field]; assumption. }
  destruct X as (n & H & T). split; [apply IZR_le; lia|]. eapply Rle_trans; [|exact T]. apply IZR_le. lia.
Qed.
Lemma top_pos : forall d, 0 < top d. Proof. intros [|[|[|[|d]]]]; cbn [top]; lra. Qed.
Lemma dir_range : forall d k seed zs, -1 <= dir d k seed zs <= 1.
Proof.
  intros. unfold dir. pose proof (top_pos d) as T.
  assert (A : 0 <= lattice hermite (corner d k seed) zs <= top d).
  { unfold lattice. rewrite <- (wsum_const hermite (map Rfloor zs) 0 zs 0) at 1. rewrite <- (wsum_const hermite (map Rfloor zs) 0 zs (top d)).
    split; (apply wsum_mono; [intros; apply (interp_range Hermite); assumption|apply inside_floor|intros; apply field_range]). }
  set (l := lattice _ _ _) in *. assert (E : 2 / top d * l <= 2).
  { apply Rle_trans with (2 / top d * top d); [apply Rmult_le_compat_l; [|lra]|right; field; lra]. left. apply Rdiv_lt_0_compat; lra. }
  assert (0 <= 2 / top d * l) by (apply Rmult_le_pos; [left; apply Rdiv_lt_0_compat; lra|lra]). lra.
Qed.
Lemma dirs_length : forall seed zs, length (dirs seed zs) = length zs.
Proof. intros. unfold dirs. rewrite map_length, seq_length. reflexivity. Qed.
Lemma nth_map_seq : forall (f : nat -> R) n k, (k < n)%nat -> nth k (map f (seq 0 n)) 0 = f k.
Proof.
  intros f n k H. rewrite nth_indep with (d' := f (nth k (seq 0 n) O)) by (rewrite map_length, seq_length; exact H).
  rewrite (map_nth f), seq_nth by exact H. reflexivity.
Qed.
Lemma dirs_range : forall seed zs k, -1 <= nth k (dirs seed zs) 0 <= 1.
Proof.
  intros. destruct (Nat.lt_ge_cases k (length zs)).
  - unfold dirs. rewrite nth_map_seq by assumption. apply dir_range.
  - rewrite nth_overflow by (rewrite dirs_length; assumption). lra.
Qed.
Lemma moved_length : forall a axis ds out, length (moved a axis ds out) = length out.
Proof. intros. unfold moved. rewrite map_length, seq_length. reflexivity. Qed.
Lemma moved_nth : forall a axis ds out k, (k < length out)%nat -> nth k (moved a axis ds out) 0 = nth k out 0 + a * nth k axis 0 * nth k ds 0.
Proof. intros. unfold moved. apply nth_map_seq. assumption. Qed.
Lemma scale_dims : forall f (pos : list R), dims pos -> dims (map (fun p => p * f) pos).
Proof. intros. unfold dims in *. rewrite map_length. assumption. Qed.

(** ** C52 *)
(** A DomainWarpGradient node: amplitude, axis scaling, seed offset, frequency *)
Definition gradient_node (src : source) (amp : hyb S_ scalar) (axis : list R) (so : Z) (freq : R) : warp_node S_ scalar :=
  {| wSource := src; wAmplitude := amp; wAxisScale := axis; wSeedOffset := so; wFrequency := freq; wWarp := GradientWarp (s:=S_) (W:=scalar) so axis |}.
Notation val := (val inf bits).
(** the position at which the source is evaluated; note that the seed offset counts twice *)
Lemma warp_gen_eq : forall src amp axis so freq (seed : Z) (pos : list R), dims pos ->
  DomainWarpGen (gradient_node src amp axis so freq) seed pos =
  src seed (moved (val amp seed pos) axis (gradient_dir so (z_add seed (s32 so)) (map (fun p => p * freq) pos)) pos).
Proof.
  intros. unfold DomainWarpGen, slet, gradient_node. cbn [wSource wAmplitude wSeedOffset wFrequency wWarp]. rewrite gsv_val, so_eq.
  match goal with |- context [GradientWarp _ _ _ _ ?z _] => change z with (map (fun p : R => p * freq) pos) end.
  rewrite C53_gradient_is_warp by (auto using scale_dims; rewrite map_length; reflexivity). reflexivity.
Qed.
(** The source is evaluated at a position every coordinate of which has moved by at most the amplitude times the
    axis scaling. *)
Theorem C52_gradient_axis_bound : forall amp axis so freq (seed : Z) (pos : list R), dims pos ->
  exists pos' : list R, length pos' = length pos /\
    (forall k, (k < length pos)%nat -> Rabs (nth k pos' 0 - nth k pos 0) <= Rabs (val amp seed pos) * Rabs (nth k axis 0)) /\
    forall src, DomainWarpGen (gradient_node src amp axis so freq) seed pos = src seed pos'.
Proof.
  intros. eexists. split; [|split]; [| |intros; apply warp_gen_eq; assumption].
  - apply moved_length.
  - intros k Hk. rewrite moved_nth by assumption. unfold gradient_dir.
    match goal with |- context [nth k (dirs ?s ?z) 0] => pose proof (dirs_range s z k) as D; set (d := nth k (dirs s z) 0) in * end.
    replace (nth k pos 0 + val amp seed pos * nth k axis 0 * d - nth k pos 0) with (val amp seed pos * nth k axis 0 * d) by ring.
    rewrite !Rabs_mult. assert (Rabs d <= 1) by (apply Rabs_le; lra).
    pose proof (Rmult_le_pos _ _ (Rabs_pos (val amp seed pos)) (Rabs_pos (nth k axis 0))). nra.
Qed.
Lemma moved_0 : forall axis ds pos, moved 0 axis ds pos = pos.
Proof.
  intros. rewrite (list_eta pos) at 2. unfold moved. apply map_ext_in. intros. ring.
Qed.
Theorem C52_zero_amplitude : forall src amp axis so freq (seed : Z) (pos : list R), dims pos -> val amp seed pos = 0 ->
  DomainWarpGen (gradient_node src amp axis so freq) seed pos = src seed pos.
Proof. intros. rewrite warp_gen_eq by assumption. rewrite H0, moved_0. reflexivity. Qed.

Definition dist2 (p q : list R) : R := sqrt (sumsq (map (fun k => nth k q 0 - nth k p 0) (seq 0 (length p)))).
(** The documentation promises the amplitude as the maximum Euclidean distance (DomainWarp.h:32): at this seed the origin
    moves by (amplitude, amplitude). *)
Theorem C52_euclidean_refuted : forall A, 0 < A -> exists (seed : Z) (pos' : list R),
  (forall src, DomainWarpGen (gradient_node src (@HConst S_ scalar A) [1; 1; 1; 1] 0 1) seed [0; 0] = src seed pos') /\ dist2 [0; 0] pos' > A.
Proof.
  intros A HA. exists 1735582115%Z, [A; A]. split.
  - intros src. rewrite warp_gen_eq by (unfold dims; cbn; lia). f_equal.
    unfold gradient_dir, dirs, moved. cbn [map length seq nth val].
    assert (E : [0 * 1; 0 * 1] = map IZR [0; 0]%Z) by (cbn [map]; repeat f_equal; ring).
    change (z_add (z_add 1735582115 (s32 0)) (s32 0)) with 1735582115%Z. unfold dir. rewrite E.
    rewrite !(lattice_at hermite) by apply (interp_0 Hermite). unfold corner. cbn [map].
    replace (hash_hb 1735582115 [0; 0]%Z) with (-1)%Z by (vm_compute; reflexivity).
    replace (field 2 0 (-1)) with 65535%Z by (vm_compute; reflexivity). replace (field 2 1 (-1)) with 65535%Z by (vm_compute; reflexivity).
    cbn [top]. unfold Simd_Model.V. repeat apply f_equal2; try reflexivity; toR; field.
  - unfold dist2. cbn [length seq map nth sumsq fold_right]. assert (X : sqrt (A * A) < sqrt ((A - 0) * (A - 0) + ((A - 0) * (A - 0) + 0))) by (apply sqrt_lt_1; nra). rewrite sqrt_square in X by lra. exact X.
Qed.

(** ** C53 *)
(** Octave i of a domain warp fractal, i = 0, 1, ...: its amplitude and the position before it. [progressive] says
    whether the direction is taken at the position warped so far or at the original position. *)
Section Octaves.
Variables (axis : list R) (dirf : Z -> list R -> list R) (progressive : bool).
Variables (freq lac gain ws : R) (seed : Z) (pos : list R) (amp : R).
Definition octave_dir (i : nat) (p : list R) : list R :=
  dirf (octave_seed seed i) (map (fun c => c * (freq * lac ^ i)) (if progressive then p else pos)).
Fixpoint octave_state (i : nat) : R * list R :=
  match i with
  | O => (amp, pos)
  | S i' => let '(a, p) := octave_state i' in let d := octave_dir i' p in
            (a * (1 - ws * sqrt (sumsq d)) * gain, moved a axis d p)
  end.
Definition octave_amp (i : nat) : R := fst (octave_state i).
Definition octave_pos (i : nat) : list R := snd (octave_state i).
Definition octave_direction (i : nat) : list R := octave_dir i (octave_pos i).
Lemma octave_amp_S : forall i, octave_amp (S i) = octave_amp i * (1 - ws * sqrt (sumsq (octave_direction i))) * gain.
Proof. intros. unfold octave_direction, octave_amp, octave_pos. cbn [octave_state]. destruct (octave_state i). reflexivity. Qed.
Lemma octave_pos_step : forall i, octave_pos (S i) = moved (octave_amp i) axis (octave_direction i) (octave_pos i).
Proof. intros. unfold octave_direction, octave_amp, octave_pos. cbn [octave_state]. destruct (octave_state i). reflexivity. Qed.
Lemma octave_pos_length : forall i, length (octave_pos i) = length pos.
Proof. induction i; [reflexivity|]. rewrite octave_pos_step, moved_length. exact IHi. Qed.
(** the final position: every octave moves coordinate k by amplitude * axis scaling * direction *)
Lemma octave_sum : forall n k, (k < length pos)%nat ->
  nth k (octave_pos n) 0 = nth k pos 0 + nth k axis 0 * sumR n (fun i => octave_amp i * nth k (octave_direction i) 0).
Proof.
  induction n; intros k Hk; [cbn; ring|]. rewrite octave_pos_step, moved_nth by (rewrite octave_pos_length; exact Hk).
  rewrite IHn by exact Hk. cbn [sumR]. ring.
Qed.
Lemma octave_amp_0 : ws = 0 -> forall i, octave_amp i = amp * gain ^ i.
Proof. intros W. induction i; [cbn; ring|]. rewrite octave_amp_S, IHi, W. cbn [pow]. ring. Qed.
Lemma octave_amp_zero : amp = 0 -> forall i, octave_amp i = 0.
Proof. intros W. induction i; [exact W|]. rewrite octave_amp_S, IHi. ring. Qed.
Lemma octave_pos_zero : amp = 0 -> forall i, octave_pos i = pos.
Proof.
  intros W. induction i; [reflexivity|]. rewrite octave_pos_step, octave_amp_zero, IHi by exact W. apply moved_0.
Qed.
Lemma octave_amp_bound : 0 <= ws <= 1 -> (forall i, sumsq (octave_direction i) <= 4) -> forall i, Rabs (octave_amp i) <= Rabs amp * Rabs gain ^ i.
Proof.
  intros Hw Hd. induction i; [cbn; lra|]. rewrite octave_amp_S, !Rabs_mult. cbn [pow].
  assert (B : 0 <= sqrt (sumsq (octave_direction i)) <= 2).
  { split; [apply sqrt_pos|]. replace 2 with (sqrt 4) by (replace 4 with (2 * 2) by ring; apply sqrt_square; lra).
    apply sqrt_le_1_alt. apply Hd. }
  set (q := sqrt _) in *. assert (Rabs (1 - ws * q) <= 1) by (apply Rabs_le; nra).
  pose proof (Rabs_pos (1 - ws * q)). pose proof (Rabs_pos gain). pose proof (Rabs_pos (octave_amp i)).
  replace (Rabs amp * (Rabs gain * Rabs gain ^ i)) with ((Rabs amp * Rabs gain ^ i) * Rabs gain) by ring.
  apply Rmult_le_compat_r; [assumption|]. nra.
Qed.
End Octaves.


Lemma sumsq_pos : forall ds, 0 <= sumsq ds.
Proof. unfold sumsq. induction ds; cbn [fold_right]; [lra|]. pose proof (Rle_0_sqr a). unfold Rsqr in *. lra. Qed.
Lemma scale_pow : forall (freq lac : R) i, freq * lac ^ S i = freq * lac ^ i * lac.
Proof. intros. cbn [pow]. ring. Qed.
Lemma lerp_amp : forall (a str ws gain : R), a * (Lerp (s:=S_) (W:=scalar) 1 (1 - str) ws) * gain = a * (1 - ws * str) * gain.
Proof. intros. unfold Lerp, slet. sunf. toR. ring. Qed.

Lemma length_sqrt : forall ft (x : R), 0 <= x -> FastLengthSqrt (s:=S_) (W:=scalar) ft x = sqrt x.
Proof.
  intros ft x Hx. unfold FastLengthSqrt. destruct (relaxed ft); [|reflexivity]. sunf. rlit.
  destruct (Reqb x 0) eqn:E.
  - apply Reqb_eq in E. subst. cbn [negb]. rewrite sqrt_0. toR. ring.
  - apply Reqb_ne in E. cbn [negb]. rewrite <- (sqrt_sqrt x) at 1 by exact Hx. toR. field. intros H. apply sqrt_eq_0 in H; auto.
Qed.
Lemma num_one : (num (s:=S_) (W:=scalar) 1 : R) = 1. Proof. sunf. rlit. reflexivity. Qed.
Lemma progressive_step : forall ft n warp (gain ws lac : R) seed (amp freq strength : R) (pos : list R), 0 <= strength ->
  progressive_loop (s:=S_) (W:=scalar) ft (S n) warp gain ws lac seed amp freq strength pos =
  let amp' : R := amp * (1 - ws * sqrt strength) * gain in
  let r := warp (z_sub seed (s32 (-1))) amp' (map (fun p => p * (freq * lac)) pos) pos in
  progressive_loop (s:=S_) (W:=scalar) ft n warp gain ws lac (z_sub seed (s32 (-1))) amp' (freq * lac) (fst r) (snd r).
Proof.
  intros. cbv zeta. rewrite <- lerp_amp, <- num_one, <- (length_sqrt ft) by assumption. reflexivity.
Qed.
Lemma independent_step : forall ft n warp (gain ws lac : R) seed (amp freq strength : R) (np pos : list R), 0 <= strength ->
  independent_loop (s:=S_) (W:=scalar) ft (S n) warp gain ws lac seed amp freq strength np pos =
  let amp' : R := amp * (1 - ws * sqrt strength) * gain in
  let r := warp (z_sub seed (s32 (-1))) amp' (map (fun p => p * (freq * lac)) np) pos in
  independent_loop (s:=S_) (W:=scalar) ft n warp gain ws lac (z_sub seed (s32 (-1))) amp' (freq * lac) (fst r) np (snd r).
Proof.
  intros. cbv zeta. rewrite <- lerp_amp, <- num_one, <- (length_sqrt ft) by assumption. reflexivity.
Qed.

Lemma progressive_loop_eq : forall ft n axis dirf warp gain ws lac freq seed (pos : list R) amp i,
  is_warp axis dirf warp -> dims pos ->
  let a := octave_amp axis dirf true freq lac gain ws seed pos amp in
  let p := octave_pos axis dirf true freq lac gain ws seed pos amp in
  let d := octave_direction axis dirf true freq lac gain ws seed pos amp in
  progressive_loop (s:=S_) (W:=scalar) ft n warp gain ws lac (octave_seed seed i) (a i) (freq * lac ^ i) (sumsq (d i)) (p (S i)) = p (S i + n)%nat.
Proof.
  induction n; intros axis dirf warp gain ws lac freq seed pos amp i Hw Hd a p d; [rewrite Nat.add_0_r; reflexivity|].
  rewrite progressive_step by apply sumsq_pos. cbv zeta. rewrite octave_seed_S, <- (scale_pow freq lac i).
  replace (a i * (1 - ws * sqrt (sumsq (d i))) * gain) with (a (S i)) by apply octave_amp_S.
  assert (L : length (p (S i)) = length pos) by apply octave_pos_length.
  rewrite (Hw (octave_seed seed (S i))) by (unfold dims in *; rewrite ?map_length, ?L; auto). cbn [fst snd].
  pose proof (IHn axis dirf warp gain ws lac freq seed pos amp (S i) Hw Hd) as IH. cbv zeta in IH.
  fold a p d in IH. replace (S i + S n)%nat with (S (S i) + n)%nat by lia. rewrite <- IH. replace (p (S (S i))) with (moved (a (S i)) axis (d (S i)) (p (S i))) by (symmetry; apply octave_pos_step). reflexivity.
Qed.
Lemma independent_loop_eq : forall ft n axis dirf warp gain ws lac freq seed (pos : list R) amp i,
  is_warp axis dirf warp -> dims pos ->
  let a := octave_amp axis dirf false freq lac gain ws seed pos amp in
  let p := octave_pos axis dirf false freq lac gain ws seed pos amp in
  let d := octave_direction axis dirf false freq lac gain ws seed pos amp in
  independent_loop (s:=S_) (W:=scalar) ft n warp gain ws lac (octave_seed seed i) (a i) (freq * lac ^ i) (sumsq (d i)) pos (p (S i)) = p (S i + n)%nat.
Proof.
  induction n; intros axis dirf warp gain ws lac freq seed pos amp i Hw Hd a p d; [rewrite Nat.add_0_r; reflexivity|].
  rewrite independent_step by apply sumsq_pos. cbv zeta. rewrite octave_seed_S, <- (scale_pow freq lac i).
  replace (a i * (1 - ws * sqrt (sumsq (d i))) * gain) with (a (S i)) by apply octave_amp_S.
  assert (L : length (p (S i)) = length pos) by apply octave_pos_length.
  rewrite (Hw (octave_seed seed (S i))) by (unfold dims in *; rewrite ?map_length, ?L; auto). cbn [fst snd].
  pose proof (IHn axis dirf warp gain ws lac freq seed pos amp (S i) Hw Hd) as IH. cbv zeta in IH.
  fold a p d in IH. replace (S i + S n)%nat with (S (S i) + n)%nat by lia. rewrite <- IH. replace (p (S (S i))) with (moved (a (S i)) axis (d (S i)) (p (S i))) by (symmetry; apply octave_pos_step). reflexivity.
Qed.
(** The first octave of both loops *)
Lemma first_octave : forall b axis dirf warp gain ws lac freq seed (pos : list R) amp, is_warp axis dirf warp -> dims pos -> in32 seed ->
  warp seed amp (map (fun p => p * freq) pos) pos =
  (sumsq (octave_direction axis dirf b freq lac gain ws seed pos amp 0), octave_pos axis dirf b freq lac gain ws seed pos amp 1).
Proof.
  intros b axis dirf warp gain ws lac freq seed pos amp Hw Hd Hs. rewrite Hw by (unfold dims in *; rewrite ?map_length; auto).
  rewrite octave_pos_step. unfold octave_direction, octave_dir, octave_amp, octave_pos. cbn [octave_state fst snd pow].
  replace (octave_seed seed 0) with seed by (unfold octave_seed; rewrite Z.add_0_r; symmetry; apply in32_s32_id; exact Hs).
  rewrite Rmult_1_r. replace (if b then pos else pos) with pos by (destruct b; reflexivity). reflexivity.
Qed.

(** The fractal warp node evaluates the warp's own source once, at the position reached after all octaves. [progressive]
    selects whether octave i looks up its direction at the position warped so far or at the original one; octave i uses
    seed + i, frequency * lacunarity^i and the amplitude [octave_amp i]. *)
Definition fractal_warp ft (progressive : bool) (fr : fractal S_ scalar) (w : warp_node S_ scalar) : source :=
  if progressive then DomainWarpFractalProgressiveGen ft fr w else DomainWarpFractalIndependentGen ft fr w.
Theorem C53_fractal : forall ft progressive axis dirf (fr : fractal S_ scalar) (w : warp_node S_ scalar) (seed : Z) (pos : list R),
  is_warp axis dirf (wWarp w) -> in32 seed -> dims pos ->
  fractal_warp ft progressive fr w seed pos =
  wSource w seed (octave_pos axis dirf progressive (wFrequency w) (frLacunarity fr) (val (frGain fr) seed pos) (val (frWeight fr) seed pos)
    seed pos (val (wAmplitude w) seed pos) (octaves (frOctaves fr))).
Proof.
  intros ft progressive axis dirf fr w seed pos Hw Hs Hd. unfold octaves. set (n := Z.to_nat (frOctaves fr - 1)).
  assert (S0 : octave_seed seed 0 = seed) by (unfold octave_seed; rewrite Z.add_0_r; apply in32_s32_id; exact Hs).
  destruct progressive; unfold fractal_warp.
  - unfold DomainWarpFractalProgressiveGen, slet. rewrite !gsv_val. apply f_equal. fold n.
    pose proof (progressive_loop_eq ft n axis dirf (wWarp w) (val (frGain fr) seed pos) (val (frWeight fr) seed pos) (frLacunarity fr) (wFrequency w) seed pos (val (wAmplitude w) seed pos) 0 Hw Hd) as L.
    cbv zeta in L. rewrite S0 in L. change (1 + n)%nat with (S n) in L. rewrite <- L. clear L.
    match goal with |- context [wWarp w ?s ?x ?z ?o] => 
      pose proof (first_octave true axis dirf (wWarp w) (val (frGain fr) seed pos) (val (frWeight fr) seed pos) (frLacunarity fr) (wFrequency w) seed pos x Hw Hd Hs) as Q;
      change z with (map (fun p : R => p * wFrequency w) pos) end.
    rewrite Q. cbn [fst snd pow]. rewrite Rmult_1_r. reflexivity.
  - unfold DomainWarpFractalIndependentGen, slet. rewrite !gsv_val. apply f_equal. fold n.
    pose proof (independent_loop_eq ft n axis dirf (wWarp w) (val (frGain fr) seed pos) (val (frWeight fr) seed pos) (frLacunarity fr) (wFrequency w) seed pos (val (wAmplitude w) seed pos) 0 Hw Hd) as L.
    cbv zeta in L. rewrite S0 in L. change (1 + n)%nat with (S n) in L. rewrite <- L. clear L.
    match goal with |- context [wWarp w ?s ?x ?z ?o] => 
      pose proof (first_octave false axis dirf (wWarp w) (val (frGain fr) seed pos) (val (frWeight fr) seed pos) (frLacunarity fr) (wFrequency w) seed pos x Hw Hd Hs) as Q;
      change z with (map (fun p : R => p * wFrequency w) pos) end.
    rewrite Q. cbn [fst snd pow]. rewrite Rmult_1_r. reflexivity.
Qed.

(** The gradient warp in particular, coordinate by coordinate and without weighted strength: octave i contributes
    amplitude * gain^i * axis scaling * direction. *)
Theorem C53_gradient_sum : forall ft progressive (fr : fractal S_ scalar) src amp axis so freq (seed : Z) (pos : list R), in32 seed -> dims pos ->
  val (frWeight fr) seed pos = 0 ->
  let p := octave_pos axis (gradient_dir so) progressive freq (frLacunarity fr) (val (frGain fr) seed pos) 0 seed pos (val amp seed pos) in
  (forall k n, (k < length pos)%nat -> nth k (p n) 0 = nth k pos 0 + sumR n (fun i =>
     val amp seed pos * val (frGain fr) seed pos ^ i * nth k axis 0 *
     nth k (gradient_dir so (octave_seed seed i) (map (fun c => c * (freq * frLacunarity fr ^ i)) (if progressive then p i else pos))) 0)) /\
  fractal_warp ft progressive fr (gradient_node src amp axis so freq) seed pos = src seed (p (octaves (frOctaves fr))).
Proof.
  intros ft progressive fr src amp axis so freq seed pos Hs Hd Hw p. split.
  - intros k n Hk. unfold p. rewrite octave_sum by exact Hk. f_equal. induction n; [cbn [sumR]; ring|].
    cbn [sumR]. rewrite Rmult_plus_distr_l, IHn. f_equal. rewrite octave_amp_0 by reflexivity.
    unfold octave_direction, octave_dir. ring.
  - rewrite (C53_fractal ft progressive axis (gradient_dir so)) by (auto; apply C53_gradient_is_warp). rewrite Hw. reflexivity.
Qed.
Lemma sumsq_dirs : forall seed (zs : list R), dims zs -> sumsq (dirs seed zs) <= 4.
Proof.
  intros seed zs Hd. pose proof (dirs_range seed zs) as B. pose proof (dirs_length seed zs) as L. unfold dims in Hd.
  assert (Q : forall x : R, -1 <= x <= 1 -> x * x <= 1) by (intros; nra).
  destruct (dirs seed zs) as [|a [|b [|c [|d [|e l]]]]]; cbn [length] in L; try lia; unfold sumsq; cbn [fold_right];
    pose proof (Q _ (B 0%nat)); pose proof (Q _ (B 1%nat)); pose proof (Q _ (B 2%nat)); pose proof (Q _ (B 3%nat)); cbn [nth] in *; lra.
Qed.
(** With weighted strength from 0 to 1 every coordinate moves by at most the geometric sum of the amplitudes. *)
Theorem C52_fractal_axis_bound : forall ft progressive (fr : fractal S_ scalar) amp axis so freq (seed : Z) (pos : list R), in32 seed -> dims pos ->
  0 <= val (frWeight fr) seed pos <= 1 ->
  exists pos' : list R, length pos' = length pos /\
    (forall k, (k < length pos)%nat -> Rabs (nth k pos' 0 - nth k pos 0) <=
       Rabs (val amp seed pos) * Rabs (nth k axis 0) * sumR (octaves (frOctaves fr)) (fun i => Rabs (val (frGain fr) seed pos) ^ i)) /\
    forall src, fractal_warp ft progressive fr (gradient_node src amp axis so freq) seed pos = src seed pos'.
Proof.
  intros ft progressive fr amp axis so freq seed pos Hs Hd Hw.
  exists (octave_pos axis (gradient_dir so) progressive freq (frLacunarity fr) (val (frGain fr) seed pos) (val (frWeight fr) seed pos) seed pos (val amp seed pos) (octaves (frOctaves fr))).
  split; [|split].
  3: { intros src. rewrite (C53_fractal ft progressive axis (gradient_dir so)) by (auto; apply C53_gradient_is_warp). reflexivity. }
  - apply octave_pos_length.
  - intros k Hk. rewrite octave_sum by exact Hk.
    match goal with |- Rabs (?a + ?b * ?c - ?a) <= _ => replace (a + b * c - a) with (b * c) by ring end.
    rewrite Rabs_mult, (Rmult_comm (Rabs (val amp seed pos))), Rmult_assoc. apply Rmult_le_compat_l; [apply Rabs_pos|].
    set (g := Rabs (val (frGain fr) seed pos)). set (A := Rabs (val amp seed pos)).
    assert (E : forall n, A * sumR n (fun i => g ^ i) = sumR n (fun i => A * g ^ i)).
    { induction n; cbn [sumR]; [ring|]. rewrite <- IHn. ring. }
    rewrite E. apply sumR_abs. intros i _. rewrite Rabs_mult.
    assert (D : Rabs (nth k (octave_direction axis (gradient_dir so) progressive freq (frLacunarity fr) (val (frGain fr) seed pos) (val (frWeight fr) seed pos) seed pos (val amp seed pos) i) 0) <= 1)
      by (apply Rabs_le; apply dirs_range).
    assert (B : Rabs (octave_amp axis (gradient_dir so) progressive freq (frLacunarity fr) (val (frGain fr) seed pos) (val (frWeight fr) seed pos) seed pos (val amp seed pos) i) <= A * g ^ i).
    { apply octave_amp_bound; [exact Hw|]. intros j. apply sumsq_dirs. unfold dims in *. rewrite map_length.
      destruct progressive; [rewrite octave_pos_length|]; exact Hd. }
    match goal with |- Rabs ?a * Rabs ?b <= _ => pose proof (Rabs_pos a); pose proof (Rabs_pos b); nra end.
Qed.
Theorem C52_fractal_zero_amplitude : forall ft progressive (fr : fractal S_ scalar) src amp axis so freq (seed : Z) (pos : list R), in32 seed -> dims pos ->
  val amp seed pos = 0 -> fractal_warp ft progressive fr (gradient_node src amp axis so freq) seed pos = src seed pos.
Proof.
  intros. rewrite (C53_fractal ft progressive axis (gradient_dir so)) by (auto; apply C53_gradient_is_warp).
  rewrite octave_pos_zero by assumption. reflexivity.
Qed.
(** A fractal with one octave is the plain domain warp when the seed offset is 0 ... *)
Theorem C53_one_octave : forall ft progressive (fr : fractal S_ scalar) src amp axis freq (seed : Z) (pos : list R), in32 seed -> dims pos ->
  (frOctaves fr <= 1)%Z ->
  fractal_warp ft progressive fr (gradient_node src amp axis 0 freq) seed pos = DomainWarpGen (gradient_node src amp axis 0 freq) seed pos.
Proof.
  intros ft progressive fr src amp axis freq seed pos Hs Hd Ho.
  rewrite (C53_fractal ft progressive axis (gradient_dir 0)) by (auto; apply C53_gradient_is_warp).
  rewrite warp_gen_eq by exact Hd. unfold octaves. replace (Z.to_nat (frOctaves fr - 1)) with O by lia.
  assert (Z0 : z_add seed (s32 0) = seed) by (unfold z_add; change (s32 0) with 0%Z; rewrite Z.add_0_r; apply in32_s32_id; exact Hs).
  rewrite Z0, octave_pos_step. unfold octave_direction, octave_dir, octave_amp, octave_pos. cbn [octave_state fst snd pow wFrequency gradient_node wSource wAmplitude].
  replace (octave_seed seed 0) with seed by (unfold octave_seed; rewrite Z.add_0_r; symmetry; apply in32_s32_id; exact Hs).
  rewrite Rmult_1_r. replace (if progressive then pos else pos) with pos by (destruct progressive; reflexivity). reflexivity.
Qed.
(** ... but not otherwise: the plain node adds the seed offset twice (DomainWarp.inl:13 and again in Warp, :36, :81, :139),
    the fractal once. *)
Lemma origin_dirs : forall seed, dirs seed [0; 0] = [2 / 65535 * IZR (field 2 0 (hash_hb seed [0; 0]%Z)) - 1; 2 / 65535 * IZR (field 2 1 (hash_hb seed [0; 0]%Z)) - 1].
Proof.
  intros. unfold dirs, dir. cbn [length seq map]. change [0; 0] with (map IZR [0; 0]%Z).
  rewrite !(lattice_at hermite) by apply (interp_0 Hermite). reflexivity.
Qed.
Theorem C53_seed_offset_twice_refuted : exists (fr : fractal S_ scalar) src amp axis so freq (seed : Z) (pos : list R),
  in32 seed /\ in32 so /\ dims pos /\ frOctaves fr = 1%Z /\
  forall ft progressive, fractal_warp ft progressive fr (gradient_node src amp axis so freq) seed pos <> DomainWarpGen (gradient_node src amp axis so freq) seed pos.
Proof.
  exists {| frGain := @HConst S_ scalar 0; frWeight := @HConst S_ scalar 0; frOctaves := 1; frLacunarity := 2 |}, (fun _ p => nth 0 p 0),
    (@HConst S_ scalar 1), [1; 1; 1; 1], 1%Z, 1, 0%Z, [0; 0].
  split; [unfold in32; lia|split; [unfold in32; lia|split; [unfold dims; cbn; lia|split; [reflexivity|]]]].
  intros ft progressive.
  rewrite (C53_fractal ft progressive [1; 1; 1; 1] (gradient_dir 1)) by first [apply C53_gradient_is_warp|unfold in32; lia|unfold dims; cbn; lia].
  rewrite warp_gen_eq by (unfold dims; cbn; lia).
  cbn [wSource gradient_node frOctaves wFrequency frLacunarity frGain frWeight wAmplitude]. change (octaves 1) with 1%nat.
  rewrite !moved_nth by (cbn; lia). rewrite octave_pos_step, moved_nth by (cbn; lia).
  unfold octave_direction, octave_dir, octave_amp, octave_pos, gradient_dir. cbn [octave_state fst snd].
  replace (if progressive then [0; 0] else [0; 0]) with [0; 0] by (destruct progressive; reflexivity).
  cbn [map]. rewrite !Rmult_0_l. change (z_add (octave_seed 0 0) (s32 1)) with 1%Z. change (z_add (z_add 0 (s32 1)) (s32 1)) with 2%Z.
  rewrite !origin_dirs. cbn [nth].
  match goal with |- context [IZR (field 2 0 (hash_hb 1 ?l))] => let v := eval vm_compute in (field 2 0 (hash_hb 1 l)) in
     replace (field 2 0 (hash_hb 1 l)) with v by (vm_compute; reflexivity) end.
  match goal with |- context [IZR (field 2 0 (hash_hb 2 ?l))] => let v := eval vm_compute in (field 2 0 (hash_hb 2 l)) in
     replace (field 2 0 (hash_hb 2 l)) with v by (vm_compute; reflexivity) end.
  cbn [P_Blend.val]. intros Q. lra.
Qed.
End Warp.
(** ** Concrete cases *)
Definition ex_fr := {| frGain := @HConst (Rops 0 (fun _ => 0%Z)) scalar (1 / 2); frWeight := @HConst (Rops 0 (fun _ => 0%Z)) scalar (1 / 2); frOctaves := 5; frLacunarity := 2 |}.
(** hypotheses of C52/C53: five octaves, gain 1/2, weighted strength 1/2, seed 7, amplitude 30, three dimensions *)
Example C53_case : forall ft b, exists pos', length pos' = 3%nat /\
  (forall k, (k < 3)%nat -> Rabs (nth k pos' 0 - nth k [1; 2; 3] 0) <= 30 * 1 * (1 / (1 - 1 / 2))) /\
  fractal_warp 0 (fun _ => 0%Z) ft b ex_fr (gradient_node 0 (fun _ => 0%Z) (fun _ p => nth 1 p 0) (@HConst (Rops 0 (fun _ => 0%Z)) scalar 30) [1; 1; 1; 1] 3 (1 / 100)) 7%Z [1; 2; 3] = nth 1 pos' 0.
Proof.
  intros ft b.
  destruct (C52_fractal_axis_bound 0 (fun _ => 0%Z) ft b ex_fr (@HConst (Rops 0 (fun _ => 0%Z)) scalar 30) [1; 1; 1; 1] 3 (1 / 100) 7 [1; 2; 3]) as (p & L & B & E).
  - unfold in32; lia.
  - unfold dims; cbn; lia.
  - cbn. lra.
  - exists p. split; [exact L|split; [|exact (E _)]]. intros k Hk. eapply Rle_trans; [apply B; exact Hk|].
    cbn [P_Blend.val ex_fr frGain frOctaves]. rewrite (Rabs_right 30), (Rabs_right (1 / 2)) by lra.
    assert (Rabs (nth k [1; 1; 1; 1] 0) = 1) as -> by (destruct k as [|[|[|k]]]; [| | |lia]; apply Rabs_right; cbn; lra).
    pose proof (sumR_geo (octaves 5) (1 / 2) ltac:(lra)). lra.
Qed.
Print Assumptions C52_gradient_axis_bound.
Print Assumptions C52_zero_amplitude.
Print Assumptions C52_euclidean_refuted.
Print Assumptions C52_fractal_axis_bound.
Print Assumptions C52_fractal_zero_amplitude.
Print Assumptions C53_gradient_is_warp.
Print Assumptions C53_fractal.
Print Assumptions C53_gradient_sum.
Print Assumptions C53_one_octave.
Print Assumptions C53_seed_offset_twice_refuted.
