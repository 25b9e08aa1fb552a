(** Soundness of Boxes.v *)
From Coq Require Import Reals ZArith List Bool Lia Lra Psatz.
From Verif Require Import Boxes.
Import ListNotations.
Open Scope R_scope.

Definition in1 (s : R) : Prop := Rabs s <= 1.
Fixpoint dot (l : list Z) (ss : list R) : R := match l, ss with x :: l', s :: ss' => IZR x * s + dot l' ss' | _, _ => 0 end.
(** [x] is within [r] of the linear form *)
Definition approx (ss : list R) (f : form) (x : R) : Prop :=
  let '(c, l, r) := f in length l = length ss /\ Rabs (x - (IZR c + dot l ss)) <= IZR r.

Lemma mag_nonneg : forall l, (0 <= mag l)%Z. Proof. induction l; cbn [mag fold_right]; unfold mag in *; lia. Qed.
Lemma dot_bound : forall l ss, Forall in1 ss -> Rabs (dot l ss) <= IZR (mag l).
Proof.
  induction l as [|x l IH]; intros ss H; [cbn; rewrite Rabs_R0; lra|]. change (mag (x :: l)) with (Z.abs x + mag l)%Z. rewrite plus_IZR, abs_IZR.
  destruct ss as [|s ss]; cbn [dot].
  - rewrite Rabs_R0. pose proof (mag_nonneg l) as M. apply IZR_le in M. pose proof (Rabs_pos (IZR x)). lra.
  - inversion H; subst. specialize (IH ss H3). pose proof (Rabs_triang (IZR x * s) (dot l ss)). rewrite Rabs_mult in *. unfold in1 in *.
    pose proof (Rabs_pos (IZR x)). nra.
Qed.
Lemma dot_zadd : forall l m ss, length l = length ss -> length m = length ss -> dot (zadd l m) ss = dot l ss + dot m ss.
Proof.
  induction l as [|x l IH]; intros m ss Hl Hm; destruct ss as [|s ss]; try discriminate Hl; destruct m as [|y m]; try discriminate Hm; cbn [zadd dot]; [lra|].
  rewrite IH by (cbn in *; lia). rewrite plus_IZR. ring.
Qed.
Lemma zadd_length : forall l m k, length l = k -> length m = k -> length (zadd l m) = k.
Proof. induction l as [|x l IH]; intros m k Hl Hm; destruct m as [|y m]; cbn in *; try lia. subst k. rewrite (IH m (length l)); lia. Qed.
Lemma dot_scale : forall c l ss, dot (map (Z.mul c) l) ss = IZR c * dot l ss.
Proof. intros c. induction l as [|x l IH]; intros ss; destruct ss; cbn [map dot]; try lra. rewrite IH, mult_IZR. ring. Qed.
Lemma dot_zero : forall (A : Type) (l : list A) ss, dot (map (fun _ => 0%Z) l) ss = 0.
Proof. intros A. induction l as [|x l IH]; intros ss; destruct ss; cbn [map dot]; try lra. rewrite IH. ring. Qed.
Lemma dot_opp : forall l ss, dot (map Z.opp l) ss = - dot l ss.
Proof. induction l as [|x l IH]; intros ss; destruct ss; cbn [map dot]; try lra. rewrite IH, opp_IZR. ring. Qed.

Lemma approx_hi : forall ss f x, Forall in1 ss -> approx ss f x -> x <= IZR (hi f).
Proof.
  intros ss [[c l] r] x H [_ A]. unfold hi. rewrite !plus_IZR. pose proof (dot_bound l ss H) as D. pose proof (Rle_abs (x - (IZR c + dot l ss))). pose proof (Rle_abs (dot l ss)). lra.
Qed.
Lemma approx_lo : forall ss f x, Forall in1 ss -> approx ss f x -> IZR (lo f) <= x.
Proof.
  intros ss [[c l] r] x H [_ A]. unfold lo. rewrite !minus_IZR. pose proof (dot_bound l ss H) as D.
  pose proof (Rle_abs (- (x - (IZR c + dot l ss)))). pose proof (Rle_abs (- dot l ss)). rewrite Rabs_Ropp in *. lra.
Qed.

Lemma trunc : forall x k, (0 <= k)%Z -> 0 <= IZR x / IZR (2^k) - IZR (Z.shiftr x k) <= 1.
Proof.
  intros x k Hk. rewrite Z.shiftr_div_pow2 by lia. assert (0 < 2^k)%Z as P by (apply Z.pow_pos_nonneg; lia).
  pose proof (Z.div_mod x (2^k) ltac:(lia)) as E. pose proof (Z.mod_pos_bound x (2^k) P) as M. set (q := (x / 2^k)%Z) in *. set (m := (x mod 2^k)%Z) in *. clearbody q m. subst x.
  rewrite plus_IZR, mult_IZR. apply IZR_lt in P. destruct M as [M1 M2]. apply IZR_le in M1. apply IZR_lt in M2.
  replace ((IZR (2^k) * IZR q + IZR m) / IZR (2^k) - IZR q) with (IZR m / IZR (2^k)) by (field; lra).
  split; [apply Rmult_le_pos; [lra|left; apply Rinv_0_lt_compat; lra]|]. apply Rmult_le_reg_r with (IZR (2^k)); [lra|]. unfold Rdiv. rewrite Rmult_assoc, Rinv_l by lra. lra.
Qed.
Lemma dot_shift : forall k l ss, (0 <= k)%Z -> Forall in1 ss -> Rabs (dot l ss / IZR (2^k) - dot (map (fun x => Z.shiftr x k) l) ss) <= IZR (Z.of_nat (length l)).
Proof.
  intros k l ss Hk. revert ss. assert (0 < 2^k)%Z as P by (apply Z.pow_pos_nonneg; lia). apply IZR_lt in P.
  induction l as [|x l IH]; intros ss H; [cbn; unfold Rdiv; rewrite Rmult_0_l, Rminus_0_r, Rabs_R0; lra|].
  cbn [length map]. rewrite Nat2Z.inj_succ, succ_IZR.
  destruct ss as [|s ss]; cbn [dot].
  - unfold Rdiv. rewrite Rmult_0_l, Rminus_0_r, Rabs_R0. pose proof (IZR_le 0 (Z.of_nat (length l)) ltac:(lia)). lra.
  - inversion H; subst. specialize (IH ss H3). pose proof (trunc x k Hk) as T.
    replace ((IZR x * s + dot l ss) / IZR (2^k) - (IZR (Z.shiftr x k) * s + dot (map (fun x => Z.shiftr x k) l) ss)) with
      ((IZR x / IZR (2^k) - IZR (Z.shiftr x k)) * s + (dot l ss / IZR (2^k) - dot (map (fun x => Z.shiftr x k) l) ss)) by (field; lra).
    eapply Rle_trans; [apply Rabs_triang|]. rewrite Rabs_mult. unfold in1 in *.
    assert (Rabs (IZR x / IZR (2^k) - IZR (Z.shiftr x k)) * Rabs s <= 1 * 1).
    { apply Rmult_le_compat; auto using Rabs_pos. apply Rabs_le. lra. }
    lra.
Qed.
Lemma rnd_approx : forall ss k f x, (0 <= k)%Z -> Forall in1 ss -> approx ss f x -> approx ss (rnd k f) (x / IZR (2^k)).
Proof.
  intros ss k [[c l] r] x Hk H [L A]. unfold rnd, approx. split; [rewrite map_length; exact L|].
  assert (0 < 2^k)%Z as P by (apply Z.pow_pos_nonneg; lia). apply IZR_lt in P.
  rewrite !plus_IZR. pose proof (trunc c k Hk). pose proof (trunc r k Hk). pose proof (dot_shift k l ss Hk H) as D.
  set (d' := dot (map (fun x => Z.shiftr x k) l) ss) in *. clearbody d'.
  replace (x / IZR (2^k) - (IZR (Z.shiftr c k) + d')) with ((x - (IZR c + dot l ss)) / IZR (2^k) + (IZR c / IZR (2^k) - IZR (Z.shiftr c k)) + (dot l ss / IZR (2^k) - d')) by (field; lra).
  eapply Rle_trans; [apply Rabs_triang|]. eapply Rle_trans; [apply Rplus_le_compat_r, Rabs_triang|].
  assert (Rabs ((x - (IZR c + dot l ss)) / IZR (2^k)) <= IZR r / IZR (2^k)).
  { unfold Rdiv. rewrite Rabs_mult, (Rabs_pos_eq (/ IZR (2^k))) by (left; apply Rinv_0_lt_compat; lra). apply Rmult_le_compat_r; [left; apply Rinv_0_lt_compat; lra|exact A]. }
  assert (Rabs (IZR c / IZR (2^k) - IZR (Z.shiftr c k)) <= 1) by (apply Rabs_le; lra). lra.
Qed.
Lemma fadd_approx : forall ss f g x y, approx ss f x -> approx ss g y -> approx ss (fadd f g) (x + y).
Proof.
  intros ss [[c l] r] [[d m] t] x y [L A] [M C]. unfold fadd, approx. split; [apply zadd_length; assumption|].
  rewrite dot_zadd by assumption. rewrite !plus_IZR. replace (x + y - (IZR c + IZR d + (dot l ss + dot m ss))) with ((x - (IZR c + dot l ss)) + (y - (IZR d + dot m ss))) by ring.
  eapply Rle_trans; [apply Rabs_triang|]. lra.
Qed.
Lemma fmul_approx : forall ss f g x y, Forall in1 ss -> approx ss f x -> approx ss g y -> approx ss (fmul f g) (x * y / IZR (2^B)).
Proof.
  intros ss [[c l] r] [[d m] t] x y H [L A] [M C]. unfold fmul. apply rnd_approx; [unfold B; lia|exact H|].
  unfold approx. split; [apply zadd_length; rewrite map_length; assumption|].
  rewrite dot_zadd by (rewrite map_length; assumption). rewrite !dot_scale. rewrite !plus_IZR, !mult_IZR, !plus_IZR, !abs_IZR.
  pose proof (dot_bound l ss H) as Dl. pose proof (dot_bound m ss H) as Dm.
  set (X := dot l ss) in *. set (Y := dot m ss) in *. clearbody X Y. set (u := x - (IZR c + X)) in *. set (v := y - (IZR d + Y)) in *.
  replace x with (IZR c + X + u) by (unfold u; ring). replace y with (IZR d + Y + v) by (unfold v; ring). clearbody u v.
  generalize dependent (IZR (mag l)). generalize dependent (IZR (mag m)). generalize dependent (IZR r). generalize dependent (IZR t). generalize (IZR c) (IZR d). clear.
  intros c d t Hv r Hu mm HY ml HX.
  assert (forall a b p q, Rabs a <= p -> Rabs b <= q -> Rabs (a * b) <= p * q) as K by (intros; rewrite Rabs_mult; apply Rmult_le_compat; auto using Rabs_pos).
  replace ((c + X + u) * (d + Y + v) - (c * d + (c * Y + d * X))) with (X * Y + u * (d + Y + v) + v * (c + X)) by ring.
  eapply Rle_trans; [apply Rabs_triang|]. eapply Rle_trans; [apply Rplus_le_compat_r, Rabs_triang|].
  pose proof (K X Y ml mm HX HY). 
  pose proof (K u (d + Y + v) r (Rabs d + mm + t) Hu ltac:(pose proof (Rabs_triang (d + Y) v); pose proof (Rabs_triang d Y); lra)).
  pose proof (K v (c + X) t (Rabs c + ml) Hv ltac:(pose proof (Rabs_triang c X); lra)). lra.
Qed.
Lemma clamp_approx : forall ss f x, Forall in1 ss -> (0 < hi f)%Z -> approx ss f x -> approx ss (clamp f) (Rmax 0 x).
Proof.
  intros ss f x H P A. unfold clamp. pose proof (approx_lo ss f x H A) as Lo. pose proof (approx_hi ss f x H A) as Hi. destruct (Z.leb_spec 0 (lo f)) as [L|L].
  - apply IZR_le in L. rewrite Rmax_right by lra. exact A.
  - destruct f as [[c l] r]. destruct A as [A _]. set (h := hi (c, l, r)) in *. clearbody h. unfold approx. rewrite map_length, dot_zero. split; [exact A|].
    rewrite Z.shiftr_div_pow2 by lia. change (2^1)%Z with 2%Z. assert (IZR h <= 2 * IZR ((h + 1) / 2)) as E.
    { rewrite <- mult_IZR. apply IZR_le. pose proof (Z.div_mod (h + 1) 2 ltac:(lia)). pose proof (Z.mod_pos_bound (h + 1) 2 ltac:(lia)). lia. }
    set (k := IZR ((h + 1) / 2)) in *. clearbody k. apply IZR_lt in P. apply Rabs_le. unfold Rmax. destruct (Rle_dec 0 x); lra.
Qed.

(** ** The quadratic *)
Definition rsum (l : list R) : R := fold_right Rplus 0 l.
Definition rsq (l : list R) : R := fold_right (fun x acc => x * x + acc) 0 l.
Definition quad (ps : list R) : R := (INR (length ps) + 1) * rsq ps - rsum ps * rsum ps.
(** the point of the box with centre [ps] and half widths [ws] with parameters [ss], in integer units *)
Fixpoint pt (ps ws : list Z) (ss : list R) : list R :=
  match ps, ws, ss with p :: ps', w :: ws', s :: ss' => IZR p + IZR w * s :: pt ps' ws' ss' | _, _, _ => [] end.
Lemma pt_length : forall ps ws ss, length ws = length ps -> length ss = length ps -> length (pt ps ws ss) = length ps.
Proof. induction ps as [|p ps IH]; intros ws ss Hw Hs; destruct ws, ss; try discriminate; cbn in *; auto. Qed.
Lemma rsum_pt : forall ps ws ss, length ws = length ps -> length ss = length ps -> rsum (pt ps ws ss) = IZR (zsum ps) + dot ws ss.
Proof.
  induction ps as [|p ps IH]; intros ws ss Hw Hs; destruct ws, ss; try discriminate; cbn [pt dot rsum fold_right zsum] in *; [lra|].
  change (fold_right Rplus 0 (pt ps ws ss)) with (rsum (pt ps ws ss)). change (fold_right Z.add 0%Z ps) with (zsum ps). rewrite IH by (cbn in *; lia). rewrite plus_IZR. ring.
Qed.
Definition wsq (ws : list Z) (ss : list R) : R := rsq (pt (map (fun _ => 0%Z) ws) ws ss).
Lemma rsq_pt : forall n1 sc ps ws ss, length ws = length ps -> length ss = length ps ->
  IZR n1 * rsq (pt ps ws ss) + IZR sc * dot ws ss = IZR n1 * IZR (sqsum ps) + IZR n1 * wsq ws ss + dot (zmul (map (fun p => (sc + 2 * n1 * p)%Z) ps) ws) ss.
Proof.
  intros n1 sc. induction ps as [|p ps IH]; intros ws ss Hw Hs; destruct ws as [|w ws], ss as [|s ss]; try discriminate; unfold wsq in *; cbn [pt dot rsq fold_right sqsum map zmul] in *; [lra|].
  change (fold_right (fun x acc => x * x + acc) 0 (pt ps ws ss)) with (rsq (pt ps ws ss)). change (fold_right (fun x acc => x * x + acc)%Z 0%Z ps) with (sqsum ps).
  change (fold_right (fun x acc => x * x + acc) 0 (pt (map (fun _ => 0%Z) ws) ws ss)) with (rsq (pt (map (fun _ => 0%Z) ws) ws ss)).
  specialize (IH ws ss ltac:(cbn in *; lia) ltac:(cbn in *; lia)). rewrite plus_IZR, !mult_IZR, plus_IZR, !mult_IZR. lra.
Qed.
Lemma wsq_bound : forall ws ss, length ss = length ws -> Forall in1 ss -> 0 <= wsq ws ss <= IZR (sqsum ws).
Proof.
  induction ws as [|w ws IH]; intros ss Hs H; destruct ss as [|s ss]; try discriminate; unfold wsq in *; cbn [pt rsq fold_right sqsum map] in *; [lra|].
  change (fold_right (fun x acc => x * x + acc)%Z 0%Z ws) with (sqsum ws). change (fold_right (fun x acc => x * x + acc) 0 (pt (map (fun _ => 0%Z) ws) ws ss)) with (rsq (pt (map (fun _ => 0%Z) ws) ws ss)).
  inversion H; subst. specialize (IH ss ltac:(cbn in *; lia) H3). rewrite plus_IZR, mult_IZR.
  assert (s * s <= 1) by (unfold in1, Rabs in H2; destruct (Rcase_abs s); nra).
  assert ((0 + IZR w * s) * (0 + IZR w * s) <= IZR w * IZR w) by nra. assert (0 <= (0 + IZR w * s) * (0 + IZR w * s)) by nra. lra.
Qed.
Lemma cauchy : forall l, rsum l * rsum l <= INR (length l) * rsq l /\ 0 <= rsq l.
Proof.
  induction l as [|a l [IH P]]; [cbn; lra|]. cbn [rsum rsq fold_right length]. change (fold_right Rplus 0 l) with (rsum l). change (fold_right (fun x acc => x * x + acc) 0 l) with (rsq l).
  rewrite S_INR. set (n := INR (length l)) in *. assert (0 <= n) by apply pos_INR. set (S := rsum l) in *. set (Q := rsq l) in *. clearbody n S Q.
  split; [|nra]. destruct (Rle_lt_or_eq_dec 0 n H) as [L|<-].
  - pose proof (Rle_0_sqr (n * a - S)) as K. unfold Rsqr in K.
    assert (2 * a * S <= n * (a * a) + Q); [|nra].
    apply Rmult_le_reg_l with n; [exact L|]. nra.
  - assert (S = 0) as -> by nra. nra.
Qed.
Lemma dot_as_sum : forall ws ss, length ss = length ws -> dot ws ss = rsum (pt (map (fun _ => 0%Z) ws) ws ss).
Proof.
  intros ws ss H. rewrite rsum_pt by (rewrite ?map_length; lia). enough (zsum (map (fun _ => 0%Z) ws) = 0%Z) as -> by lra. clear. induction ws; [reflexivity|]. cbn. unfold zsum in IHws. lia.
Qed.
Lemma INR_IZR : forall n, INR n = IZR (Z.of_nat n). Proof. intros. apply INR_IZR_INZ. Qed.
Lemma zmul_length : forall l m k, length l = k -> length m = k -> length (zmul l m) = k.
Proof. induction l as [|x l IH]; intros m k Hl Hm; destruct m as [|y m]; cbn in *; try lia. subst k. rewrite (IH m (length l)); lia. Qed.
Lemma zmul_scale : forall k l m, zmul (map (Z.mul k) l) m = map (Z.mul k) (zmul l m).
Proof. intros k. induction l as [|x l IH]; intros m; destruct m; cbn [map zmul]; try reflexivity. rewrite IH. f_equal. ring. Qed.
Lemma quad_expand : forall ps ws ss, length ws = length ps -> length ss = length ps -> Forall in1 ss ->
  let n1 := (Z.of_nat (length ps) + 1)%Z in let s := zsum ps in
  exists e, 0 <= e <= IZR (n1 * sqsum ws) /\
  quad (pt ps ws ss) = IZR (n1 * sqsum ps - s * s) + dot (zmul (map (fun p => (2 * (n1 * p - s))%Z) ps) ws) ss + e.
Proof.
  intros ps ws ss Hw Hs H n1 s. exists (IZR n1 * wsq ws ss - dot ws ss * dot ws ss).
  pose proof (wsq_bound ws ss ltac:(lia) H) as Wb.
  assert (N1 : 0 <= IZR n1) by (apply IZR_le; unfold n1; lia).
  split.
  - split.
    + rewrite dot_as_sum by lia. unfold wsq. pose proof (cauchy (pt (map (fun _ => 0%Z) ws) ws ss)) as [C P].
      rewrite pt_length in C by (rewrite ?map_length; lia). rewrite map_length in C. rewrite INR_IZR in C.
      assert (IZR n1 = IZR (Z.of_nat (length ws)) + 1) as -> by (unfold n1; rewrite plus_IZR, Hw; reflexivity). lra.
    + rewrite mult_IZR. pose proof (Rle_0_sqr (dot ws ss)) as Q. unfold Rsqr in Q. nra.
  - unfold quad. rewrite pt_length by assumption. rewrite rsum_pt by assumption. fold s.
    assert (INR (length ps) + 1 = IZR n1) as -> by (unfold n1; rewrite plus_IZR, INR_IZR; reflexivity).
    pose proof (rsq_pt n1 (-2 * s) ps ws ss Hw Hs) as E. rewrite !mult_IZR in E.
    assert (map (fun p => (-2 * s + 2 * n1 * p)%Z) ps = map (fun p => (2 * (n1 * p - s))%Z) ps) as M by (apply map_ext; intros; lia). rewrite M in E.
    rewrite minus_IZR, !mult_IZR. nra.
Qed.
Lemma falloff_approx : forall RR ps ws ss, length ws = length ps -> length ss = length ps -> Forall in1 ss ->
  approx ss (falloff_form RR ps ws) ((IZR RR - quad (pt ps ws ss)) / IZR (2^B)).
Proof.
  intros RR ps ws ss Hw Hs H. unfold falloff_form. set (n1 := (Z.of_nat (length ps) + 1)%Z). set (s := zsum ps).
  replace ((IZR RR - quad (pt ps ws ss)) / IZR (2^B)) with (2 * (IZR RR - quad (pt ps ws ss)) / IZR (2^(B + 1))) by (change (IZR (2^(B+1))) with 2097152; change (IZR (2^B)) with 1048576; field).
  apply rnd_approx; [unfold B; lia|exact H|]. unfold approx. split; [apply zmul_length; rewrite ?map_length; lia|].
  destruct (quad_expand ps ws ss Hw Hs H) as (e & He & ->). fold n1 s in He |- *.
  assert (zmul (map (fun p => (4 * (s - n1 * p))%Z) ps) ws = map (Z.mul (-2)) (zmul (map (fun p => (2 * (n1 * p - s))%Z) ps) ws)) as ->.
  { rewrite <- zmul_scale, map_map. f_equal. apply map_ext. intros. lia. }
  rewrite dot_scale. set (d := dot _ ss) in *. clearbody d. set (E := (n1 * sqsum ws)%Z) in *. clearbody E. set (q := (n1 * sqsum ps - s * s)%Z). clearbody q. rewrite minus_IZR, mult_IZR, minus_IZR.
  apply Rabs_le. lra.
Qed.

(** ** The sum over the vertices *)
From Verif Require Import Lattice.
Definition unit_len (x : R) : R := x / IZR (2^B).
Definition at_box (cs ws : list Z) (ss : list R) (x : list R) : Prop :=
  length ws = length cs /\ length ss = length cs /\ Forall in1 ss /\ x = map unit_len (pt cs ws ss).
Lemma un_pos : IZR (2^B) = 1048576. Proof. reflexivity. Qed.
Lemma zsub_un_length : forall cs v, length v = length cs -> length (zsub_un cs v) = length cs.
Proof. induction cs as [|c cs IH]; intros v H; destruct v; try discriminate; cbn in *; auto. Qed.
Lemma offs_box : forall cs ws ss v, length ws = length cs -> length ss = length cs -> length v = length cs ->
  offs (map unit_len (pt cs ws ss)) v = map unit_len (pt (zsub_un cs v) ws ss).
Proof.
  induction cs as [|c cs IH]; intros ws ss v Hw Hs Hv; destruct ws as [|w ws], ss as [|s ss], v as [|z v]; try discriminate; [reflexivity|].
  cbn [zsub_un pt map offs]. rewrite IH by (cbn in *; lia). f_equal. unfold unit_len. rewrite minus_IZR, Z.shiftl_mul_pow2 by (unfold B; lia). rewrite mult_IZR, un_pos. field.
Qed.
Lemma quad_unit : forall l, quad (map unit_len l) = quad l / (IZR (2^B) * IZR (2^B)).
Proof.
  intros l. unfold quad. rewrite map_length, un_pos.
  assert (rsum (map unit_len l) = rsum l / 1048576) as ->.
  { induction l as [|a l IH]; cbn [map rsum fold_right]; [lra|]. unfold rsum in IH. rewrite IH. unfold unit_len. rewrite un_pos. field. }
  assert (rsq (map unit_len l) = rsq l / (1048576 * 1048576)) as ->.
  { clear. induction l as [|a l IH]; cbn [map rsq fold_right]; [lra|]. unfold rsq in IH. rewrite IH. unfold unit_len. rewrite un_pos. field. }
  field.
Qed.

Section Total.
Variable RR : Z.
Variable height_form : list Z -> list Z -> form.
(** [height p h]: h is an admissible height at the offset p *)
Variable height : list R -> R -> Prop.
Hypothesis height_sound : forall ps ws ss h, length ws = length ps -> length ss = length ps -> Forall in1 ss -> Forall (fun w => (0 < w)%Z) ws ->
  height (map unit_len (pt ps ws ss)) h -> exists H, approx ss (height_form ps ws) (IZR (2^B) * H) /\ h <= H.

Definition radius : R := IZR RR / (IZR (2^B) * IZR (2^B)).
Definition bump_at (p : list R) (h : R) : R := Rmax 0 (radius - quad p) ^ 4 * h.
Definition total (vs : list (list Z)) (x : list R) (hv : list Z -> R) : R := rsum (map (fun v => bump_at (offs x v) (hv v)) vs).

Lemma total_sound : forall vs cs ws ss hv, length ws = length cs -> length ss = length cs -> Forall in1 ss -> Forall (fun w => (0 < w)%Z) ws ->
  (forall v, In v vs -> length v = length cs) -> (forall v, In v vs -> height (offs (map unit_len (pt cs ws ss)) v) (hv v)) ->
  let t := total_form RR height_form vs cs ws in let x := map unit_len (pt cs ws ss) in
  (exists T, approx ss (snd t) (IZR (2^B) * T) /\ total vs x hv <= T) /\ total (fst t) x hv = total vs x hv /\ incl (fst t) vs.
Proof.
  intros vs cs ws ss hv Hw Hs H Hp. induction vs as [|v vs IH]; intros HL HH t x.
  - cbn [total_form] in t. subst t. cbn [fst snd]. split; [|split; [reflexivity|intros a Ha; exact Ha]].
    exists 0. split; [|cbn; lra]. unfold approx. rewrite map_length, dot_zero. split; [lia|]. rewrite Rmult_0_r. replace (0 - (0 + 0)) with 0 by ring. rewrite Rabs_R0. lra.
  - specialize (IH (fun w Hw0 => HL w (or_intror Hw0)) (fun w Hw0 => HH w (or_intror Hw0))). cbn zeta in IH. fold x in IH. destruct IH as ((T & AT & LT) & ET & IT).
    pose proof (HL v (or_introl eq_refl)) as Lv. pose proof (HH v (or_introl eq_refl)) as Hh. fold x in Hh.
    assert (X : offs x v = map unit_len (pt (zsub_un cs v) ws ss)) by (apply offs_box; assumption). rewrite X in Hh.
    cbn [total_form] in t. set (rest := total_form RR height_form vs cs ws) in *. set (ps := zsub_un cs v) in *.
    assert (Lp : length ps = length cs) by (apply zsub_un_length; exact Lv).
    pose proof (falloff_approx RR ps ws ss ltac:(lia) ltac:(lia) H) as A. set (f := falloff_form RR ps ws) in *.
    assert (E : (IZR RR - quad (pt ps ws ss)) / IZR (2^B) = IZR (2^B) * (radius - quad (offs x v))).
    { rewrite X, quad_unit. unfold radius. rewrite un_pos. field. }
    rewrite E in A.
    unfold total. cbn [map rsum fold_right]. change (fold_right Rplus 0 (map (fun v => bump_at (offs x v) (hv v)) vs)) with (total vs x hv).
    destruct (Z.leb_spec (hi f) 0) as [D|D].
    + assert (Z0 : bump_at (offs x v) (hv v) = 0).
      { apply approx_hi in A; [|exact H]. apply IZR_le in D. unfold bump_at. rewrite Rmax_left; [rewrite pow_ne_zero by lia; ring|]. rewrite un_pos in A. lra. }
      subst t. rewrite Z0, Rplus_0_l. split; [exists T; split; assumption|]. split; [exact ET|]. intros a Ha. right. exact (IT a Ha).
    + pose proof (clamp_approx ss f _ H D A) as A1. set (f1 := clamp f) in *.
      assert (M : Rmax 0 (IZR (2^B) * (radius - quad (offs x v))) = IZR (2^B) * Rmax 0 (radius - quad (offs x v))).
      { rewrite un_pos. unfold Rmax. repeat destruct (Rle_dec _ _); lra. }
      rewrite M in A1. set (m := Rmax 0 (radius - quad (offs x v))) in *.
      pose proof (fmul_approx ss f1 f1 _ _ H A1 A1) as A2. pose proof (fmul_approx ss _ _ _ _ H A2 A2) as A4.
      destruct (height_sound ps ws ss (hv v) ltac:(lia) ltac:(lia) H Hp Hh) as (h' & Ah & Lh).
      pose proof (fmul_approx ss _ _ _ _ H A4 Ah) as A5.
      pose proof (fadd_approx ss _ _ _ _ A5 AT) as A6.
      subst t. cbn [fst snd]. split; [|split].
      * exists (m ^ 4 * h' + T). split.
        -- match type of A6 with approx _ _ ?e => replace (IZR (2^B) * (m ^ 4 * h' + T)) with e end; [exact A6|]. rewrite un_pos. field.
        -- unfold bump_at. fold m. apply Rplus_le_compat; [|exact LT]. apply Rmult_le_compat_l; [|exact Lh]. apply pow_le, Rmax_l.
      * unfold total. cbn [map rsum fold_right]. f_equal. exact ET.
      * intros a [<-|Ha]; [left; reflexivity|right; exact (IT a Ha)].
Qed.

(** descending coordinates *)
Fixpoint sorted (x : list R) : Prop := match x with a :: ((b :: _) as l) => b <= a /\ sorted l | _ => True end.
Lemma descending_true : forall cs ws ss, length ws = length cs -> length ss = length cs -> Forall in1 ss -> Forall (fun w => (0 < w)%Z) ws ->
  sorted (map unit_len (pt cs ws ss)) -> descending cs ws = true.
Proof.
  induction cs as [|c cs IH]; intros ws ss Hw Hs H Hp S; destruct ws as [|w ws], ss as [|s ss]; try discriminate; [reflexivity|].
  destruct cs as [|d cs]; [reflexivity|]. destruct ws as [|u ws], ss as [|r ss]; try discriminate.
  cbn [descending]. cbn [pt map sorted] in S. destruct S as [S0 S]. apply andb_true_intro. split.
  - apply Z.leb_le. apply le_IZR. rewrite minus_IZR, plus_IZR. inversion H as [|? ? Hs1 H']; inversion H' as [|? ? Hr1 H'']; subst. inversion Hp as [|? ? Pw Hp']; inversion Hp' as [|? ? Pu Hp'']; subst.
    apply IZR_lt in Pw. apply IZR_lt in Pu. unfold unit_len in S0. rewrite un_pos in S0. unfold in1 in *.
    pose proof (Rle_abs s). pose proof (Rle_abs (- r)). rewrite Rabs_Ropp in *. nra.
  - apply (IH (u :: ws) (r :: ss)); auto; [inversion H; assumption|inversion Hp; assumption].
Qed.

Lemma split_box : forall k cs ws ss, length ws = length cs -> length ss = length cs -> Forall in1 ss -> Forall (fun w => (0 < w)%Z) ws -> (k < length cs)%nat ->
  let h := ((nth k ws 0 + 1) / 2)%Z in
  exists ss', length ss' = length cs /\ Forall in1 ss' /\
    (pt (setk k (fun x => (x - h)%Z) cs) (setk k (fun _ => h) ws) ss' = pt cs ws ss \/ pt (setk k (fun x => (x + h)%Z) cs) (setk k (fun _ => h) ws) ss' = pt cs ws ss).
Proof.
  induction k as [|k IH]; intros cs ws ss Hw Hs H Hp Hk; destruct cs as [|c cs]; [cbn in Hk; lia| |cbn in Hk; lia|]; destruct ws as [|w ws], ss as [|s ss]; try discriminate; intros h; cbn [nth] in h.
  - inversion H; inversion Hp; subst. assert (IZR w <= 2 * IZR h) as E.
    { rewrite <- mult_IZR. apply IZR_le. unfold h. pose proof (Z.div_mod (w + 1) 2 ltac:(lia)). pose proof (Z.mod_pos_bound (w + 1) 2 ltac:(lia)). lia. }
    assert (0 < IZR h) as P. { apply IZR_lt. unfold h. pose proof (Z.div_mod (w + 1) 2 ltac:(lia)). pose proof (Z.mod_pos_bound (w + 1) 2 ltac:(lia)). lia. }
    pose proof (IZR_lt _ _ H6) as P0. unfold in1 in *. set (hh := IZR h) in *.
    assert (IZR w * s <= IZR w /\ - IZR w <= IZR w * s) as [B1 B2]. { pose proof (Rle_abs s). pose proof (Rle_abs (- s)). rewrite Rabs_Ropp in *. nra. }
    destruct (Rle_dec s 0) as [N|N].
    + exists ((IZR w * s + hh) / hh :: ss). split; [cbn in *; lia|]. split.
      { constructor; [|assumption]. unfold in1. apply Rabs_le. assert (IZR w * s <= 0) by nra.
        split; apply Rmult_le_reg_r with hh; try exact P; unfold Rdiv; rewrite ?Rmult_assoc, ?Rinv_l by lra; lra. }
      left. cbn [setk pt]. f_equal. rewrite minus_IZR. fold hh. field. lra.
    + exists ((IZR w * s - hh) / hh :: ss). split; [cbn in *; lia|]. split.
      { constructor; [|assumption]. unfold in1. apply Rabs_le. assert (0 <= IZR w * s) by nra.
        split; apply Rmult_le_reg_r with hh; try exact P; unfold Rdiv; rewrite ?Rmult_assoc, ?Rinv_l by lra; lra. }
      right. cbn [setk pt]. f_equal. rewrite plus_IZR. fold hh. field. lra.
  - inversion H; inversion Hp; subst. destruct (IH cs ws ss) as (ss' & Ls & Is & Es); auto; [cbn in *; lia|]. fold h in Es.
    exists (s :: ss'). split; [cbn in *; lia|]. split; [constructor; assumption|]. destruct Es as [Es|Es]; [left|right]; cbn [setk pt]; rewrite Es; reflexivity.
Qed.
Lemma setk_length : forall k g l, length (setk k g l) = length l.
Proof. induction k; intros g l; destruct l; cbn; auto. Qed.
Lemma setk_pos : forall k h l, (0 < h)%Z -> Forall (fun w => (0 < w)%Z) l -> Forall (fun w => (0 < w)%Z) (setk k (fun _ => h) l).
Proof. induction k; intros h l P F; destruct F; cbn; constructor; auto. Qed.

Lemma check_sound_box : forall n fuel k lim vs cs ws ss hv, check RR height_form n fuel k lim vs cs ws = true ->
  length cs = n -> (k < n)%nat -> length ws = length cs -> length ss = length cs -> Forall in1 ss -> Forall (fun w => (0 < w)%Z) ws ->
  (forall v, In v vs -> length v = length cs) -> let x := map unit_len (pt cs ws ss) in sorted x -> (forall v, In v vs -> height (offs x v) (hv v)) ->
  total vs x hv <= IZR lim / IZR (2^B).
Proof.
  intros n fuel. induction fuel as [|m IH]; intros k lim vs cs ws ss hv C Hn Hk Hw Hs H Hp HL x S HH; cbn [check] in C;
    rewrite (descending_true cs ws ss Hw Hs H Hp S) in C; cbn [negb] in C;
    pose proof (total_sound vs cs ws ss hv Hw Hs H Hp HL HH) as TS; cbn zeta in TS; set (t := total_form RR height_form vs cs ws) in *; fold x in TS; destruct TS as ((T & AT & LT) & ET & IT);
    destruct (Z.leb_spec (hi (snd t)) lim) as [L|L]; try discriminate C;
    try (apply approx_hi in AT; [|exact H]; apply IZR_le in L; rewrite un_pos in *; lra).
  rewrite Z.shiftr_div_pow2 in C by lia. change (2^1)%Z with 2%Z in C. set (h := ((nth k ws 0 + 1) / 2)%Z) in *.
  apply andb_prop in C as [C1 C2]. set (k' := if Nat.eqb (Datatypes.S k) n then O else Datatypes.S k) in *.
  assert (Hk' : (k' < n)%nat) by (unfold k'; destruct (Nat.eqb_spec (Datatypes.S k) n); lia).
  assert (Ph : (0 < h)%Z). { assert (0 < nth k ws 0)%Z as P by (apply (proj1 (Forall_forall _ _) Hp), nth_In; lia). unfold h. set (w := nth k ws 0%Z) in *. pose proof (Z.div_mod (w + 1) 2 ltac:(lia)). pose proof (Z.mod_pos_bound (w + 1) 2 ltac:(lia)). lia. }
  destruct (split_box k cs ws ss Hw Hs H Hp ltac:(lia)) as (ss' & Ls & Is & Es). fold h in Es. rewrite <- ET.
  destruct Es as [Es|Es]; unfold x; rewrite <- Es; [eapply (IH k' lim (fst t) (setk k (fun x => (x - h)%Z) cs)); [exact C1|..]|eapply (IH k' lim (fst t) (setk k (fun x => (x + h)%Z) cs)); [exact C2|..]];
    rewrite ?setk_length; auto; try (apply setk_pos; assumption); try (rewrite Es; exact S); try (intros v Hv; rewrite Es; apply HH, IT, Hv).
Qed.
Lemma cell_box : forall n (x : list R), length x = n -> Forall (fun a => 0 <= a <= 1) x -> exists ss, length ss = n /\ Forall in1 ss /\ x = map unit_len (pt (cell n) (cell n) ss).
Proof.
  induction n as [|n IH]; intros x Hx H; destruct x as [|a x]; try discriminate; [exists []; repeat split; constructor|].
  inversion H; subst. destruct (IH x ltac:(cbn in *; lia) H3) as (ss & Ls & Is & ->). exists (2 * a - 1 :: ss). split; [cbn; lia|]. split.
  - constructor; [unfold in1; apply Rabs_le; lra|exact Is].
  - unfold cell. cbn [repeat pt map]. f_equal. unfold unit_len. change (IZR (2^(B-1))) with 524288. rewrite un_pos. field.
Qed.
Theorem check_sound : forall n fuel lim vs x hv, check RR height_form n fuel 0 lim vs (cell n) (cell n) = true -> (0 < n)%nat ->
  length x = n -> Forall (fun a => 0 <= a <= 1) x -> sorted x ->
  (forall v, In v vs -> length v = n) -> (forall v, In v vs -> height (offs x v) (hv v)) ->
  total vs x hv <= IZR lim / IZR (2^B).
Proof.
  intros n fuel lim vs x hv C Hn Hx Hc S HL HH. destruct (cell_box n x Hx Hc) as (ss & Ls & Is & ->).
  assert (Lc : length (cell n) = n) by apply repeat_length.
  apply (check_sound_box n fuel 0 lim vs (cell n) (cell n) ss hv C); auto; try lia.
  - apply Forall_forall. intros w Hw. apply repeat_spec in Hw. subst w. reflexivity.
  - intros v Hv. rewrite Lc. auto.
Qed.
End Total.
