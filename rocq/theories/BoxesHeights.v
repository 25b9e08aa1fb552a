(** Soundness of the three height models of Boxes.v *)
From Coq Require Import Reals ZArith List Bool Lia Lra Psatz.
From Verif Require Import Boxes BoxesSound.
Import ListNotations.
Open Scope R_scope.
Definition sound (height_form : list Z -> list Z -> form) (height : list R -> R -> Prop) : Prop :=
  forall ps ws ss h, length ws = length ps -> length ss = length ps -> Forall in1 ss -> Forall (fun w => (0 < w)%Z) ws ->
  height (map unit_len (pt ps ws ss)) h -> exists H, approx ss (height_form ps ws) (IZR (2^B) * H) /\ h <= H.

(** an exact linear form, in units of 2^-2B, rounded *)
Lemma exact_form : forall ss c l, length l = length ss -> Forall in1 ss ->
  approx ss (rnd B (c, l, 0%Z)) (IZR (2^B) * ((IZR c + dot l ss) / (IZR (2^B) * IZR (2^B)))).
Proof.
  intros ss c l L H. replace (IZR (2^B) * ((IZR c + dot l ss) / (IZR (2^B) * IZR (2^B)))) with ((IZR c + dot l ss) / IZR (2^B)) by (rewrite un_pos; field).
  apply rnd_approx; [unfold B; lia|exact H|]. unfold approx. split; [exact L|]. rewrite Rminus_diag_eq by reflexivity. rewrite Rabs_R0. lra.
Qed.
Lemma dot_wpos : forall ws ss, length ss = length ws -> Forall in1 ss -> Forall (fun w => (0 < w)%Z) ws -> Rabs (dot ws ss) <= IZR (zsum ws).
Proof.
  intros ws ss L H P. eapply Rle_trans; [apply dot_bound; exact H|]. apply IZR_le. clear ss L H. induction P; [reflexivity|]. change (mag (x :: l)) with (Z.abs x + mag l)%Z. change (zsum (x :: l)) with (x + zsum l)%Z. lia.
Qed.

(** ** The sum of all coordinates but one *)
Definition real_coords (U : R) (p : list R) : list R := map (fun a => a + U * rsum p) p.
Definition abs_sum (l : list R) : R := rsum (map Rabs l).
Definition drop_height (U : R) (p : list R) (h : R) : Prop :=
  exists o, In o (real_coords U p) /\ h <= abs_sum (real_coords U p) - Rabs o.

Lemma dot_setk : forall k a l ss, (k < length l)%nat -> length ss = length l -> dot (setk k (fun x => (x + a)%Z) l) ss = dot l ss + IZR a * nth k ss 0.
Proof.
  induction k as [|k IH]; intros a l ss Hk Hs; destruct l as [|x l], ss as [|s ss]; try discriminate; cbn [length] in *; try lia; cbn [setk dot nth].
  - rewrite plus_IZR. ring.
  - rewrite IH by lia. ring.
Qed.
Definition close (ss : list R) (e : R) (o : Z * list Z) (x : R) : Prop :=
  length (snd o) = length ss /\ Rabs (x * (IZR (2^B) * IZR (2^B)) - (IZR (fst o) + dot (snd o) ss)) <= e.
Lemma coords_close : forall U UU ps ws ss, Rabs (U * IZR (2^B) - IZR UU) <= 1 -> length ws = length ps -> length ss = length ps -> Forall in1 ss -> Forall (fun w => (0 < w)%Z) ws ->
  Forall2 (close ss (IZR (Z.abs (zsum ps) + zsum ws))) (coords UU ps ws) (real_coords U (map unit_len (pt ps ws ss))).
Proof.
  intros U UU ps ws ss HU Hw Hs H Hp. unfold coords, real_coords.
  assert (RS : rsum (map unit_len (pt ps ws ss)) = (IZR (zsum ps) + dot ws ss) / IZR (2^B)).
  { rewrite <- rsum_pt by assumption. clear. induction (pt ps ws ss) as [|a l IH]; cbn [map rsum fold_right]; [unfold Rdiv; lra|]. unfold rsum in IH. rewrite IH. unfold unit_len. unfold Rdiv. ring. }
  rewrite RS. pose proof (dot_wpos ws ss ltac:(lia) H Hp) as Db.
  set (su := (UU * zsum ps)%Z). set (ul := map (fun w => (UU * w)%Z) ws).
  assert (Dul : dot ul ss = IZR UU * dot ws ss) by (unfold ul; rewrite <- dot_scale; reflexivity).
  assert (G : forall pre ps', ps = pre ++ ps' -> forall ws' ss', skipn (length pre) ws = ws' -> skipn (length pre) ss = ss' ->
    Forall2 (close ss (IZR (Z.abs (zsum ps) + zsum ws))) 
      (map (fun iz => let '(i, p) := iz in ((Z.shiftl p B + su)%Z, setk i (fun x => (x + Z.shiftl (nth i ws 0) B)%Z) ul)) (combine (seq (length pre) (length ps')) ps'))
      (map (fun a => a + U * ((IZR (zsum ps) + dot ws ss) / IZR (2^B))) (map unit_len (pt ps' ws' ss')))).
  { intros pre ps'. revert pre. induction ps' as [|p ps' IH]; intros pre E ws' ss' Ew Es; [constructor|].
    assert (Lp : (length pre < length ps)%nat) by (rewrite E, app_length; cbn; lia).
    assert (N : exists w s, ws' = w :: skipn (S (length pre)) ws /\ ss' = s :: skipn (S (length pre)) ss /\ nth (length pre) ws 0%Z = w /\ nth (length pre) ss 0 = s).
    { subst ws' ss'. exists (nth (length pre) ws 0%Z), (nth (length pre) ss 0). repeat split.
      - assert (Lw : (length pre < length ws)%nat) by lia. clear -Lw. revert ws Lw. induction (length pre) as [|k IH]; intros ws Lw; destruct ws; cbn in *; try lia; [reflexivity|]. apply IH. lia.
      - assert (Lw : (length pre < length ss)%nat) by lia. clear -Lw. revert ss Lw. induction (length pre) as [|k IH]; intros ss Lw; destruct ss; cbn in *; try lia; [reflexivity|]. apply IH. lia. }
    destruct N as (w & s & -> & -> & Nw & Ns). cbn [length seq combine map pt].
    constructor.
    - unfold close. cbn [fst snd]. split; [rewrite setk_length; unfold ul; rewrite map_length; lia|].
      rewrite dot_setk by (unfold ul; rewrite map_length; lia). rewrite Nw, Ns, Dul. rewrite plus_IZR, !Z.shiftl_mul_pow2 by (unfold B; lia).
      unfold su. rewrite !mult_IZR. unfold unit_len. rewrite plus_IZR, abs_IZR.
      replace (((IZR p + IZR w * s) / IZR (2^B) + U * ((IZR (zsum ps) + dot ws ss) / IZR (2^B))) * (IZR (2^B) * IZR (2^B)) -
        (IZR p * IZR (2^B) + IZR UU * IZR (zsum ps) + (IZR UU * dot ws ss + IZR w * IZR (2^B) * s)))
        with ((U * IZR (2^B) - IZR UU) * (IZR (zsum ps) + dot ws ss)) by (rewrite un_pos; field).
      rewrite Rabs_mult. pose proof (Rabs_triang (IZR (zsum ps)) (dot ws ss)).
      replace (Rabs (IZR (zsum ps)) + IZR (zsum ws)) with (1 * (Rabs (IZR (zsum ps)) + IZR (zsum ws))) by ring.
      apply Rmult_le_compat; auto using Rabs_pos. lra.
    - specialize (IH (pre ++ [p])). rewrite <- app_assoc in IH. specialize (IH E). rewrite !app_length in IH. cbn [length] in IH. rewrite Nat.add_1_r in IH.
      apply IH; auto. }
  exact (G [] ps eq_refl ws ss eq_refl eq_refl).
Qed.

Definition signed (o : Z * list Z) : Z * list Z := (Z.abs (fst o), zneg_if (fst o <? 0)%Z (snd o)).
Definition lval (ss : list R) (o : Z * list Z) : R := IZR (fst o) + dot (snd o) ss.
Definition wrong (o : Z * list Z) : Z := (2 * Z.max 0 (mag (snd o) - fst o))%Z.
(** what a signed form says about the absolute value of the coordinate *)
Definition abs_close (ss : list R) (e : R) (o : Z * list Z) (x : R) : Prop :=
  length (snd o) = length ss /\ lval ss o <= Rabs x * (IZR (2^B) * IZR (2^B)) + e /\ Rabs x * (IZR (2^B) * IZR (2^B)) <= lval ss o + IZR (wrong o) + e.
Lemma signed_close : forall ss e o x, Forall in1 ss -> close ss e o x -> abs_close ss e (signed o) x.
Proof.
  intros ss e [c l] x H [L A]. unfold abs_close, signed, lval, wrong. cbn [fst snd] in *.
  set (N := IZR (2^B) * IZR (2^B)) in *. assert (HN : 0 < N) by (unfold N; rewrite un_pos; lra).
  assert (Lz : length (zneg_if (c <? 0)%Z l) = length ss) by (unfold zneg_if; destruct (c <? 0)%Z; rewrite ?map_length; exact L).
  split; [exact Lz|]. pose proof (dot_bound (zneg_if (c <? 0)%Z l) ss H) as D. set (l' := zneg_if (c <? 0)%Z l) in *.
  assert (V : Rabs (IZR c + dot l ss) = Rabs (IZR (Z.abs c) + dot l' ss)).
  { unfold l', zneg_if. destruct (Z.ltb_spec c 0); [rewrite Z.abs_neq by lia; rewrite dot_opp, opp_IZR; rewrite <- Rabs_Ropp; f_equal; ring|rewrite Z.abs_eq by lia; reflexivity]. }
  assert (AN : Rabs x * N = Rabs (x * N)) by (rewrite Rabs_mult, (Rabs_pos_eq N) by lra; reflexivity). rewrite AN.
  set (f := IZR (Z.abs c) + dot l' ss) in *. set (y := x * N) in *. clearbody y.
  pose proof (Rabs_triang (y - (IZR c + dot l ss)) (IZR c + dot l ss)) as T1. replace (y - (IZR c + dot l ss) + (IZR c + dot l ss)) with y in T1 by ring.
  pose proof (Rabs_triang (- (y - (IZR c + dot l ss))) y) as T2. rewrite Rabs_Ropp in T2. replace (- (y - (IZR c + dot l ss)) + y) with (IZR c + dot l ss) in T2 by ring.
  rewrite V in T1, T2. pose proof (Rle_abs f). split; [lra|].
  assert (Rabs f <= f + IZR (2 * Z.max 0 (mag l' - Z.abs c))); [|lra].
  rewrite mult_IZR. assert (IZR (mag l') - IZR (Z.abs c) <= IZR (Z.max 0 (mag l' - Z.abs c))) by (rewrite <- minus_IZR; apply IZR_le; lia).
  assert (0 <= IZR (Z.max 0 (mag l' - Z.abs c))) by (apply IZR_le; lia).
  unfold Rabs at 1. destruct (Rcase_abs f); [|lra]. pose proof (Rle_abs (- dot l' ss)). rewrite Rabs_Ropp in *. unfold f in *. lra.
Qed.
Lemma argmin_in : forall l z, In (argmin z l) (z :: l).
Proof.
  induction l as [|o l IH]; intros z; cbn [argmin]; [left; reflexivity|]. destruct (fst o <? fst z)%Z.
  - destruct (IH o) as [E|E]; [right; left; exact E|right; right; exact E].
  - destruct (IH z) as [E|E]; [left; exact E|right; right; exact E].
Qed.
Lemma lval_sum : forall ss (os : list (Z * list Z)) (ws : list Z), Forall (fun o => length (snd o) = length ss) os -> length ws = length ss ->
  let c := fold_right (fun o acc => (fst o + acc)%Z) 0%Z os in let l := fold_right (fun o acc => zadd (snd o) acc) (map (fun _ => 0%Z) ws) os in
  length l = length ss /\ IZR c + dot l ss = rsum (map (lval ss) os).
Proof.
  intros ss os ws H L. induction H as [|o os Ho H IH]; cbn [fold_right map rsum].
  - rewrite map_length. split; [exact L|]. rewrite dot_zero. lra.
  - cbn zeta in *. destruct IH as [IL IH]. split; [apply zadd_length; assumption|]. rewrite dot_zadd by assumption. rewrite plus_IZR. unfold rsum in IH. rewrite <- IH. unfold lval. ring.
Qed.
Theorem drop_sound : forall U UU, Rabs (U * IZR (2^B) - IZR UU) <= 1 -> sound (drop_form UU) (drop_height U).
Proof.
  intros U UU HU ps ws ss h Hw Hs H Hp (o & Io & Hh). pose proof (coords_close U UU ps ws ss HU Hw Hs H Hp) as CC.
  set (os := real_coords U (map unit_len (pt ps ws ss))) in *. clearbody os. unfold drop_form. fold signed.
  change (map (fun o => (Z.abs (fst o), zneg_if (fst o <? 0)%Z (snd o))) (coords UU ps ws)) with (map signed (coords UU ps ws)).
  set (ez := (Z.abs (zsum ps) + zsum ws)%Z) in *. 
  assert (E0 : 0 <= IZR ez).
  { apply IZR_le. unfold ez. assert (0 <= zsum ws)%Z; [|lia]. clear -Hp. induction Hp; [reflexivity|]. change (zsum (x :: l)) with (x + zsum l)%Z. lia. }
  assert (SC : Forall2 (abs_close ss (IZR ez)) (map signed (coords UU ps ws)) os).
  { clear -CC H. induction CC; cbn [map]; constructor; auto. apply signed_close; assumption. }
  set (fs := map signed (coords UU ps ws)) in *. clearbody fs. clear CC.
  destruct fs as [|f fs]; [inversion SC; subst; contradiction|].
  set (z := argmin f fs). pose proof (argmin_in fs f) as Iz. fold z in Iz. remember (f :: fs) as F eqn:EF.
  assert (LF : Forall (fun o => length (snd o) = length ss) F) by (clear -SC; induction SC; constructor; auto; destruct H; assumption).
  assert (Lz : length (snd z) = length ss) by exact (proj1 (Forall_forall _ _) LF z Iz).
  destruct (lval_sum ss F ws LF ltac:(lia)) as [Ll Vs]. cbn zeta in Ll, Vs.
  set (c := fold_right (fun o acc => (fst o + acc)%Z) 0%Z F) in *. set (l := fold_right (fun o acc => zadd (snd o) acc) (map (fun _ => 0%Z) ws) F) in *.
  set (n := fold_right (fun o acc => (2 * Z.max 0 (mag (snd o) - fst o) + acc)%Z) 0%Z F). set (d := fold_right (fun o acc => Z.max (fst z - fst o + mag (zadd (snd z) (map Z.opp (snd o)))) acc) 0%Z F).
  eexists. split; [apply exact_form; [|exact H]; apply zadd_length; rewrite ?map_length; assumption|].
  rewrite dot_zadd by (rewrite ?map_length; assumption). rewrite dot_opp. rewrite !plus_IZR, mult_IZR, plus_IZR, minus_IZR.
  set (N := IZR (2^B) * IZR (2^B)) in *. assert (HN : 0 < N) by (unfold N; rewrite un_pos; lra).
  apply Rmult_le_reg_r with N; [exact HN|]. unfold Rdiv. rewrite Rmult_assoc, Rinv_l, Rmult_1_r by lra.
  assert (S1 : abs_sum os * N <= rsum (map (lval ss) F) + IZR n + IZR (Z.of_nat (length F)) * IZR ez).
  { unfold n. clear -SC E0 HN. unfold abs_sum. induction SC as [|a b F os A SC IH]; cbn [map rsum fold_right length]; [change (Z.of_nat 0) with 0%Z; rewrite !Rmult_0_l; lra|].
    rewrite Nat2Z.inj_succ, succ_IZR, plus_IZR. unfold rsum in IH. destruct A as (_ & _ & A). unfold wrong in A. fold N in A. lra. }
  assert (D1 : forall g, In g F -> - lval ss g <= - lval ss z + IZR d).
  { intros g Ig. assert (Lg : length (snd g) = length ss) by exact (proj1 (Forall_forall _ _) LF g Ig).
    assert (DD : (fst z - fst g + mag (zadd (snd z) (map Z.opp (snd g))) <= d)%Z).
    { unfold d. clearbody z. clear -Ig. induction F as [|a F IH]; [contradiction|]. cbn [fold_right]. destruct Ig as [<-|Ig]; [lia|]. specialize (IH Ig). lia. }
    apply IZR_le in DD. rewrite plus_IZR, minus_IZR in DD. pose proof (dot_bound (zadd (snd z) (map Z.opp (snd g))) ss H) as Db.
    rewrite dot_zadd in Db by (rewrite ?map_length; assumption). rewrite dot_opp in Db. pose proof (Rle_abs (dot (snd z) ss + - dot (snd g) ss)). unfold lval. lra. }
  assert (S2 : exists g, In g F /\ - (Rabs o * N) <= - lval ss g + IZR ez).
  { clear -SC Io. induction SC as [|a b F os A SC IH]; [contradiction|]. destruct Io as [<-|Io].
    - exists a. split; [left; reflexivity|]. destruct A as (_ & A & _). fold N in A. lra.
    - destruct (IH Io) as (g & Ig & Hg). exists g. split; [right; exact Ig|exact Hg]. }
  destruct S2 as (g & Ig & Hg). specialize (D1 g Ig). unfold lval at 2 in D1. 
  assert (h * N <= (abs_sum os - Rabs o) * N) by (apply Rmult_le_compat_r; lra).
  rewrite <- Vs in S1. assert (Lz0 : length F = length F) by reflexivity. lra.
Qed.

(** ** The largest of several linear forms *)
Fixpoint rdot (g p : list R) : R := match g, p with a :: g', b :: p' => a * b + rdot g' p' | _, _ => 0 end.
Definition coef (a : R) (z : Z) : Prop := Rabs (a * IZR (2^B) - IZR z) <= 1.
Definition max_height (n : nat) (gs : list (list Z)) (p : list R) (h : R) : Prop :=
  length p = n /\ exists g z, In z gs /\ Forall2 coef g z /\ length g = length p /\ h <= rdot g p.
Lemma lin_close : forall g z ps ws ss, Forall2 coef g z -> length g = length ps -> length ws = length ps -> length ss = length ps -> Forall in1 ss -> Forall (fun w => (0 < w)%Z) ws ->
  length (zmul z ws) = length ss /\
  Rabs (rdot g (map unit_len (pt ps ws ss)) * (IZR (2^B) * IZR (2^B)) - (IZR (zsum (zmul z ps)) + dot (zmul z ws) ss)) <= IZR (mag ps) + IZR (zsum ws).
Proof.
  intros g z ps ws ss Hg. revert ps ws ss. induction Hg as [|a b g z A Hg IH]; intros ps ws ss L Lw Ls H Hp; destruct ps as [|p ps]; try discriminate; destruct ws as [|w ws], ss as [|s ss]; try discriminate.
  - cbn. split; [reflexivity|]. rewrite Rmult_0_l. replace (0 - (0 + 0)) with 0 by ring. rewrite Rabs_R0. lra.
  - inversion H; inversion Hp; subst. destruct (IH ps ws ss) as [L1 IH']; auto. clear IH. cbn [zmul pt map rdot dot length]. split; [rewrite L1; reflexivity|].
    change (zsum (b * p :: zmul z ps)%Z) with (b * p + zsum (zmul z ps))%Z. change (mag (p :: ps)) with (Z.abs p + mag ps)%Z. change (zsum (w :: ws)) with (w + zsum ws)%Z.
    rewrite !plus_IZR, !mult_IZR, abs_IZR. set (r := rdot g (map unit_len (pt ps ws ss))) in *. set (N := IZR (2^B) * IZR (2^B)) in *.
    replace ((a * unit_len (IZR p + IZR w * s) + r) * N - (IZR b * IZR p + IZR (zsum (zmul z ps)) + (IZR b * IZR w * s + dot (zmul z ws) ss))) with
      ((a * IZR (2^B) - IZR b) * (IZR p + IZR w * s) + (r * N - (IZR (zsum (zmul z ps)) + dot (zmul z ws) ss))) by (unfold N, unit_len; rewrite un_pos; field).
    eapply Rle_trans; [apply Rabs_triang|]. rewrite Rabs_mult. unfold coef, in1 in *.
    assert (Rabs (IZR p + IZR w * s) <= Rabs (IZR p) + IZR w).
    { eapply Rle_trans; [apply Rabs_triang|]. rewrite Rabs_mult. match goal with Hx : (0 < w)%Z |- _ => apply IZR_lt in Hx end. rewrite (Rabs_pos_eq (IZR w)) by lra. nra. }
    assert (Rabs (a * IZR (2^B) - IZR b) * Rabs (IZR p + IZR w * s) <= 1 * (Rabs (IZR p) + IZR w)) by (apply Rmult_le_compat; auto using Rabs_pos). lra.
Qed.
Theorem max_sound : forall n gs, Forall (fun g => length g = n) gs -> sound (max_form gs) (max_height n gs).
Proof.
  intros n gs LG ps ws ss h Hw Hs H Hp (Ln & g & z & Iz & Hg & Lg & Hh). rewrite map_length, pt_length in Ln by assumption. rewrite map_length, pt_length in Lg by assumption.
  destruct (lin_close g z ps ws ss Hg ltac:(lia) Hw Hs H Hp) as [_ A]. unfold max_form.
  assert (LF : Forall (fun o => length (snd o) = length ss) (map (lin_form ws ps) gs)).
  { apply Forall_forall. intros o Io. apply in_map_iff in Io as (q & <- & Iq). cbn [lin_form snd]. apply zmul_length; [|lia]. rewrite (proj1 (Forall_forall _ _) LG q Iq). lia. }
  assert (IF : In (lin_form ws ps z) (map (lin_form ws ps) gs)) by (apply in_map; exact Iz).
  remember (map (lin_form ws ps) gs) as F eqn:EF. clear EF LG Iz. destruct F as [|f fs]; [contradiction|].
  set (y := argmin (- fst f, snd f)%Z (map (fun o => (- fst o, snd o)%Z) fs)).
  assert (Iy : exists o, In o (f :: fs) /\ y = (- fst o, snd o)%Z).
  { pose proof (argmin_in (map (fun o => (- fst o, snd o)%Z) fs) (- fst f, snd f)%Z) as I0. fold y in I0.
    change ((- fst f, snd f)%Z :: map (fun o => (- fst o, snd o)%Z) fs) with (map (fun o : Z * list Z => (- fst o, snd o)%Z) (f :: fs)) in I0.
    apply in_map_iff in I0 as (o & E & Io). exists o. split; [exact Io|symmetry; exact E]. }
  clearbody y. destruct Iy as (o & Io & ->). cbn [fst snd]. remember (f :: fs) as F eqn:EF. clear EF f fs.
  assert (Lo : length (snd o) = length ss) by exact (proj1 (Forall_forall _ _) LF o Io).
  set (d := fold_right (fun o0 acc => Z.max (fst o0 + - fst o + mag (zadd (snd o0) (map Z.opp (snd o)))) acc) 0%Z F).
  eexists. split; [apply exact_form; [exact Lo|exact H]|]. rewrite Z.opp_involutive, !plus_IZR.
  set (N := IZR (2^B) * IZR (2^B)) in *. assert (HN : 0 < N) by (unfold N; rewrite un_pos; lra).
  apply Rmult_le_reg_r with N; [exact HN|]. unfold Rdiv. rewrite Rmult_assoc, Rinv_l, Rmult_1_r by lra.
  assert (Lz : length (snd (lin_form ws ps z)) = length ss) by exact (proj1 (Forall_forall _ _) LF _ IF).
  assert (DD : (fst (lin_form ws ps z) + - fst o + mag (zadd (snd (lin_form ws ps z)) (map Z.opp (snd o))) <= d)%Z).
  { unfold d. revert IF. generalize (lin_form ws ps z). clear. intros q IF. induction F as [|a F IH]; [contradiction|]. cbn [fold_right]. destruct IF as [<-|IF]; [lia|]. specialize (IH IF). lia. }
  apply IZR_le in DD. rewrite plus_IZR, plus_IZR, opp_IZR in DD. pose proof (dot_bound (zadd (snd (lin_form ws ps z)) (map Z.opp (snd o))) ss H) as Db.
  rewrite dot_zadd in Db by (rewrite ?map_length; assumption). rewrite dot_opp in Db. cbn [lin_form fst snd] in DD, Db.
  set (D := dot (zmul z ws) ss) in *. pose proof (Rle_abs (D + - dot (snd o) ss)).
  pose proof (Rle_abs (rdot g (map unit_len (pt ps ws ss)) * N - (IZR (zsum (zmul z ps)) + D))).
  assert (h * N <= rdot g (map unit_len (pt ps ws ss)) * N) by (apply Rmult_le_compat_r; lra). lra.
Qed.

(** ** The length *)
Definition root_height (p : list R) (h : R) : Prop := h * h <= quad p.
Lemma div_floor : forall a b, (0 < b)%Z -> 0 <= IZR a / IZR b - IZR (a / b) <= 1.
Proof.
  intros a b P. pose proof (Z.div_mod a b ltac:(lia)) as E. pose proof (Z.mod_pos_bound a b P) as M. set (q := (a / b)%Z) in *. set (m := (a mod b)%Z) in *. clearbody q m. subst a.
  rewrite plus_IZR, mult_IZR. apply IZR_lt in P. destruct M as [M1 M2]. apply IZR_le in M1. apply IZR_lt in M2.
  replace ((IZR b * IZR q + IZR m) / IZR b - IZR q) with (IZR m / IZR b) by (field; lra).
  split; [apply Rmult_le_pos; [lra|left; apply Rinv_0_lt_compat; lra]|]. apply Rmult_le_reg_r with (IZR b); [lra|]. unfold Rdiv. rewrite Rmult_assoc, Rinv_l by lra. lra.
Qed.
Lemma dot_div : forall b l ss, (0 < b)%Z -> Forall in1 ss -> dot l ss / IZR b <= dot (map (fun x => (x / b)%Z) l) ss + IZR (Z.of_nat (length l)).
Proof.
  intros b l ss P. revert ss. induction l as [|x l IH]; intros ss H; [cbn; unfold Rdiv; lra|]. cbn [length map]. rewrite Nat2Z.inj_succ, succ_IZR.
  destruct ss as [|s ss]; cbn [dot]; [unfold Rdiv; pose proof (IZR_le 0 (Z.of_nat (length l)) ltac:(lia)); lra|]. inversion H; subst. specialize (IH ss H3).
  pose proof (div_floor x b P) as D. apply IZR_lt in P. unfold in1 in *.
  replace ((IZR x * s + dot l ss) / IZR b) with ((IZR x / IZR b - IZR (x / b)) * s + IZR (x / b) * s + dot l ss / IZR b) by (field; lra).
  assert ((IZR x / IZR b - IZR (x / b)) * s <= 1); [|lra]. pose proof (Rle_abs s). set (e := IZR x / IZR b - IZR (x / b)) in *. clearbody e.
  destruct (Rle_dec s 0); nra.
Qed.
Theorem root_sound : sound root_form root_height.
Proof.
  intros ps ws ss h Hw Hs H Hp Hh. unfold root_height in Hh. rewrite quad_unit in Hh. unfold root_form.
  destruct (quad_expand ps ws ss Hw Hs H) as (e & He & E). cbn zeta in He, E.
  set (n1 := (Z.of_nat (length ps) + 1)%Z) in *. set (s := zsum ps) in *. set (l := zmul (map (fun p => (2 * (n1 * p - s))%Z) ps) ws) in *.
  set (q := (n1 * sqsum ps - s * s + n1 * sqsum ws)%Z). set (m := (Z.sqrt q + 1)%Z).
  assert (Pm : (0 < m)%Z) by (unfold m; pose proof (Z.sqrt_nonneg q); lia).
  assert (Ll : length l = length ss) by (unfold l; rewrite (zmul_length _ _ (length ps)); rewrite ?map_length; lia).
  eexists. split.
  { unfold approx. rewrite map_length. split; [exact Ll|].
    instantiate (1 := (IZR ((q + m * m) / (2 * m) + 1 + Z.of_nat (length ws)) + dot (map (fun l => (l / (2 * m))%Z) l) ss) / IZR (2^B)).
    match goal with |- Rabs ?e <= _ => replace e with 0 by (rewrite un_pos; field) end. rewrite Rabs_R0. lra. }
  apply Rmult_le_reg_r with (IZR (2^B)); [rewrite un_pos; lra|]. unfold Rdiv. rewrite Rmult_assoc, Rinv_l, Rmult_1_r by (rewrite un_pos; lra).
  rewrite !plus_IZR. pose proof (div_floor (q + m * m) (2 * m) ltac:(lia)) as D. pose proof (dot_div (2 * m) l ss ltac:(lia) H) as DD. rewrite Ll in DD.
  assert (Q : quad (pt ps ws ss) <= IZR q + dot l ss). { rewrite E. unfold q. rewrite plus_IZR. lra. }
  set (x := h * IZR (2^B)). assert (X : x * x <= quad (pt ps ws ss)).
  { unfold x. set (N := IZR (2^B)) in *. assert (0 < N) by (unfold N; rewrite un_pos; lra). assert (h * h * (N * N) <= quad (pt ps ws ss) / (N * N) * (N * N)) by (apply Rmult_le_compat_r; nra).
    replace (quad (pt ps ws ss) / (N * N) * (N * N)) with (quad (pt ps ws ss)) in H1 by (field; lra). lra. }
  assert (Pm' : 0 < IZR m) by (apply IZR_lt; exact Pm). rewrite mult_IZR, plus_IZR, mult_IZR in D. rewrite mult_IZR in DD.
  assert (x <= (IZR q + IZR m * IZR m) / (2 * IZR m) + dot l ss / (2 * IZR m)).
  { apply Rmult_le_reg_r with (2 * IZR m); [lra|]. replace (((IZR q + IZR m * IZR m) / (2 * IZR m) + dot l ss / (2 * IZR m)) * (2 * IZR m)) with (IZR q + IZR m * IZR m + dot l ss) by (field; lra).
    pose proof (Rle_0_sqr (x - IZR m)) as K. unfold Rsqr in K. lra. }
  assert (length ws = length ss) as -> by lia. lra.
Qed.
