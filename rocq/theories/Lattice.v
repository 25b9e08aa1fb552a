(** Lattice noise in any dimension: a blend of contributions of the corners of the cell that contains the
    position. General facts, used for Value and Perlin noise (C33-C35). *)
From Coq Require Import Reals ZArith List Bool Lia Lra.
From Verif Require Import Prelude Simd_Model Utils_Model Simd_R.
Import ListNotations.
Open Scope R_scope.

(** ** Continuity of a function of a position, at a position *)
Definition near (d : R) (xs ys : list R) : Prop := Forall2 (fun x y => Rabs (y - x) < d) xs ys.
Definition continuous_at (f : list R -> R) (xs : list R) : Prop :=
  forall eps, 0 < eps -> exists d, 0 < d /\ forall ys, near d xs ys -> Rabs (f ys - f xs) < eps.

Lemma near_le : forall d e xs ys, d <= e -> near d xs ys -> near e xs ys.
Proof. intros d e xs ys H N. induction N; constructor; auto. lra. Qed.
Lemma near_nth : forall d xs ys, near d xs ys -> 0 < d -> forall k, Rabs (nth k ys 0 - nth k xs 0) < d.
Proof.
  intros d xs ys N Hd. induction N; intros [|k]; cbn [nth]; auto; rewrite Rminus_diag_eq, Rabs_R0 by reflexivity; auto.
Qed.
Lemma near_refl : forall d xs, 0 < d -> near d xs xs.
Proof. intros d xs H. induction xs; constructor; auto. rewrite Rminus_diag_eq, Rabs_R0 by reflexivity. auto. Qed.

Lemma near_length : forall d xs ys, near d xs ys -> length xs = length ys.
Proof. intros d xs ys N. induction N; cbn [length]; auto. Qed.
Lemma cont_const : forall c xs, continuous_at (fun _ => c) xs.
Proof. intros c xs e He. exists 1. split; [lra|]. intros. rewrite Rminus_diag_eq, Rabs_R0 by reflexivity. auto. Qed.
Lemma cont_nth : forall k xs, continuous_at (fun ys => nth k ys 0) xs.
Proof. intros k xs e He. exists e. split; auto. intros. apply near_nth; auto. Qed.
Lemma cont_plus : forall f g xs, continuous_at f xs -> continuous_at g xs -> continuous_at (fun ys => f ys + g ys) xs.
Proof.
  intros f g xs Hf Hg e He. destruct (Hf (e/2) ltac:(lra)) as (d1 & P1 & Q1). destruct (Hg (e/2) ltac:(lra)) as (d2 & P2 & Q2).
  exists (Rmin d1 d2). split; [apply Rmin_pos; auto|]. intros ys N.
  pose proof (Q1 ys (near_le _ _ _ _ (Rmin_l _ _) N)). pose proof (Q2 ys (near_le _ _ _ _ (Rmin_r _ _) N)).
  replace (f ys + g ys - (f xs + g xs)) with ((f ys - f xs) + (g ys - g xs)) by ring.
  eapply Rle_lt_trans; [apply Rabs_triang|]. lra.
Qed.
Lemma cont_mult : forall f g xs, continuous_at f xs -> continuous_at g xs -> continuous_at (fun ys => f ys * g ys) xs.
Proof.
  intros f g xs Hf Hg e He. set (A := Rabs (f xs) + 1). set (B := Rabs (g xs) + 1).
  assert (HA : 0 < A) by (unfold A; pose proof (Rabs_pos (f xs)); lra). assert (HB : 0 < B) by (unfold B; pose proof (Rabs_pos (g xs)); lra).
  destruct (Hf (Rmin 1 (e/(2*B)))) as (d1 & P1 & Q1); [apply Rmin_pos; [lra|apply Rdiv_lt_0_compat; lra]|].
  destruct (Hg (e/(2*A))) as (d2 & P2 & Q2); [apply Rdiv_lt_0_compat; lra|].
  exists (Rmin d1 d2). split; [apply Rmin_pos; auto|]. intros ys N.
  pose proof (Q1 ys (near_le _ _ _ _ (Rmin_l _ _) N)) as U. pose proof (Q2 ys (near_le _ _ _ _ (Rmin_r _ _) N)) as W.
  pose proof (Rmin_l 1 (e/(2*B))). pose proof (Rmin_r 1 (e/(2*B))).
  replace (f ys * g ys - f xs * g xs) with (f ys * (g ys - g xs) + (f ys - f xs) * g xs) by ring.
  eapply Rle_lt_trans; [apply Rabs_triang|]. rewrite !Rabs_mult.
  assert (Rabs (f ys) <= A).
  { unfold A. replace (f ys) with (f xs + (f ys - f xs)) by ring. eapply Rle_trans; [apply Rabs_triang|]. lra. }
  assert (Rabs (f ys) * Rabs (g ys - g xs) < e/2).
  { apply Rle_lt_trans with (A * Rabs (g ys - g xs)); [apply Rmult_le_compat_r; auto; apply Rabs_pos|].
    apply Rlt_le_trans with (A * (e / (2 * A))); [apply Rmult_lt_compat_l; auto|]. right. field. lra. }
  assert (Rabs (f ys - f xs) * Rabs (g xs) <= e/2).
  { apply Rle_trans with (e / (2 * B) * B); [apply Rmult_le_compat; try apply Rabs_pos; try lra; unfold B; lra|]. right. field. lra. }
  lra.
Qed.
Lemma cont_opp : forall f xs, continuous_at f xs -> continuous_at (fun ys => - f ys) xs.
Proof.
  intros f xs Hf e He. destruct (Hf e He) as (d & P & Q). exists d. split; auto. intros ys N.
  replace (- f ys - - f xs) with (- (f ys - f xs)) by ring. rewrite Rabs_Ropp. auto.
Qed.
Lemma cont_minus : forall f g xs, continuous_at f xs -> continuous_at g xs -> continuous_at (fun ys => f ys - g ys) xs.
Proof. intros f g xs Hf Hg. unfold Rminus. apply cont_plus; auto. apply cont_opp; auto. Qed.
Lemma cont_ext : forall f g xs, (forall ys, length ys = length xs -> f ys = g ys) -> continuous_at f xs -> continuous_at g xs.
Proof.
  intros f g xs E Hf e He. destruct (Hf e He) as (d & P & Q). exists d. split; auto. intros ys N.
  rewrite <- !E; auto. symmetry. eapply near_length; eauto.
Qed.
(** scaling the position *)
Lemma cont_scale : forall f c xs, continuous_at f (map (fun x => x * c) xs) -> continuous_at (fun ys => f (map (fun x => x * c) ys)) xs.
Proof.
  intros f c xs Hf e He. destruct (Hf e He) as (d & P & Q). exists (d / (Rabs c + 1)).
  pose proof (Rabs_pos c). split; [apply Rdiv_lt_0_compat; lra|]. intros ys N. apply Q. clear - N H P.
  induction N; cbn [map]; constructor; auto. rewrite <- Rmult_minus_distr_r, Rabs_mult.
  apply Rle_lt_trans with (Rabs (y - x) * (Rabs c + 1)); [apply Rmult_le_compat_l; [apply Rabs_pos|lra]|].
  apply Rlt_le_trans with (d / (Rabs c + 1) * (Rabs c + 1)); [apply Rmult_lt_compat_r; lra|]. right. field. lra.
Qed.

(** ** The blend *)
(** Corner by corner: along axis k the lower corner n weighs 1 - fade(z - n), the upper one fade(z - n). *)
Fixpoint wsum (fade : R -> R) (k : nat) (ns : list Z) (zs : list R) (G : list Z -> R) : R :=
  match ns with
  | [] => G []
  | n :: ns' =>
      let t := fade (nth k zs 0 - IZR n) in
      (1 - t) * wsum fade (S k) ns' zs (fun cs => G (n :: cs)) + t * wsum fade (S k) ns' zs (fun cs => G ((n + 1)%Z :: cs))
  end.
(** the offsets of a position from a lattice point *)
Fixpoint offs (zs : list R) (cs : list Z) : list R :=
  match zs, cs with z :: zs', c :: cs' => z - IZR c :: offs zs' cs' | _, _ => [] end.
Definition lattice (fade : R -> R) (corner : list Z -> list R -> R) (zs : list R) : R :=
  wsum fade 0 (map Rfloor zs) zs (fun cs => corner cs (offs zs cs)).

(** [zs] lies in the closed cell with lower corner [ns] *)
Fixpoint inside (k : nat) (ns : list Z) (zs : list R) : Prop :=
  match ns with [] => True | n :: ns' => IZR n <= nth k zs 0 <= IZR n + 1 /\ inside (S k) ns' zs end.
Fixpoint floors (k m : nat) (zs : list R) : list Z :=
  match m with O => [] | S m' => Rfloor (nth k zs 0) :: floors (S k) m' zs end.

Section Paste.
Variable fade : R -> R.
Hypothesis fade0 : fade 0 = 0.
Hypothesis fade1 : fade 1 = 1.

(** on the common border of two cells, both give the same value *)
Lemma wsum_cell : forall ns k zs G, inside k ns zs -> wsum fade k ns zs G = wsum fade k (floors k (length ns) zs) zs G.
Proof.
  induction ns as [|n ns IH]; intros k zs G H; [reflexivity|]. destruct H as [H H']. cbn [length floors wsum].
  rewrite !(IH _ _ _ H'). pose proof (Rfloor_spec (nth k zs 0)) as F. set (m := Rfloor (nth k zs 0)) in *.
  destruct (Req_dec (nth k zs 0) (IZR n + 1)) as [E|E].
  - assert (m = (n + 1)%Z) as -> by (unfold m; apply Rfloor_unique; rewrite plus_IZR; lra).
    rewrite E. replace (IZR n + 1 - IZR n) with 1 by ring. rewrite plus_IZR. replace (IZR n + 1 - (IZR n + 1)) with 0 by ring.
    rewrite fade0, fade1. ring.
  - assert (m = n) as -> by (unfold m; apply Rfloor_unique; lra). reflexivity.
Qed.

Hypothesis fade_cont : forall f xs, continuous_at f xs -> continuous_at (fun ys => fade (f ys)) xs.

Lemma wsum_cont : forall ns k (G : list R -> list Z -> R) xs, (forall cs, continuous_at (fun ys => G ys cs) xs) ->
  continuous_at (fun ys => wsum fade k ns ys (G ys)) xs.
Proof.
  induction ns as [|n ns IH]; intros k G xs H; cbn [wsum]; [apply H|].
  assert (T : continuous_at (fun ys => fade (nth k ys 0 - IZR n)) xs).
  { apply fade_cont. apply cont_minus; [apply cont_nth|apply cont_const]. }
  apply cont_plus; apply cont_mult.
  - apply cont_minus; [apply cont_const|exact T].
  - apply (IH (S k) (fun ys cs => G ys (n :: cs))). auto.
  - exact T.
  - apply (IH (S k) (fun ys cs => G ys ((n + 1)%Z :: cs))). auto.
Qed.

(** near a position, every position lies in one of finitely many closed cells around it *)
Lemma cover1 : forall x, exists (L : list Z) d, 0 < d /\ (forall n, In n L -> IZR n <= x <= IZR n + 1) /\
  forall y, Rabs (y - x) < d -> exists n, In n L /\ IZR n <= y <= IZR n + 1.
Proof.
  intros x. pose proof (Rfloor_spec x) as F. set (m := Rfloor x) in *.
  destruct (Req_dec x (IZR m)) as [E|E].
  - exists [m; (m - 1)%Z], 1. split; [lra|]. split.
    + intros n [<-|[<-|[]]]; rewrite ?minus_IZR; lra.
    + intros y Hy. apply Rabs_def2 in Hy. destruct (Rle_lt_dec x y).
      * exists m. split; [left; auto|lra].
      * exists (m - 1)%Z. split; [right; left; auto|]. rewrite minus_IZR. lra.
  - exists [m], (Rmin (x - IZR m) (IZR m + 1 - x)). split; [apply Rmin_pos; lra|]. split.
    + intros n [<-|[]]. lra.
    + intros y Hy. exists m. split; [left; auto|]. apply Rabs_def2 in Hy.
      pose proof (Rmin_l (x - IZR m) (IZR m + 1 - x)). pose proof (Rmin_r (x - IZR m) (IZR m + 1 - x)). lra.
Qed.
Lemma cover : forall m k xs, exists (L : list (list Z)) d, 0 < d /\ (forall ns, In ns L -> length ns = m /\ inside k ns xs) /\
  forall ys, near d xs ys -> exists ns, In ns L /\ inside k ns ys.
Proof.
  induction m as [|m IH]; intros k xs.
  - exists [[]], 1. split; [lra|]. split; [intros ns [<-|[]]; cbn; auto|]. intros. exists []. cbn. auto.
  - destruct (IH (S k) xs) as (L & d & Hd & HL & HC). destruct (cover1 (nth k xs 0)) as (L1 & d1 & Hd1 & HL1 & HC1).
    exists (flat_map (fun n => map (cons n) L) L1), (Rmin d d1). split; [apply Rmin_pos; auto|]. split.
    + intros ns H. apply in_flat_map in H. destruct H as (n & Hn & H). apply in_map_iff in H. destruct H as (ns' & <- & H).
      destruct (HL _ H) as [A B]. cbn [length inside]. split; [lia|]. split; auto.
    + intros ys N. destruct (HC ys (near_le _ _ _ _ (Rmin_l _ _) N)) as (ns & A & B).
      destruct (HC1 (nth k ys 0)) as (n & A1 & B1); [apply (near_nth _ _ _ (near_le _ _ _ _ (Rmin_r d d1) N) Hd1)|].
      exists (n :: ns). split; [|split; auto]. apply in_flat_map. exists n. split; auto. apply in_map. auto.
Qed.
Lemma finite_cont : forall (L : list (list Z)) (f : list Z -> list R -> R) xs, (forall ns, In ns L -> continuous_at (f ns) xs) ->
  forall eps, 0 < eps -> exists d, 0 < d /\ forall ns ys, In ns L -> near d xs ys -> Rabs (f ns ys - f ns xs) < eps.
Proof.
  induction L as [|a L IH]; intros f xs H eps He; [exists 1; split; [lra|intros ? ? []]|].
  destruct (IH f xs (fun ns Hn => H ns (or_intror Hn)) eps He) as (d & Hd & D).
  destruct (H a (or_introl eq_refl) eps He) as (d' & Hd' & D').
  exists (Rmin d d'). split; [apply Rmin_pos; auto|]. intros ns ys [<-|Hn] N.
  - apply D', (near_le _ _ _ _ (Rmin_r _ _) N).
  - apply D; auto. apply (near_le _ _ _ _ (Rmin_l _ _) N).
Qed.
Lemma floors_map : forall zs k pre, k = length pre -> floors k (length zs) (pre ++ zs) = map Rfloor zs.
Proof.
  induction zs as [|z zs IH]; intros k pre ->; [reflexivity|]. cbn [length floors map]. f_equal.
  - rewrite app_nth2, Nat.sub_diag by lia. reflexivity.
  - replace (pre ++ z :: zs) with ((pre ++ [z]) ++ zs) by (rewrite <- app_assoc; reflexivity).
    apply IH. rewrite app_length. cbn. lia.
Qed.

Lemma floors_all : forall zs, floors 0 (length zs) zs = map Rfloor zs.
Proof. intros. exact (floors_map zs 0 [] eq_refl). Qed.
Theorem lattice_continuous : forall corner xs,
  (forall cs, continuous_at (fun ys => corner cs (offs ys cs)) xs) -> continuous_at (lattice fade corner) xs.
Proof.
  intros corner xs H eps He.
  destruct (cover (length xs) 0 xs) as (L & d & Hd & HL & HC).
  destruct (finite_cont L (fun ns ys => wsum fade 0 ns ys (fun cs => corner cs (offs ys cs))) xs) with (eps := eps) as (d' & Hd' & D); auto.
  { intros ns _. apply (wsum_cont ns 0 (fun ys cs => corner cs (offs ys cs))). exact H. }
  exists (Rmin d d'). split; [apply Rmin_pos; auto|]. intros ys N.
  destruct (HC ys (near_le _ _ _ _ (Rmin_l _ _) N)) as (ns & Hin & Hy). destruct (HL ns Hin) as [Hl Hx].
  specialize (D ns ys Hin (near_le _ _ _ _ (Rmin_r _ _) N)). cbv beta in D.
  rewrite (wsum_cell ns 0 ys _ Hy), (wsum_cell ns 0 xs _ Hx), Hl in D.
  rewrite (floors_all xs) in D.
  assert (length xs = length ys) as E by (eapply near_length; eauto). rewrite E, (floors_all ys) in D.
  exact D.
Qed.

(** ** Bounds *)
Hypothesis fade_range : forall t, 0 <= t <= 1 -> 0 <= fade t <= 1.
Lemma wsum_mono : forall ns k zs G G', inside k ns zs -> (forall cs, G cs <= G' cs) -> wsum fade k ns zs G <= wsum fade k ns zs G'.
Proof.
  induction ns as [|n ns IH]; intros k zs G G' Hi H; cbn [wsum]; auto. destruct Hi as [Hi Hi'].
  pose proof (fade_range (nth k zs 0 - IZR n) ltac:(lra)).
  apply Rplus_le_compat; apply Rmult_le_compat_l; try lra; apply IH; auto.
Qed.
Lemma wsum_opp : forall ns k zs G, wsum fade k ns zs (fun cs => - G cs) = - wsum fade k ns zs G.
Proof.
  induction ns as [|n ns IH]; intros; cbn [wsum]; auto.
  rewrite (IH (S k) zs (fun cs => G (n :: cs))), (IH (S k) zs (fun cs => G ((n + 1)%Z :: cs))). ring.
Qed.
Lemma wsum_const : forall ns k zs c, wsum fade k ns zs (fun _ => c) = c.
Proof. induction ns as [|n ns IH]; intros; cbn [wsum]; auto. rewrite IH. ring. Qed.
Lemma inside_floors : forall m k zs, inside k (floors k m zs) zs.
Proof. induction m; intros; cbn [floors inside]; auto. split; auto. pose proof (Rfloor_spec (nth k zs 0)). lra. Qed.
Lemma inside_floor : forall zs, inside 0 (map Rfloor zs) zs.
Proof. intros. rewrite <- floors_all. apply inside_floors. Qed.
Lemma lattice_abs : forall corner zs B, (forall cs, Rabs (corner cs (offs zs cs)) <= B cs) ->
  Rabs (lattice fade corner zs) <= wsum fade 0 (map Rfloor zs) zs B.
Proof.
  intros corner zs B H. unfold lattice. apply Rabs_le. split.
  - rewrite <- wsum_opp. apply wsum_mono; [apply inside_floor|]. intros cs. specialize (H cs). pose proof (Rle_abs (- corner cs (offs zs cs))) as K. rewrite Rabs_Ropp in K. lra.
  - apply wsum_mono; [apply inside_floor|]. intros cs. specialize (H cs). pose proof (Rle_abs (corner cs (offs zs cs))). lra.
Qed.
(** at a lattice point only that point contributes *)
Lemma wsum_at : forall ns k zs G, (forall i, (i < length ns)%nat -> nth (k + i) zs 0 = IZR (nth i ns 0%Z)) -> wsum fade k ns zs G = G ns.
Proof.
  induction ns as [|n ns IH]; intros k zs G H; [reflexivity|]. cbn [wsum].
  pose proof (H 0%nat ltac:(cbn; lia)) as H0. rewrite Nat.add_0_r in H0. cbn [nth] in H0. rewrite H0.
  replace (IZR n - IZR n) with 0 by ring. rewrite fade0.
  assert (X : forall i, (i < length ns)%nat -> nth (S k + i) zs 0 = IZR (nth i ns 0%Z)).
  { intros i Hi. specialize (H (S i) ltac:(cbn; lia)). cbn [nth] in H. rewrite <- H. f_equal. lia. }
  rewrite !(IH _ _ _ X). ring.
Qed.
Lemma lattice_at : forall corner ks, lattice fade corner (map IZR ks) = corner ks (map (fun _ => 0) ks).
Proof.
  intros. unfold lattice. rewrite map_map.
  assert (E : map (fun x => Rfloor (IZR x)) ks = ks) by (rewrite <- (map_id ks) at 2; apply map_ext; intros; apply Rfloor_IZR). rewrite E.
  rewrite wsum_at.
  - f_equal. clear E. induction ks; cbn [map offs]; auto. f_equal; auto. ring.
  - intros i Hi. cbn [plus]. exact (map_nth IZR ks 0%Z i).
Qed.
End Paste.
