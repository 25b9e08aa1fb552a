(** From the unit cell with descending coordinates to all positions: the bound that [check] gives holds for
    every position and every list of distinct lattice vertices. *)
From Coq Require Import Reals ZArith List Bool Lia Lra Psatz Permutation.
From Verif Require Import Prelude Simd_R Boxes BoxesSound BoxesHeights Lattice.
Import ListNotations.
Open Scope R_scope.

(** ** Order of the coordinates *)
Lemma rsum_perm : forall l m, Permutation l m -> rsum l = rsum m.
Proof. intros l m P. unfold rsum. induction P; cbn [fold_right]; lra. Qed.
Lemma rsq_perm : forall l m, Permutation l m -> rsq l = rsq m.
Proof. intros l m P. unfold rsq. induction P; cbn [fold_right]; lra. Qed.
Lemma quad_perm : forall l m, Permutation l m -> quad l = quad m.
Proof. intros l m P. unfold quad. rewrite (rsum_perm l m P), (rsq_perm l m P), (Permutation_length P). reflexivity. Qed.
Lemma quad_coord : forall p a, In a p -> (INR (length p) + 1) / 2 * (a * a) <= quad p.
Proof.
  intros p a I. apply in_split in I as (p1 & p2 & ->).
  assert (P : Permutation (p1 ++ a :: p2) (a :: (p1 ++ p2))) by (symmetry; apply Permutation_middle).
  rewrite (quad_perm _ _ P), (Permutation_length P). generalize (p1 ++ p2). intros l. clear. destruct (cauchy l) as [C Q].
  unfold quad, rsum, rsq. cbn [length fold_right]. fold (rsum l). fold (rsq l). rewrite S_INR.
  set (m := INR (length l)) in *. set (s := rsum l) in *. set (q := rsq l) in *. 
  assert (M : 0 <= m) by apply pos_INR.
  destruct (Req_dec m 0) as [E|E].
  - assert (s * s <= 0) by (rewrite E in C; lra). assert (s = 0) by nra. clearbody m s q. subst. nra.
  - assert (0 < m) by lra. assert (Q1 : s * s / m <= q).
    { apply Rmult_le_reg_r with m; [lra|]. unfold Rdiv. rewrite Rmult_assoc, Rinv_l by lra. lra. }
    clearbody m s q. 
    assert (K : 0 <= m / 2 * ((a - 2 * s / m) * (a - 2 * s / m))) by (apply Rmult_le_pos; [lra|apply Rle_0_sqr]).
    assert (m / 2 * ((a - 2 * s / m) * (a - 2 * s / m)) = m / 2 * (a * a) - 2 * a * s + 2 / m * (s * s)) by (field; lra).
    assert ((m + 2) * (s * s / m) <= (m + 2) * q) by (apply Rmult_le_compat_l; lra).
    assert ((m + 2) * (s * s / m) = s * s + 2 / m * (s * s)) by (field; lra). lra.
Qed.

(** an order of the indices in which the values descend *)
Definition keyed := (R * nat)%type.
Fixpoint insert (a : keyed) (l : list keyed) : list keyed :=
  match l with [] => [a] | b :: l' => if Rle_dec (fst b) (fst a) then a :: l else b :: insert a l' end.
Lemma insert_perm : forall a l, Permutation (insert a l) (a :: l).
Proof.
  intros a l. induction l as [|b l IH]; cbn [insert]; [reflexivity|]. destruct (Rle_dec _ _); [reflexivity|].
  rewrite IH. apply perm_swap.
Qed.
Lemma insert_sorted : forall a l, sorted (map fst l) -> sorted (map fst (insert a l)).
Proof.
  intros a l. induction l as [|b l IH]; intros H; cbn [insert]; [exact I|]. destruct (Rle_dec (fst b) (fst a)) as [C|C].
  - cbn [map] in *. cbn [sorted] in *. split; assumption.
  - assert (H' : sorted (map fst l)) by (cbn [map sorted] in H; destruct l; [exact I|exact (proj2 H)]).
    specialize (IH H'). destruct l as [|c l]; cbn [insert map sorted] in *; [split; [lra|exact I]|].
    destruct (Rle_dec (fst c) (fst a)); cbn [map sorted] in *; split; try lra; try exact IH; try exact (proj1 H).
Qed.
Lemma sorting : forall l : list keyed, exists l', Permutation l' l /\ sorted (map fst l').
Proof.
  induction l as [|a l (l' & P & S0)]; [exists []; split; [reflexivity|exact I]|].
  exists (insert a l'). split; [rewrite insert_perm, P; reflexivity|apply insert_sorted; exact S0].
Qed.
Lemma map_nth_seq : forall (A : Type) (d : A) l, map (fun i => nth i l d) (seq 0 (length l)) = l.
Proof.
  intros A d l. induction l as [|a l IH]; [reflexivity|]. cbn [length seq map]. f_equal. rewrite <- seq_shift, map_map. exact IH.
Qed.
Lemma order : forall x : list R, exists pi, Permutation pi (seq 0 (length x)) /\ sorted (map (fun i => nth i x 0) pi).
Proof.
  intros x. destruct (sorting (map (fun i => (nth i x 0, i)) (seq 0 (length x)))) as (l' & P & S0).
  exists (map snd l'). split.
  - rewrite P, map_map. cbn [snd]. rewrite map_id. reflexivity.
  - rewrite map_map. match goal with |- sorted ?m => replace m with (map fst l'); [exact S0|] end.
    apply map_ext_in. intros a I. apply (Permutation_in _ P) in I. apply in_map_iff in I as (i & <- & _). reflexivity.
Qed.

(** ** Sums over some of the vertices *)
Lemma sum_embed : forall (A B : Type) (phi : A -> B) (F : A -> R) (G : B -> R) L W, NoDup L ->
  (forall v w, In v L -> In w L -> phi v = phi w -> v = w) -> (forall w, 0 <= G w) ->
  (forall v, In v L -> F v <= 0 \/ (In (phi v) W /\ F v <= G (phi v))) ->
  rsum (map F L) <= rsum (map G W).
Proof.
  intros A B phi F G L. induction L as [|v L IH]; intros W N Inj HG H.
  - cbn [map rsum fold_right]. clear H. induction W as [|w W IHW]; cbn [map rsum fold_right]; [lra|]. specialize (HG w). unfold rsum in IHW. lra.
  - inversion N; subst. cbn [map rsum fold_right]. fold (rsum (map F L)).
    assert (Inj' : forall a b, In a L -> In b L -> phi a = phi b -> a = b) by (intros; apply Inj; auto; right; auto).
    destruct (H v (or_introl eq_refl)) as [Z0|[I0 L0]].
    + specialize (IH W H3 Inj' HG (fun a Ia => H a (or_intror Ia))). lra.
    + apply in_split in I0 as (W1 & W2 & ->).
      assert (E : rsum (map G (W1 ++ phi v :: W2)) = G (phi v) + rsum (map G (W1 ++ W2))).
      { rewrite (rsum_perm _ (map G (phi v :: W1 ++ W2))); [reflexivity|]. apply Permutation_map. symmetry. apply Permutation_middle. }
      rewrite E. apply Rplus_le_compat; [exact L0|]. apply IH; auto. intros a Ia. destruct (H a (or_intror Ia)) as [Z1|[I1 L1]]; [left; exact Z1|right]. split; [|exact L1].
      apply in_app_iff in I1 as [I1|[I1|I1]]; [apply in_app_iff; auto|exfalso|apply in_app_iff; auto].
      apply H2. rewrite (Inj v a (or_introl eq_refl) (or_intror Ia) I1). exact Ia.
Qed.

(** the vertices with coordinates from -1 to 2 *)
Fixpoint around (n : nat) : list (list Z) :=
  match n with O => [[]] | Datatypes.S m => flat_map (fun v => map (fun a => a :: v) [-1; 0; 1; 2]%Z) (around m) end.
Lemma around_in : forall v, Forall (fun a => (-1 <= a <= 2)%Z) v -> In v (around (length v)).
Proof.
  induction v as [|a v IH]; intros H; [left; reflexivity|]. inversion H; subst. cbn [length around]. apply in_flat_map. exists v. split; [apply IH; assumption|].
  apply in_map_iff. exists a. split; [reflexivity|]. cbn [In]. lia.
Qed.
Lemma around_length : forall n v, In v (around n) -> length v = n.
Proof.
  induction n as [|n IH]; intros v I; cbn [around] in I; [destruct I as [<-|[]]; reflexivity|].
  apply in_flat_map in I as (w & Iw & I). apply in_map_iff in I as (a & <- & _). cbn [length]. f_equal. apply IH, Iw.
Qed.

Definition symmetric (height : list R -> R -> Prop) : Prop := forall p p' h, Permutation p p' -> height p h -> height p' h.
Definition from_zero (n : nat) (height : list R -> R -> Prop) : Prop := forall p, length p = n -> height p 0.

Lemma offs_map : forall (A : Type) (f : A -> R) (g : A -> Z) l, offs (map f l) (map g l) = map (fun a => f a - IZR (g a)) l.
Proof. intros A f g l. induction l; cbn [map offs]; [reflexivity|]. f_equal. exact IHl. Qed.
Lemma offs_nth : forall q v, length v = length q -> offs q v = map (fun i => nth i q 0 - IZR (nth i v 0%Z)) (seq 0 (length q)).
Proof.
  induction q as [|x q IH]; intros [|a v] L; try discriminate; [reflexivity|]. cbn [offs length seq map]. f_equal. rewrite <- seq_shift, map_map. apply IH. cbn in L. lia.
Qed.
Lemma nth_map0 : forall (A B : Type) (f : A -> B) l i d e, (i < length l)%nat -> nth i (map f l) e = f (nth i l d).
Proof. intros A B f l. induction l as [|a l IH]; intros [|i] d e H; cbn [length] in H; try lia; cbn [map nth]; [reflexivity|]. apply IH. lia. Qed.

Theorem bound_all : forall RR height_form height n fuel lim, sound height_form height -> symmetric height -> from_zero n height ->
  (0 < n)%nat -> radius RR <= 2 * (INR n + 1) ->
  check RR height_form n fuel 0 lim (around n) (cell n) (cell n) = true ->
  forall q L hv, length q = n -> NoDup L -> (forall v, In v L -> length v = n) -> (forall v, In v L -> height (offs q v) (hv v)) ->
  rsum (map (fun v => bump_at RR (offs q v) (hv v)) L) <= IZR lim / IZR (2^B).
Proof.
  intros RR hf height n fuel lim So Sy Ze Hn HR Ck q L hv Lq N LL HH.
  set (b := map Rfloor q). set (x := offs q b).
  assert (Lb : length b = n) by (unfold b; rewrite map_length; exact Lq).
  assert (X : x = map (fun i => nth i q 0 - IZR (nth i b 0%Z)) (seq 0 n)) by (unfold x; rewrite offs_nth by lia; rewrite Lq; reflexivity).
  assert (Lx : length x = n) by (rewrite X, map_length, seq_length; reflexivity).
  destruct (order x) as (pi & P & S0). rewrite Lx in P. set (x' := map (fun i => nth i x 0) pi) in *.
  assert (Px : forall i, In i pi -> (i < n)%nat) by (intros i I; apply (Permutation_in _ P) in I; apply in_seq in I; lia).
  assert (Nx : forall i, (i < n)%nat -> nth i x 0 = nth i q 0 - IZR (nth i b 0%Z)).
  { intros i I. rewrite X. rewrite (nth_map0 _ _ _ _ _ 0%nat) by (rewrite seq_length; exact I). rewrite seq_nth by exact I. reflexivity. }
  assert (X1 : x' = map (fun i => nth i q 0 - IZR (nth i b 0%Z)) pi) by (unfold x'; apply map_ext_in; intros i I; apply Nx, Px, I).
  assert (Lx' : length x' = n) by (unfold x'; rewrite map_length, (Permutation_length P), seq_length; reflexivity).
  assert (Cx : forall i, (i < n)%nat -> 0 <= nth i q 0 - IZR (nth i b 0%Z) <= 1).
  { intros i I. unfold b. rewrite (nth_map0 _ _ _ _ _ 0) by lia. pose proof (Rfloor_spec (nth i q 0)). lra. }
  set (phi := fun v : list Z => map (fun i => (nth i v 0 - nth i b 0)%Z) pi).
  assert (Lphi : forall v, length (phi v) = n) by (intros v; unfold phi; rewrite map_length, (Permutation_length P), seq_length; reflexivity).
  assert (Off : forall v, length v = n -> Permutation (offs q v) (offs x' (phi v))).
  { intros v Lv. rewrite X1. unfold phi. rewrite offs_map, offs_nth by lia. rewrite Lq. symmetry. rewrite P.
    match goal with |- Permutation ?m1 ?m2 => replace m1 with m2; [reflexivity|] end. apply map_ext. intros i. rewrite minus_IZR. ring. }
  assert (Inj : forall v w, In v L -> In w L -> phi v = phi w -> v = w).
  { intros v w Iv Iw E. apply (nth_ext v w 0%Z 0%Z); [rewrite !LL by assumption; reflexivity|]. intros i Hi. rewrite LL in Hi by assumption.
    assert (Ii : In i pi) by (apply (Permutation_in i (Permutation_sym P)), in_seq; lia). unfold phi in E.
    clear -E Ii. induction pi as [|j pi IH]; [contradiction|]. cbn [map] in E. injection E as E1 E2. destruct Ii as [<-|Ii]; [lia|exact (IH E2 Ii)]. }
  set (hv' := fun w => match find (fun v => if list_eq_dec Z.eq_dec (phi v) w then true else false) L with Some v => Rmax 0 (hv v) | None => 0 end).
  assert (Hphi : forall v, In v L -> hv' (phi v) = Rmax 0 (hv v)).
  { intros v Iv. unfold hv'. destruct (find _ L) as [w|] eqn:F.
    - apply find_some in F as [Iw F]. destruct (list_eq_dec Z.eq_dec (phi w) (phi v)) as [E|]; [|discriminate]. rewrite (Inj w v Iw Iv E). reflexivity.
    - apply (find_none _ _ F) in Iv as F'. destruct (list_eq_dec Z.eq_dec (phi v) (phi v)); [discriminate|congruence]. }
  assert (Hpos : forall w, 0 <= hv' w) by (intros w; unfold hv'; destruct (find _ L); [apply Rmax_l|lra]).
  assert (T : total RR (around n) x' hv' <= IZR lim / IZR (2^B)).
  { apply (check_sound RR hf height So n fuel lim (around n) x' hv' Ck Hn Lx').
    - apply Forall_forall. intros a I. rewrite X1 in I. apply in_map_iff in I as (i & <- & I). apply Cx, Px, I.
    - exact S0.
    - apply around_length.
    - intros v Iv. unfold hv'. destruct (find _ L) as [w|] eqn:F.
      + apply find_some in F as [Iw F]. destruct (list_eq_dec Z.eq_dec (phi w) v) as [<-|]; [|discriminate].
        apply (Sy (offs q w)); [apply Off, LL, Iw|]. unfold Rmax. destruct (Rle_dec 0 (hv w)); [apply HH, Iw|apply Ze]. rewrite (Permutation_length (Off w (LL w Iw))), offs_nth, map_length, seq_length by (rewrite Lphi; lia). exact Lx'.
      + apply Ze. rewrite offs_nth, map_length, seq_length by (rewrite (around_length n v Iv); lia). exact Lx'. }
  eapply Rle_trans; [|exact T]. unfold total. apply (sum_embed _ _ phi); auto.
  - intros w. unfold bump_at. apply Rmult_le_pos; [apply pow_le, Rmax_l|apply Hpos].
  - intros v Iv. assert (Lv := LL v Iv). pose proof (Off v Lv) as O.
    destruct (Rle_dec (radius RR) (quad (offs q v))) as [D|D].
    + left. unfold bump_at. rewrite Rmax_left by lra. rewrite pow_ne_zero by lia. lra.
    + right. split.
      * rewrite <- (Lphi v). apply around_in. apply Forall_forall. intros a Ia. unfold phi in Ia. apply in_map_iff in Ia as (i & <- & Ii). apply Px in Ii as Li.
        pose proof (Cx i Li) as Ci.
        assert (Io : In (nth i q 0 - IZR (nth i v 0%Z)) (offs q v)).
        { rewrite offs_nth by lia. apply in_map_iff. exists i. split; [reflexivity|]. apply in_seq. lia. }
        apply quad_coord in Io. rewrite offs_nth, map_length, seq_length, Lq in Io by lia.
        set (d := nth i q 0 - IZR (nth i v 0%Z)) in *.
        assert (D2 : d * d < 4).
        { pose proof (pos_INR n). rewrite <- Lq, <- offs_nth in Io by lia. apply Rnot_le_lt in D. rewrite Lq in Io. apply Rmult_lt_reg_l with ((INR n + 1) / 2); [lra|]. lra. }
        assert (-2 < d < 2) by (split; nra).
        assert (A1 : -2 < IZR (nth i v 0%Z - nth i b 0%Z)) by (rewrite minus_IZR; unfold d in *; lra).
        assert (A2 : IZR (nth i v 0%Z - nth i b 0%Z) < 3) by (rewrite minus_IZR; unfold d in *; lra).
        apply lt_IZR in A1. apply lt_IZR in A2. lia.
      * rewrite Hphi by exact Iv. unfold bump_at. rewrite (quad_perm _ _ O). apply Rmult_le_compat_l; [apply pow_le, Rmax_l|apply Rmax_r].
Qed.
