(** The checker of Boxes, computed with the machine integers of Coq (63 bits) instead of [Z], and the proof that
    whenever the machine version answers [true] so does the one on [Z] ([irun_sound]). No intermediate result
    overflows: some bounds are static, the others are tested during the computation, and a failed test gives the
    answer [false]. *)
From Coq Require Import ZArith List Bool Lia Uint63 Sint63.
From Verif Require Import Boxes BoxesSound BoxesAll BoxesCases.
Import ListNotations.

Open Scope sint63_scope.
Definition iform : Type := int * list int * int.
Definition iabs (x : int) : int := if x <? 0 then - x else x.
Definition imax (a b : int) : int := if a <=? b then b else a.
Fixpoint imag (l : list int) : int := match l with [] => 0 | x :: l' => iabs x + imag l' end.
Fixpoint iadd (l m : list int) : list int := match l, m with x :: l', y :: m' => (x + y) :: iadd l' m' | _, _ => [] end.
Fixpoint imul (l m : list int) : list int := match l, m with x :: l', y :: m' => (x * y) :: imul l' m' | _, _ => [] end.
Fixpoint isum (l : list int) : int := match l with [] => 0 | x :: l' => x + isum l' end.
Fixpoint isq (l : list int) : int := match l with [] => 0 | x :: l' => x * x + isq l' end.
Fixpoint ilen (l : list int) : int := match l with [] => 0 | x :: l' => ilen l' + 1 end.
Fixpoint idist (l m : list int) : int := match l, m with x :: l', y :: m' => iabs (x - y) + idist l' m' | _, _ => 0 end.
Definition irnd (k : int) (f : iform) : iform := let '(c, l, r) := f in (asr c k, map (fun x => asr x k) l, asr r k + ilen l + 2).
Definition ifadd (f g : iform) : iform := let '(c, l, r) := f in let '(d, m, t) := g in (c + d, iadd l m, r + t).
Definition ifmul (f g : iform) : iform :=
  let '(c, l, r) := f in let '(d, m, t) := g in
  let ml := imag l in let mm := imag m in
  irnd 20 (c * d, iadd (map (fun x => c * x) m) (map (fun x => d * x) l), ml * mm + r * (iabs d + mm + t) + t * (iabs c + ml)).
Definition ihi (f : iform) : int := let '(c, l, r) := f in c + imag l + r.
Definition ilo (f : iform) : int := let '(c, l, r) := f in c - imag l - r.
Definition isize (f : iform) : int := let '(c, l, r) := f in iabs c + imag l + r.
Definition iclamp (f : iform) : iform :=
  if 0 <=? ilo f then f else let '(c, l, r) := f in let h := asr (ihi f + 1) 1 in (h, map (fun _ => 0) l, h).
Definition ifalloff (RR : int) (ps ws : list int) : iform :=
  let n1 := ilen ps + 1 in let s := isum ps in let e := n1 * isq ws in
  irnd 21 (2 * (RR - (n1 * isq ps - s * s)) - e, imul (map (fun p => 4 * (s - n1 * p)) ps) ws, e).
Fixpoint isub (cs v : list int) : list int := match cs, v with x :: cs', y :: v' => (x - y) :: isub cs' v' | _, _ => [] end.
Fixpoint idescending (cs ws : list int) : bool :=
  match cs, ws with
  | x :: ((y :: _) as cs'), w :: ((u :: _) as ws') => if y - u <=? x + w then idescending cs' ws' else false
  | _, _ => true
  end.
Fixpoint isetk (k : nat) (g : int -> int) (l : list int) : list int :=
  match l, k with [], _ => [] | x :: l', O => g x :: l' | x :: l', S k' => x :: isetk k' g l' end.
Section Check.
Variable RR : int.
Variable height_form : list int -> list int -> iform.
Fixpoint itotal (vs : list (list int)) (cs ws : list int) : option (list (list int) * iform) :=
  match vs with
  | [] => Some ([], (0, map (fun _ => 0) ws, 0))
  | v :: vs' =>
      match itotal vs' cs ws with
      | None => None
      | Some rest =>
      let ps := isub cs v in
      let f := ifalloff RR ps ws in
      if ihi f <=? 0 then Some rest else
      let f := iclamp f in
      if isize f <=? 33554432 then
      let f2 := ifmul f f in let f4 := ifmul f2 f2 in
      if isize f4 <=? 68719476736 then
      let h := height_form ps ws in
      if isize h <=? 33554432 then
      Some (v :: fst rest, ifadd (ifmul f4 h) (snd rest))
      else None else None else None
      end
  end.
Definition small (m : int) (l : list int) : bool := forallb (fun x => iabs x <=? m) l.
Fixpoint icheck (n fuel k : nat) (lim : int) (vs : list (list int)) (cs ws : list int) : bool :=
  if small 2097152 cs then if small 1048576 ws then
  if idescending cs ws then
  match itotal vs cs ws with
  | None => false
  | Some t =>
  if ihi (snd t) <=? lim then true else
  match fuel with
  | O => false
  | S m => let h := asr (nth k ws 0 + 1) 1 in let ws' := isetk k (fun _ => h) ws in let k' := if Nat.eqb (S k) n then O else S k in
    if icheck n m k' lim (fst t) (isetk k (fun x => x - h) cs) ws' then icheck n m k' lim (fst t) (isetk k (fun x => x + h) cs) ws' else false
  end
  end else true else false else false.
End Check.
Definition icoords (UU : int) (ps ws : list int) : list (int * list int) :=
  let su := UU * isum ps in let ul := map (fun w => UU * w) ws in
  map (fun iz => let '(i, p) := iz in (p * 1048576 + su, isetk i (fun x => x + (nth i ws 0) * 1048576) ul)) (combine (seq 0 (length ps)) ps).
Fixpoint iargmin (z : int * list int) (l : list (int * list int)) : int * list int :=
  match l with [] => z | o :: l' => iargmin (if fst o <? fst z then o else z) l' end.
Definition idrop_form (UU : int) (ps ws : list int) : iform :=
  let e := iabs (isum ps) + isum ws in
  let os := map (fun o => (iabs (fst o), if fst o <? 0 then map opp (snd o) else snd o)) (icoords UU ps ws) in
  match os with
  | [] => (0, [], 0)
  | o :: os' =>
    let z := iargmin o os' in
    let c := fold_right (fun o acc => fst o + acc) 0 os in
    let l := fold_right (fun o acc => iadd (snd o) acc) (map (fun _ => 0) ws) os in
    let n := fold_right (fun o acc => 2 * imax 0 (imag (snd o) - fst o) + acc) 0 os in
    let d := fold_right (fun o acc => imax (fst z - fst o + idist (snd z) (snd o)) acc) 0 os in
    irnd 20 (c - fst z + n + d + (ilen ps + 1) * e, iadd l (map opp (snd z)), 0)
  end.
Definition ilin_form (ws ps g : list int) : int * list int := (isum (imul g ps), imul g ws).
Definition imax_form (gs : list (list int)) (ps ws : list int) : iform :=
  let os := map (ilin_form ws ps) gs in
  match os with
  | [] => (0, [], 0)
  | o :: os' =>
    let z := iargmin (- fst o, snd o) (map (fun o => (- fst o, snd o)) os') in
    let d := fold_right (fun o acc => imax (fst o + fst z + idist (snd o) (snd z)) acc) 0 os in
    irnd 20 (- fst z + d + imag ps + isum ws, snd z, 0)
  end.
(** the quotient rounded down *)
Definition ifloor (a b : int) : int := if 0 <=? a then a / b else - ((b - 1 - a) / b).
Definition iroot_form (ps ws : list int) : iform :=
  let n1 := ilen ps + 1 in let s := isum ps in
  let q := n1 * isq ps - s * s + n1 * isq ws in
  let m := sqrt q + 1 in
  (ifloor (q + m * m) (2 * m) + 1 + ilen ws, map (fun l => ifloor l (2 * m)) (imul (map (fun p => 2 * (n1 * p - s)) ps) ws), 0).
Definition toint (z : Z) : int := Uint63.of_Z z.
Definition irun (RR : Z) (hf : list int -> list int -> iform) (n fuel : nat) (lim : Z) : bool :=
  icheck (toint RR) hf n fuel 0 (toint lim) (map (map (fun z => toint (Z.shiftl z 20))) (around n)) (repeat 524288 n) (repeat 524288 n).

Notation tz := Sint63.to_Z.
Open Scope Z_scope.
Definition LIM : Z := 4611686018427387903.
(** the machine integer [i] is the number [z], at most [m] in absolute value *)
Definition V (m : Z) (i : int) (z : Z) : Prop := tz i = z /\ Z.abs z <= m.
Lemma lim_min : tz Sint63.min_int = - LIM - 1. Proof. reflexivity. Qed.
Lemma lim_max : tz Sint63.max_int = LIM. Proof. reflexivity. Qed.
Lemma V_mono : forall m n i z, V m i z -> m <= n -> V n i z. Proof. intros m n i z [A C] H. split; [exact A|lia]. Qed.
Lemma V_add : forall m n i j z w, V m i z -> V n j w -> m + n <= LIM -> V (m + n) (i + j)%sint63 (z + w).
Proof. intros m n i j z w [A C] [D E] H. split; [|lia]. subst. apply Sint63.to_Z_add. rewrite lim_min, lim_max. lia. Qed.
Lemma V_sub : forall m n i j z w, V m i z -> V n j w -> m + n <= LIM -> V (m + n) (i - j)%sint63 (z - w).
Proof. intros m n i j z w [A C] [D E] H. split; [|lia]. subst. apply Sint63.to_Z_sub. rewrite lim_min, lim_max. lia. Qed.
Lemma V_mul : forall m n i j z w, V m i z -> V n j w -> m * n <= LIM -> V (m * n) (i * j)%sint63 (z * w).
Proof.
  intros m n i j z w [A C] [D E] H. assert (Z.abs (z * w) <= m * n) by (rewrite Z.abs_mul; apply Z.mul_le_mono_nonneg; lia).
  split; [|lia]. subst. apply Sint63.to_Z_mul. rewrite lim_min, lim_max. lia.
Qed.
Lemma V_opp : forall m i z, V m i z -> m <= LIM -> V m (- i)%sint63 (- z).
Proof. intros m i z [A C] H. split; [|lia]. subst. apply Sint63.to_Z_opp. intros ->. rewrite lim_min in C. unfold LIM in *. lia. Qed.
Lemma V_lt : forall m n i j z w, V m i z -> V n j w -> (i <? j)%sint63 = (z <? w).
Proof. intros m n i j z w [A _] [C _]. subst. apply Bool.eq_true_iff_eq. rewrite Sint63.ltb_spec, Z.ltb_lt. reflexivity. Qed.
Lemma V_le : forall m n i j z w, V m i z -> V n j w -> (i <=? j)%sint63 = (z <=? w).
Proof. intros m n i j z w [A _] [C _]. subst. apply Bool.eq_true_iff_eq. rewrite Sint63.leb_spec, Z.leb_le. reflexivity. Qed.
Lemma V_lit : forall i, V (Z.abs (tz i)) i (tz i). Proof. intros i. split; [reflexivity|lia]. Qed.
Lemma V_0 : V 0 0%sint63 0. Proof. split; [reflexivity|cbn; lia]. Qed.
Lemma V_1 : V 1 1%sint63 1. Proof. split; [reflexivity|cbn; lia]. Qed.
Lemma V_2 : V 2 2%sint63 2. Proof. split; [reflexivity|cbn; lia]. Qed.
Lemma V_4 : V 4 4%sint63 4. Proof. split; [reflexivity|cbn; lia]. Qed.
Lemma V_abs : forall m i z, V m i z -> m <= LIM -> V m (iabs i) (Z.abs z).
Proof.
  intros m i z H L. unfold iabs. rewrite (V_lt _ _ _ _ _ _ H V_0). destruct (Z.ltb_spec z 0) as [C|C].
  - replace (Z.abs z) with (- z) by lia. apply V_opp; assumption.
  - replace (Z.abs z) with z by lia. exact H.
Qed.
Lemma V_max : forall m n i j z w, V m i z -> V n j w -> V (Z.max m n) (imax i j) (Z.max z w).
Proof.
  intros m n i j z w H K. unfold imax. rewrite (V_le _ _ _ _ _ _ H K). destruct (Z.leb_spec z w) as [C|C].
  - rewrite (Z.max_r z w) by lia. eapply V_mono; [exact K|lia].
  - rewrite (Z.max_l z w) by lia. eapply V_mono; [exact H|lia].
Qed.
Lemma V_asr : forall m i z k, V m i z -> 0 <= tz k -> V m (asr i k) (Z.shiftr z (tz k)).
Proof.
  intros m i z k [A C] K. split; [rewrite Sint63.asr_spec, Z.shiftr_div_pow2 by lia; subst; reflexivity|].
  rewrite Z.shiftr_div_pow2 by lia. assert (0 < 2 ^ tz k) by (apply Z.pow_pos_nonneg; lia). revert C. generalize (2 ^ tz k) H. intros d D C. clear - C D.
  pose proof (Z.div_mod z d ltac:(lia)). pose proof (Z.mod_pos_bound z d D). nia.
Qed.
Lemma V_toint : forall z, Z.abs z <= LIM -> V (Z.abs z) (toint z) z.
Proof. intros z H. split; [|lia]. symmetry. apply Sint63.is_int. rewrite lim_min, lim_max. lia. Qed.

(** ** Lists *)
Definition VL (m : Z) : list int -> list Z -> Prop := Forall2 (V m).
Lemma VL_mono : forall m n l z, VL m l z -> m <= n -> VL n l z.
Proof. intros m n l z H L. induction H; constructor; auto. eapply V_mono; eauto. Qed.
Lemma VL_length : forall m l z, VL m l z -> length l = length z. Proof. intros m l z H. induction H; cbn; auto. Qed.
Lemma VL_sum : forall m l z, VL m l z -> 0 <= m -> (length z <= 4)%nat -> 4 * m <= LIM -> V (4 * m) (isum l) (zsum z).
Proof.
  intros m l z H M L K. assert (A : V (Z.of_nat (length z) * m) (isum l) (zsum z)); [|eapply V_mono; [exact A|nia]].
  induction H as [|i a l z Hi Hl IH]; cbn [isum zsum fold_right length] in *; [split; [reflexivity|cbn; lia]|].
  specialize (IH ltac:(lia)). eapply V_mono; [apply V_add; [exact Hi|exact IH|nia]|nia].
Qed.
Lemma VL_mag : forall m l z, VL m l z -> 0 <= m -> (length z <= 4)%nat -> 4 * m <= LIM -> V (4 * m) (imag l) (mag z).
Proof.
  intros m l z H M L K. assert (A : V (Z.of_nat (length z) * m) (imag l) (mag z)); [|eapply V_mono; [exact A|nia]].
  induction H as [|i a l z Hi Hl IH]; cbn [imag mag fold_right length] in *; [split; [reflexivity|cbn; lia]|].
  specialize (IH ltac:(lia)). eapply V_mono; [apply V_add; [apply V_abs; [exact Hi|nia]|exact IH|nia]|nia].
Qed.
Lemma VL_sq : forall m l z, VL m l z -> 0 <= m -> (length z <= 4)%nat -> 4 * (m * m) <= LIM -> V (4 * (m * m)) (isq l) (sqsum z).
Proof.
  intros m l z H M L K. assert (A : V (Z.of_nat (length z) * (m * m)) (isq l) (sqsum z)); [|eapply V_mono; [exact A|nia]].
  induction H as [|i a l z Hi Hl IH]; cbn [isq sqsum fold_right length] in *; [split; [reflexivity|cbn; lia]|].
  specialize (IH ltac:(lia)). eapply V_mono; [apply V_add; [apply V_mul; [exact Hi|exact Hi|nia]|exact IH|nia]|nia].
Qed.
Lemma VL_dist : forall m l z k w, VL m l z -> VL m k w -> 0 <= m -> (length z <= 4)%nat -> 4 * (m + m) <= LIM -> V (4 * (m + m)) (idist l k) (mag (zadd z (map Z.opp w))).
Proof.
  intros m l z k w H K M L N. assert (A : V (Z.of_nat (length z) * (m + m)) (idist l k) (mag (zadd z (map Z.opp w)))); [|eapply V_mono; [exact A|nia]].
  revert k w K. induction H as [|i a l z Hi Hl IH]; intros k w K; [split; [reflexivity|cbn; lia]|]. cbn [length] in *.
  destruct K as [|j b k w Hj Hk]; cbn [idist map zadd mag fold_right]; [split; [reflexivity|change (Z.abs 0) with 0; nia]|]. fold (mag (zadd z (map Z.opp w))).
  specialize (IH ltac:(lia) k w Hk). replace (a + - b) with (a - b) by lia. eapply V_mono; [apply V_add; [apply V_abs; [apply V_sub; [exact Hi|exact Hj|nia]|nia]|exact IH|nia]|nia].
Qed.
Lemma V_len : forall (l : list int) k, (length l = k)%nat -> (k <= 4)%nat -> V (Z.of_nat k) (ilen l) (Z.of_nat k).
Proof.
  intros l. induction l as [|i l IH]; intros k <- L; cbn [ilen length] in *; [apply V_0|].
  rewrite Nat2Z.inj_succ, <- Z.add_1_r. apply V_add; [apply IH; lia|split; [reflexivity|lia]|unfold LIM; lia].
Qed.
Lemma VL_add : forall m n l z k w, VL m l z -> VL n k w -> m + n <= LIM -> VL (m + n) (iadd l k) (zadd z w).
Proof.
  intros m n l z k w H K L. revert k w K. induction H as [|i a l z Hi Hl IH]; intros k w K; [constructor|]. destruct K; cbn [iadd zadd]; constructor.
  - apply V_add; assumption.
  - apply IH. assumption.
Qed.
Lemma VL_mul : forall m n l z k w, VL m l z -> VL n k w -> m * n <= LIM -> VL (m * n) (imul l k) (zmul z w).
Proof.
  intros m n l z k w H K L. revert k w K. induction H as [|i a l z Hi Hl IH]; intros k w K; [constructor|]. destruct K; cbn [imul zmul]; constructor.
  - apply V_mul; assumption.
  - apply IH. assumption.
Qed.
Lemma VL_map : forall m n f g l z, VL m l z -> (forall i a, V m i a -> V n (f i) (g a)) -> VL n (map f l) (map g z).
Proof. intros m n f g l z H K. induction H; cbn [map]; constructor; auto. Qed.
Lemma VL_zero : forall m (l : list int) (z : list Z), length l = length z -> 0 <= m -> VL m (map (fun _ => 0%sint63) l) (map (fun _ => 0) z).
Proof.
  intros m l. induction l as [|i l IH]; intros [|a z] L M; try discriminate; cbn [map]; constructor; [|apply IH; [cbn in L; lia|exact M]].
  split; [reflexivity|cbn; lia].
Qed.
Lemma VL_opp : forall m l z, VL m l z -> m <= LIM -> VL m (map opp l) (map Z.opp z).
Proof. intros m l z H L. eapply VL_map; [exact H|]. intros. apply V_opp; assumption. Qed.
Lemma VL_nth : forall m l z k, VL m l z -> 0 <= m -> V m (nth k l 0%sint63) (nth k z 0).
Proof.
  intros m l z k H M. revert k. induction H as [|i a l z Hi Hl IH]; intros k; destruct k; cbn [nth]; try (split; [reflexivity|cbn; lia]); auto.
Qed.
Lemma VL_setk : forall m n k f g l z, VL m l z -> m <= n -> (forall i a, V m i a -> V n (f i) (g a)) -> VL n (isetk k f l) (setk k g z).
Proof.
  intros m n k f g l z H L K. revert k. induction H as [|i a l z Hi Hl IH]; intros k; destruct k; cbn [isetk setk]; try constructor; auto.
  - eapply VL_mono; [exact Hl|exact L].
  - eapply V_mono; [exact Hi|exact L].
  - apply IH.
Qed.
Lemma mag_opp : forall l, mag (map Z.opp l) = mag l. Proof. induction l as [|a l IH]; cbn [map mag fold_right] in *; unfold mag in *; [reflexivity|]. rewrite IH. lia. Qed.
Lemma mag_pos : forall l, 0 <= mag l. Proof. induction l as [|a l IH]; cbn [mag fold_right] in *; unfold mag in *; lia. Qed.
Lemma mag_in : forall l a, In a l -> Z.abs a <= mag l.
Proof. induction l as [|b l IH]; intros a H; [destruct H|]. cbn [mag fold_right]. fold (mag l). pose proof (mag_pos l). destruct H as [<-|H]; [lia|]. apply IH in H. lia. Qed.
Lemma mag_add : forall l m, mag (zadd l m) <= mag l + mag m.
Proof.
  induction l as [|a l IH]; intros m; [apply mag_pos|]. destruct m as [|b m]; cbn [zadd]; cbn [mag fold_right]; fold (mag l).
  - pose proof (mag_pos l). lia.
  - fold (mag m) (mag (zadd l m)). specialize (IH m). lia.
Qed.
Lemma mag_scale : forall c l, mag (map (Z.mul c) l) = Z.abs c * mag l.
Proof. induction l as [|a l IH]; cbn [map mag fold_right] in *; unfold mag in *; [lia|]. rewrite IH, Z.abs_mul. lia. Qed.
Lemma VL_of_mag : forall m l z, map tz l = z -> mag z <= m -> VL m l z.
Proof.
  intros m l z <- H. assert (K : forall a, In a (map tz l) -> Z.abs a <= m) by (intros a I; apply mag_in in I; lia). clear H.
  induction l as [|i l IH]; cbn [map]; constructor; [|apply IH; intros a I; apply K; right; exact I]. split; [reflexivity|]. apply K. left. reflexivity.
Qed.
Lemma VL_map_tz : forall m l z, VL m l z -> map tz l = z.
Proof. intros m l z H. induction H as [|i a l z [A _] _ IH]; cbn [map]; [reflexivity|]. rewrite A, IH. reflexivity. Qed.
Lemma V_mag : forall m l z, map tz l = z -> mag z <= m -> m <= LIM -> V m (imag l) (mag z).
Proof.
  intros m l z <- H L. apply V_mono with (mag (map tz l)); [|exact H]. revert H. induction l as [|i l IH]; intros H; [apply V_0|].
  cbn [map mag fold_right imag] in *. fold (mag (map tz l)) in *. pose proof (mag_pos (map tz l)). apply V_add; [apply V_abs; [apply V_lit|lia]|apply IH; lia|lia].
Qed.

(** ** Forms *)
Definition VF (m : Z) (f : iform) (z : form) : Prop :=
  let '(c, l, r) := f in let '(c', l', r') := z in
  tz c = c' /\ map tz l = l' /\ tz r = r' /\ (length l' <= 4)%nat /\ 0 <= r' /\ Z.abs c' + mag l' + r' <= m.
Lemma VF_intro : forall m p q s c l r c' l' r', V p c c' -> VL q l l' -> V s r r' -> (length l' <= 4)%nat -> 0 <= r' -> 0 <= q -> p + 4 * q + s <= m -> VF m (c, l, r) (c', l', r').
Proof.
  intros m p q s c l r c' l' r' [A A'] H [C C'] L P Q M. unfold VF. pose proof (VL_map_tz _ _ _ H) as E. repeat split; auto.
  assert (mag l' <= 4 * q); [|lia]. clear - H L Q. assert (mag l' <= Z.of_nat (length l') * q); [|nia]. clear L. induction H as [|i a l z [_ Hi] Hl IH]; cbn [mag fold_right length]; [cbn; lia|].
  fold (mag z). lia.
Qed.
Lemma VF_mono : forall m n f z, VF m f z -> m <= n -> VF n f z.
Proof. intros m n [[c l] r] [[c' l'] r'] (A & C & D & E & F & G) H. unfold VF. repeat split; auto. lia. Qed.
Lemma VF_parts : forall m c l r c' l' r', VF m (c, l, r) (c', l', r') -> V m c c' /\ VL m l l' /\ V m r r' /\ mag l' <= m /\ map tz l = l'.
Proof.
  intros m c l r c' l' r' (A & C & D & E & F & G). pose proof (mag_pos l'). repeat split; auto; try lia. apply VL_of_mag; [exact C|lia].
Qed.
Lemma VF_hi : forall m f z, VF m f z -> m <= LIM -> V m (ihi f) (hi z).
Proof.
  intros m [[c l] r] [[c' l'] r'] H M. pose proof H as (A & C & D & E & F & G). pose proof (mag_pos l').
  unfold ihi, hi. apply V_mono with (Z.abs c' + mag l' + r'); [|lia].
  apply V_add; [apply V_add; [split; [exact A|lia]|apply V_mag; [exact C|lia|lia]|lia]|split; [exact D|lia]|lia].
Qed.
Lemma VF_lo : forall m f z, VF m f z -> m <= LIM -> V m (ilo f) (lo z).
Proof.
  intros m [[c l] r] [[c' l'] r'] H M. pose proof H as (A & C & D & E & F & G). pose proof (mag_pos l').
  unfold ilo, lo. apply V_mono with (Z.abs c' + mag l' + r'); [|lia].
  apply V_sub; [apply V_sub; [split; [exact A|lia]|apply V_mag; [exact C|lia|lia]|lia]|split; [exact D|lia]|lia].
Qed.
Definition size (z : form) : Z := let '(c, l, r) := z in Z.abs c + mag l + r.
Lemma VF_size : forall m f z, VF m f z -> m <= LIM -> V m (isize f) (size z).
Proof.
  intros m [[c l] r] [[c' l'] r'] H M. pose proof H as (A & C & D & E & F & G). pose proof (mag_pos l').
  unfold isize, size. apply V_mono with (Z.abs c' + mag l' + r'); [|lia].
  apply V_add; [apply V_add; [apply V_abs; [split; [exact A|lia]|lia]|apply V_mag; [exact C|lia|lia]|lia]|split; [exact D|lia]|lia].
Qed.
Lemma VF_shrink : forall m n f z, VF m f z -> m <= LIM -> (isize f <=? n)%sint63 = true -> VF (tz n) f z.
Proof.
  intros m n f z H M K. pose proof (VF_size _ _ _ H M) as S0. rewrite (V_le _ _ _ _ _ _ S0 (V_lit n)) in K. apply Z.leb_le in K.
  destruct f as [[c l] r], z as [[c' l'] r']. destruct H as (A & C & D & E & F & G). unfold VF. repeat split; auto.
Qed.
Lemma shiftr_abs : forall z k, 0 <= k -> 2^k * Z.abs (Z.shiftr z k) <= Z.abs z + 2^k.
Proof.
  intros z k K. rewrite Z.shiftr_div_pow2 by lia. assert (0 < 2 ^ k) by (apply Z.pow_pos_nonneg; lia). revert H. generalize (2 ^ k). intros d D. clear - D.
  pose proof (Z.div_mod z d ltac:(lia)). pose proof (Z.mod_pos_bound z d D). nia.
Qed.
Lemma mag_shiftr : forall l k, 0 <= k -> 2^k * mag (map (fun x => Z.shiftr x k) l) <= mag l + 2^k * Z.of_nat (length l).
Proof.
  intros l k K. induction l as [|a l IH]; cbn [map mag fold_right length]; [lia|]. fold (mag l). fold (mag (map (fun x => Z.shiftr x k) l)).
  pose proof (shiftr_abs a k K). rewrite Nat2Z.inj_succ. lia.
Qed.
Lemma VF_rnd : forall m k f z, VF m f z -> m + 10 <= LIM -> 0 <= tz k -> VF (m / 2 ^ tz k + 11) (irnd k f) (rnd (tz k) z).
Proof.
  intros m k [[c l] r] [[c' l'] r'] H M K. pose proof H as (A & C & D & E & F & G). unfold irnd, rnd.
  pose proof (mag_pos l'). pose proof (shiftr_abs c' (tz k) K) as Sc. pose proof (mag_shiftr l' (tz k) K) as Sl.
  assert (Pr : 0 <= Z.shiftr r' (tz k)) by (apply Z.shiftr_nonneg; exact F).
  assert (P2 : 0 < 2 ^ tz k) by (apply Z.pow_pos_nonneg; lia).
  assert (Sr : 2 ^ tz k * Z.shiftr r' (tz k) <= r').
  { rewrite Z.shiftr_div_pow2 by lia. apply Z.mul_div_le. exact P2. }
  assert (L : length l = length l') by (rewrite <- C, map_length; reflexivity).
  assert (VR : V (r' + 4 + 2) (asr r k + ilen l + 2)%sint63 (Z.shiftr r' (tz k) + Z.of_nat (length l') + 2)).
  { apply V_add; [apply V_add|split; [reflexivity|cbn; lia]|lia]; [apply V_asr; [split; [exact D|lia]|exact K]| |lia].
    eapply V_mono; [apply V_len; [exact L|exact E]|lia]. }
  destruct VR as [VR _]. unfold VF. repeat split.
  - apply (V_asr m); [split; [exact A|lia]|exact K].
  - rewrite <- C, !map_map. apply map_ext. intros i. apply (V_asr _ i _ k (V_lit i) K).
  - exact VR.
  - rewrite map_length. exact E.
  - lia.
  - assert (L4 : Z.of_nat (length l') <= 4) by lia. assert (0 <= Z.of_nat (length l')) by lia.
    generalize dependent (2 ^ tz k). intros d Sc Sl P2 Sr.
    set (x := Z.abs (Z.shiftr c' (tz k))) in *. set (y := mag (map (fun x => Z.shiftr x (tz k)) l')) in *. set (w := Z.shiftr r' (tz k)) in *. set (n := Z.of_nat (length l')) in *. clearbody x y w n.
    assert (x + y + w - (n + 1) <= m / d); [|lia]. apply Z.div_le_lower_bound; [exact P2|]. nia.
Qed.
Lemma zadd_len : forall l m, (length (zadd l m) <= length l)%nat.
Proof. induction l as [|a l IH]; intros [|b m]; cbn [zadd length]; try lia. specialize (IH m). lia. Qed.
Lemma zmul_len : forall l m, (length (zmul l m) <= length l)%nat.
Proof. induction l as [|a l IH]; intros [|b m]; cbn [zmul length]; try lia. specialize (IH m). lia. Qed.
Lemma VF_fadd : forall m n f z g w, VF m f z -> VF n g w -> m + n <= LIM -> VF (m + n) (ifadd f g) (fadd z w).
Proof.
  intros m n [[c l] r] [[c' l'] r'] [[d k] t] [[d' k'] t'] H K M.
  pose proof H as (A & C & D & E & F & G). pose proof K as (A1 & C1 & D1 & E1 & F1 & G1). unfold ifadd, fadd. pose proof (mag_pos l'). pose proof (mag_pos k').
  unfold VF. repeat split.
  - apply (V_add m n); [split; [exact A|lia]|split; [exact A1|lia]|lia].
  - apply (VL_map_tz (m + n)). apply VL_add; [apply VL_of_mag; [exact C|lia]|apply VL_of_mag; [exact C1|lia]|lia].
  - apply (V_add m n); [split; [exact D|lia]|split; [exact D1|lia]|lia].
  - pose proof (zadd_len l' k'). lia.
  - lia.
  - pose proof (mag_add l' k'). lia.
Qed.
Lemma VF_fmul : forall m n f z g w, VF m f z -> VF n g w -> m <= LIM -> n <= LIM -> m * n + 10 <= LIM -> VF (m * n / 1048576 + 11) (ifmul f g) (fmul z w).
Proof.
  intros m n [[c l] r] [[c' l'] r'] [[d k] t] [[d' k'] t'] H K Ml Nl M.
  pose proof H as (A & C & D & E & F & G). pose proof K as (A1 & C1 & D1 & E1 & F1 & G1). unfold ifmul, fmul. pose proof (mag_pos l') as P. pose proof (mag_pos k') as P1.
  assert (m0 : 0 <= m) by lia. assert (n0 : 0 <= n) by lia.
  change (m * n / 1048576 + 11) with (m * n / 2 ^ (tz 20) + 11). apply (VF_rnd (m * n) 20%sint63); [|lia|discriminate].
  assert (Vml : V (mag l') (imag l) (mag l')) by (apply V_mag; [exact C|lia|lia]).
  assert (Vmk : V (mag k') (imag k) (mag k')) by (apply V_mag; [exact C1|lia|lia]).
  assert (Vc : V (Z.abs c') c c') by (split; [exact A|lia]). assert (Vd : V (Z.abs d') d d') by (split; [exact A1|lia]).
  assert (Vr : V r' r r') by (split; [exact D|lia]). assert (Vt : V t' t t') by (split; [exact D1|lia]).
  set (a := Z.abs c') in *. set (b := Z.abs d') in *. set (x := mag l') in *. set (y := mag k') in *. assert (0 <= a) by (unfold a; lia). assert (0 <= b) by (unfold b; lia).
  assert (full : a * b + a * y + b * x + (x * y + r' * (b + y + t') + t' * (a + x)) <= m * n).
  { replace (a * b + a * y + b * x + (x * y + r' * (b + y + t') + t' * (a + x))) with ((a + x + r') * (b + y + t')) by ring. apply Z.mul_le_mono_nonneg; lia. }
  assert (0 <= a * b) by nia. assert (0 <= a * y) by nia. assert (0 <= b * x) by nia. assert (0 <= x * y) by nia. assert (0 <= r' * (b + y + t')) by nia. assert (0 <= t' * (a + x)) by nia.
  assert (VR : V (x * y + r' * (b + y + t') + t' * (a + x)) (imag l * imag k + r * (iabs d + imag k + t) + t * (iabs c + imag l))%sint63
     (x * y + r' * (b + y + t') + t' * (a + x))).
  { apply V_add; [apply V_add|apply V_mul|]; [apply V_mul|apply V_mul| |exact Vt|apply V_add| |]; try assumption; try lia.
    - apply V_add; [apply V_add|exact Vt|lia]; [apply V_abs; [exact Vd|lia]|exact Vmk|lia].
    - apply V_abs; [exact Vc|lia]. }
  assert (Ls : VL (a * y) (map (fun x => c * x)%sint63 k) (map (Z.mul c') k')).
  { apply (VL_map y); [apply VL_of_mag; [exact C1|unfold y; lia]|]. intros i e Hi. apply V_mul; [exact Vc|exact Hi|lia]. }
  assert (Lt : VL (b * x) (map (fun x => d * x)%sint63 l) (map (Z.mul d') l')).
  { apply (VL_map x); [apply VL_of_mag; [exact C|unfold x; lia]|]. intros i e Hi. apply V_mul; [exact Vd|exact Hi|lia]. }
  pose proof (VL_add _ _ _ _ _ _ Ls Lt ltac:(lia)) as LL.
  unfold VF. repeat split.
  - apply (V_mul a b); [exact Vc|exact Vd|lia].
  - exact (VL_map_tz _ _ _ LL).
  - exact (proj1 VR).
  - pose proof (zadd_len (map (Z.mul c') k') (map (Z.mul d') l')) as Q. rewrite map_length in Q. lia.
  - lia.
  - pose proof (mag_add (map (Z.mul c') k') (map (Z.mul d') l')) as Q. rewrite !mag_scale in Q. rewrite Z.abs_mul. fold a b x y in Q |- *. lia.
Qed.
Lemma VF_clamp : forall m f z, VF m f z -> m + 1 <= LIM -> 0 < hi z -> VF (2 * m + 2) (iclamp f) (clamp z).
Proof.
  intros m f z H M P. unfold iclamp, clamp. rewrite (V_le _ _ _ _ _ _ V_0 (VF_lo _ _ _ H ltac:(lia))).
  destruct (0 <=? lo z); [eapply VF_mono; [exact H|destruct f as [[c l] r], z as [[c' l'] r']; destruct H as (_ & _ & _ & _ & F & G); pose proof (mag_pos l'); lia]|].
  pose proof (VF_hi _ _ _ H ltac:(lia)) as Hh. set (hh := ihi f) in *. set (hz := hi z) in *. clearbody hh hz.
  destruct f as [[c l] r], z as [[c' l'] r']. pose proof H as (A & C & D & E & F & G). pose proof (mag_pos l').
  assert (VH : V (m + 1) (asr (hh + 1) 1) (Z.shiftr (hz + 1) 1)) by (apply (V_asr (m + 1) (hh + 1)%sint63 (hz + 1) 1%sint63); [apply V_add; [exact Hh|split; [reflexivity|cbn; lia]|lia]|discriminate]).
  apply (VF_intro _ (m + 1) 0 (m + 1)); try exact VH; try lia.
  - apply VL_zero; [rewrite <- C, map_length; reflexivity|lia].
  - rewrite map_length. exact E.
  - apply Z.shiftr_nonneg. lia.
Qed.

(** ** Steps of the search *)
Ltac vok := vm_compute; discriminate.
Lemma V_small : forall m l k, small k l = true -> VL m l (map tz l) -> m <= LIM -> VL (tz k) l (map tz l).
Proof.
  intros m l k. induction l as [|i l IH]; intros H L M; cbn [map]; [constructor|]. cbn [small forallb] in H. apply andb_prop in H as [H1 H2].
  inversion L as [|? ? ? ? L1 L2]; subst. constructor; [|apply IH; assumption]. rewrite (V_le _ _ _ _ _ _ (V_abs _ _ _ L1 M) (V_lit k)) in H1. apply Z.leb_le in H1. split; [reflexivity|exact H1].
Qed.
Lemma sqsum_pos : forall l, 0 <= sqsum l. Proof. induction l as [|a l IH]; cbn [sqsum fold_right]; [lia|]. fold (sqsum l). nia. Qed.
Lemma VF_falloff : forall rr RR ps ws ps' ws', V (2^44) rr RR -> VL (2^23) ps ps' -> VL (2^20) ws ws' -> (length ps' <= 4)%nat -> length ws' = length ps' ->
  VF (2^40) (ifalloff rr ps ws) (falloff_form RR ps' ws').
Proof.
  intros rr RR ps ws ps' ws' HR HP HW L LW. unfold ifalloff, falloff_form.
  assert (N : V 5 (ilen ps + 1)%sint63 (Z.of_nat (length ps') + 1)).
  { eapply V_mono; [apply V_add; [apply (V_len ps (length ps')); [exact (VL_length _ _ _ HP)|exact L]|apply V_1|unfold LIM; lia]|lia]. }
  pose proof (VL_sum _ _ _ HP ltac:(lia) L ltac:(vok)) as Hs.
  pose proof (VL_sq _ _ _ HW ltac:(lia) ltac:(lia) ltac:(vok)) as Qw. pose proof (VL_sq _ _ _ HP ltac:(lia) L ltac:(vok)) as Qp.
  pose proof (V_mul _ _ _ _ _ _ N Qw ltac:(vok)) as He.
  set (n1 := Z.of_nat (length ps') + 1) in *. assert (1 <= n1) by (unfold n1; lia). clearbody n1. set (s := zsum ps') in *. clearbody s.
  change (B + 1) with (tz 21). eapply VF_mono; [apply VF_rnd with (m := 2^56)|vok]; [|vok|discriminate].
  eapply VF_intro.
  - apply V_sub; [apply V_mul; [apply V_2|apply V_sub; [exact HR|apply V_sub; [apply V_mul; [exact N|exact Qp|vok]|apply V_mul; [exact Hs|exact Hs|vok]|vok]|vok]|vok]|exact He|vok].
  - apply VL_mul; [|exact HW|]. 
    + eapply VL_map; [exact HP|]. intros i a Hi. apply V_mul; [apply V_4|apply V_sub; [exact Hs|apply V_mul; [exact N|exact Hi|vok]|vok]|vok].
    + vok.
  - exact He.
  - pose proof (zmul_len (map (fun p => 4 * (s - n1 * p)) ps') ws'). rewrite map_length in *. lia.
  - pose proof (sqsum_pos ws'). nia.
  - vok.
  - vok.
Qed.
Lemma V_sub_un : forall cs v cs' v', VL (2^21) cs cs' -> VL (3 * 2^20) v (map (fun z => Z.shiftl z B) v') -> VL (2^23) (isub cs v) (zsub_un cs' v').
Proof.
  intros cs v cs' v' H. revert v v'. induction H as [|i a l z Hi Hl IH]; intros v v' K; [constructor|]. destruct v' as [|b v']; inversion K; subst; cbn [isub zsub_un map]; constructor.
  - eapply V_mono; [apply V_sub; [exact Hi|eassumption|vok]|vok].
  - apply IH. assumption.
Qed.
Lemma V_descending : forall cs ws cs' ws', VL (2^21) cs cs' -> VL (2^20) ws ws' -> idescending cs ws = descending cs' ws'.
Proof.
  intros cs ws cs' ws' H. revert ws ws'. induction H as [|i a l z Hi Hl IH]; intros ws ws' K; [reflexivity|].
  destruct K as [|w w' ws ws' Hw Hws]; [destruct Hl; reflexivity|]. destruct Hl as [|j b l z Hj Hl]; [reflexivity|]. destruct Hws as [|u u' ws ws' Hu Hws]; [reflexivity|].
  cbn [idescending descending]. cbn [idescending descending] in IH. rewrite (V_le (2^21 + 2^20) (2^21 + 2^20) _ _ (b - u') (a + w')).
  - destruct (b - u' <=? a + w'); [|reflexivity]. cbn [andb]. exact (IH (u :: ws) (u' :: ws') (Forall2_cons _ _ Hu Hws)).
  - apply V_sub; [exact Hj|exact Hu|vok].
  - apply V_add; [exact Hi|exact Hw|vok].
Qed.

Section Run.
Variable rr : int.
Variable RR : Z.
Hypothesis HR : V (2^44) rr RR.
Variable n : nat.
Hypothesis n4 : (n <= 4)%nat.
Variable ihf : list int -> list int -> iform.
Variable hf : list Z -> list Z -> form.
Definition refines : Prop := forall ps ws ps' ws', VL (2^23) ps ps' -> VL (2^20) ws ws' -> length ps' = n -> length ws' = n -> VF (2^60) (ihf ps ws) (hf ps' ws').
Hypothesis Hh : refines.
Definition vertices : list (list int) -> list (list Z) -> Prop := Forall2 (fun v v' => VL (3 * 2^20) v (map (fun z => Z.shiftl z B) v') /\ length v' = n).
Lemma VF_total : forall vs vs' cs cs' ws ws', vertices vs vs' -> VL (2^21) cs cs' -> VL (2^20) ws ws' -> length cs' = n -> length ws' = n ->
  (length vs' <= 256)%nat -> forall t, itotal rr ihf vs cs ws = Some t ->
  vertices (fst t) (fst (total_form RR hf vs' cs' ws')) /\ (length (fst (total_form RR hf vs' cs' ws')) <= length vs')%nat /\ VF (2^42 * Z.of_nat (length vs')) (snd t) (snd (total_form RR hf vs' cs' ws')).
Proof.
  intros vs vs' cs cs' ws ws' H HC HW LC LW. induction H as [|v v' vs vs' [Hv Lv] Hvs IH]; intros L t E.
  - cbn [itotal total_form fst snd] in *. injection E as <-. cbn [fst snd length]. split; [constructor|split; [lia|]].
    apply (VF_intro _ 0 0 0); try exact V_0; try lia; [apply VL_zero; [exact (VL_length _ _ _ HW)|lia]|rewrite map_length; lia].
  - cbn [itotal total_form length] in *. destruct (itotal rr ihf vs cs ws) as [rest|]; [|discriminate]. specialize (IH ltac:(lia) rest eq_refl) as (I1 & I2 & I3).
    set (rest' := total_form RR hf vs' cs' ws') in *. clearbody rest'.
    pose proof (V_sub_un _ _ _ _ HC Hv) as HP. set (ps := isub cs v) in *. set (ps' := zsub_un cs' v') in *.
    assert (LP : length ps' = n). { unfold ps'. clear - LC Lv. revert v' Lv. rewrite <- LC. clear LC. induction cs' as [|a cs' IH]; intros [|b v'] L; try discriminate; cbn [zsub_un length] in *; auto. }
    clearbody ps ps'.
    pose proof (VF_falloff _ _ _ _ _ _ HR HP HW ltac:(lia) ltac:(lia)) as Hf. set (f := ifalloff rr ps ws) in *. set (f' := falloff_form RR ps' ws') in *. clearbody f f'.
    rewrite (V_le _ _ _ _ _ _ (VF_hi _ _ _ Hf ltac:(vok)) V_0) in E. destruct (Z.leb_spec (hi f') 0) as [Z0|Z0].
    { injection E as <-. cbn [fst snd]. split; [exact I1|split; [lia|]]. eapply VF_mono; [exact I3|lia]. }
    pose proof (VF_clamp _ _ _ Hf ltac:(vok) Z0) as Hc. cbn zeta in E |- *. set (c := iclamp f) in *. set (c' := clamp f') in *. clearbody c c'.
    destruct (isize c <=? 33554432)%sint63 eqn:S1; [|discriminate]. apply (VF_shrink _ _ _ _ Hc ltac:(vok)) in S1. change (tz 33554432) with 33554432 in S1.
    pose proof (VF_fmul _ _ _ _ _ _ S1 S1 ltac:(vok) ltac:(vok) ltac:(vok)) as S2. pose proof (VF_fmul _ _ _ _ _ _ S2 S2 ltac:(vok) ltac:(vok) ltac:(vok)) as S4.
    set (f2 := ifmul c c) in *. set (f2' := fmul c' c') in *. set (f4 := ifmul f2 f2) in *. set (f4' := fmul f2' f2') in *. clearbody f4 f4'.
    destruct (isize f4 <=? 68719476736)%sint63 eqn:T4; [|discriminate]. apply (VF_shrink _ _ _ _ S4 ltac:(vok)) in T4. change (tz 68719476736) with 68719476736 in T4.
    pose proof (Hh _ _ _ _ HP HW LP LW) as HH. set (h := ihf ps ws) in *. set (h' := hf ps' ws') in *. clearbody h h'.
    destruct (isize h <=? 33554432)%sint63 eqn:Th; [|discriminate]. apply (VF_shrink _ _ _ _ HH ltac:(vok)) in Th. change (tz 33554432) with 33554432 in Th.
    injection E as <-. cbn [fst snd length]. split; [constructor; [split; [exact Hv|exact Lv]|exact I1]|split; [lia|]].
    pose proof (VF_fmul _ _ _ _ _ _ T4 Th ltac:(vok) ltac:(vok) ltac:(vok)) as FF.
    eapply VF_mono; [apply VF_fadd; [exact FF|exact I3|]|].
    + apply Z.le_trans with (2^42 + 2^42 * 256); [|vok]. apply Z.add_le_mono; [vok|]. apply Z.mul_le_mono_nonneg_l; lia.
    + rewrite Nat2Z.inj_succ. replace (2^42 * Z.succ (Z.of_nat (length vs'))) with (2^42 + 2^42 * Z.of_nat (length vs')) by lia. apply Z.add_le_mono_r. vok.
Qed.
Lemma VL_any : forall l, VL (LIM + 1) l (map tz l).
Proof. induction l as [|i l IH]; cbn [map]; constructor; [|exact IH]. split; [reflexivity|]. pose proof (Sint63.to_Z_bounded i). rewrite lim_min, lim_max in *. lia. Qed.
Lemma check_refined : forall ilim lim fuel k vs vs' cs cs' ws ws', V LIM ilim lim -> vertices vs vs' -> (length vs' <= 256)%nat -> VL (2^22) cs cs' -> VL (2^21) ws ws' -> length cs' = n -> length ws' = n ->
  icheck rr ihf n fuel k ilim vs cs ws = true -> check RR hf n fuel k lim vs' cs' ws' = true.
Proof.
  intros ilim lim fuel. induction fuel as [|m IH]; intros k vs vs' cs cs' ws ws' HL HV L HC HW LC LW E; cbn [icheck check] in E |- *.
  all: destruct (small 2097152 cs) eqn:Sc; [|discriminate]; destruct (small 1048576 ws) eqn:Sw; [|discriminate].
  all: pose proof (VL_map_tz _ _ _ HC) as EC; pose proof (VL_map_tz _ _ _ HW) as EW; subst cs' ws'.
  all: apply (V_small _ _ _ Sc) in HC; [|vok]; apply (V_small _ _ _ Sw) in HW; [|vok]; change (tz 2097152) with (2^21) in HC; change (tz 1048576) with (2^20) in HW.
  all: rewrite (V_descending _ _ _ _ HC HW) in E; destruct (descending (map tz cs) (map tz ws)); [|reflexivity]; cbn [negb].
  all: destruct (itotal rr ihf vs cs ws) as [t|] eqn:T; [|discriminate].
  all: destruct (VF_total _ _ _ _ _ _ HV HC HW LC LW L t T) as (T1 & T2 & T3).
  all: set (t' := total_form RR hf vs' (map tz cs) (map tz ws)) in *; clearbody t'; cbn zeta.
  all: assert (TL : 2^42 * Z.of_nat (length vs') <= LIM) by (apply Z.le_trans with (2^42 * 256); [apply Z.mul_le_mono_nonneg_l; lia|vok]).
  all: rewrite (V_le _ _ _ _ _ _ (VF_hi _ _ _ T3 TL) HL) in E; destruct (hi (snd t') <=? lim); [reflexivity|].
  - discriminate.
  - assert (Vh : V (2^20 + 1) (asr (nth k ws 0%sint63 + 1) 1) (Z.shiftr (nth k (map tz ws) 0 + 1) 1)).
    { apply (V_asr _ _ _ 1%sint63); [|discriminate]. apply V_add; [apply VL_nth; [exact HW|vok]|apply V_1|vok]. }
    set (h := asr (nth k ws 0%sint63 + 1) 1) in *. set (h' := Z.shiftr (nth k (map tz ws) 0 + 1) 1) in *. cbn zeta in E |- *. clearbody h h'.
    destruct (icheck rr ihf n m (if Nat.eqb (S k) n then O else S k) ilim (fst t) (isetk k (fun x => x - h)%sint63 cs) (isetk k (fun _ => h) ws)) eqn:E1; [|discriminate].
    assert (LS : forall g l, length (setk k g l) = length l) by (clear; intros g l; revert k; induction l as [|x l IH]; intros [|k]; cbn [setk length]; auto).
    assert (W : VL (2^21) (isetk k (fun _ => h) ws) (setk k (fun _ => h') (map tz ws))) by (apply (VL_setk (2^20)); [exact HW|vok|intros i a _; eapply V_mono; [exact Vh|vok]]).
    apply andb_true_intro. split.
    + eapply (IH _ _ _ _ _ _ _ HL T1); [lia| |exact W|rewrite LS; exact LC|rewrite LS; exact LW|exact E1].
      apply (VL_setk (2^21)); [exact HC|vok|]. intros i a Hi. eapply V_mono; [apply V_sub; [exact Hi|exact Vh|vok]|vok].
    + eapply (IH _ _ _ _ _ _ _ HL T1); [lia| |exact W|rewrite LS; exact LC|rewrite LS; exact LW|exact E].
      apply (VL_setk (2^21)); [exact HC|vok|]. intros i a Hi. eapply V_mono; [apply V_add; [exact Hi|exact Vh|vok]|vok].
Qed.
End Run.
Lemma around_range : forall n v, In v (around n) -> Forall (fun a => -1 <= a <= 2) v.
Proof.
  induction n as [|n IH]; intros v I; cbn [around] in I; [destruct I as [<-|[]]; constructor|].
  apply in_flat_map in I as (w & Iw & I). apply in_map_iff in I as (a & <- & Ia). constructor; [cbn [In] in Ia; lia|apply IH, Iw].
Qed.
Lemma around_count : forall n, (length (around n) = 4 ^ n)%nat.
Proof.
  induction n as [|n IH]; [reflexivity|]. cbn [around]. rewrite Nat.pow_succ_r', <- IH. generalize (around n). clear. intros l.
  induction l as [|v l IH]; [reflexivity|]. cbn [flat_map]. rewrite app_length, IH, map_length. cbn [length]. lia.
Qed.
Theorem irun_sound : forall RR ihf hf n fuel lim, Z.abs RR <= 2^44 -> (n <= 4)%nat -> Z.abs lim <= LIM -> refines n ihf hf ->
  irun RR ihf n fuel lim = true -> run RR hf n fuel lim = true.
Proof.
  intros RR ihf hf n fuel lim HR N HL Hh E. unfold irun, run in *.
  assert (C : VL (2^20) (repeat 524288%sint63 n) (cell n)).
  { unfold cell. clear. induction n as [|n IH]; cbn [repeat]; constructor; [split; [reflexivity|vok]|exact IH]. }
  refine (check_refined (toint RR) RR _ n N ihf hf Hh (toint lim) lim fuel 0 _ _ _ _ _ _ _ _ _ _ _ _ _ E).
  - eapply V_mono; [apply V_toint; apply Z.le_trans with (2^44); [exact HR|vok]|exact HR].
  - eapply V_mono; [apply V_toint; exact HL|exact HL].
  - assert (A : forall v, In v (around n) -> Forall (fun a => -1 <= a <= 2) v /\ length v = n) by (intros v I; split; [exact (around_range n v I)|exact (around_length n v I)]).
    unfold vertices. revert A. generalize (around n) as L. clear. induction L as [|v L IH]; intros A; cbn [map]; constructor; [|apply IH; intros w I; apply A; right; exact I].
    destruct (A v (or_introl eq_refl)) as [R Lv]. split; [|exact Lv]. clear - R. induction R as [|a v Ha Hv IH]; cbn [map]; constructor; [|exact IH].
    eapply V_mono; [apply V_toint|]; change B with 20; rewrite Z.shiftl_mul_pow2 by lia; change (2^20) with 1048576; [unfold LIM|]; lia.
  - rewrite around_count. apply Nat.le_trans with (4 ^ 4)%nat; [apply Nat.pow_le_mono_r; lia|]. apply Nat.leb_le. reflexivity.
  - eapply VL_mono; [exact C|vok].
  - eapply VL_mono; [exact C|vok].
  - unfold cell. apply repeat_length.
  - unfold cell. apply repeat_length.
Qed.

(** ** Heights *)
(** pairs (constant, coefficients) *)
Definition VP (m : Z) (n : nat) (o : int * list int) (o' : Z * list Z) : Prop := V m (fst o) (fst o') /\ VL m (snd o) (snd o') /\ length (snd o') = n.
Lemma VP_argmin : forall m n l l' z z', VP m n z z' -> Forall2 (VP m n) l l' -> VP m n (iargmin z l) (argmin z' l').
Proof.
  intros m n l l' z z' Hz H. revert z z' Hz. induction H as [|o o' l l' Ho Hl IH]; intros z z' Hz; cbn [iargmin argmin]; [exact Hz|].
  apply IH. rewrite (V_lt _ _ _ _ _ _ (proj1 Ho) (proj1 Hz)). destruct (fst o' <? fst z'); assumption.
Qed.
Lemma zadd_length2 : forall l m k, length l = k -> length m = k -> length (zadd l m) = k.
Proof. induction l as [|a l IH]; intros [|b m] k H K; cbn in *; subst; try discriminate; auto. Qed.
Lemma zmul_length2 : forall l m k, length l = k -> length m = k -> length (zmul l m) = k.
Proof. induction l as [|a l IH]; intros [|b m] k H K; cbn in *; subst; try discriminate; auto. Qed.

Theorem max_refined : forall n gs, (n <= 4)%nat -> forallb (fun g => (forallb (fun x => Z.abs x <=? 2^22) g && Nat.eqb (length g) n)%bool) gs = true ->
  refines n (imax_form (map (map toint) gs)) (max_form gs).
Proof.
  intros n gs N G ps ws ps' ws' HP HW LP LW. unfold imax_form, max_form.
  assert (O : Forall2 (VP (2^47) n) (map (ilin_form ws ps) (map (map toint) gs)) (map (lin_form ws' ps') gs)).
  { rewrite map_map. induction gs as [|g gs IH]; cbn [map]; [constructor|]. cbn [forallb] in G. apply andb_prop in G as [G1 G2]. constructor; [|apply IH; exact G2].
    apply andb_prop in G1 as [G1 G3]. apply Nat.eqb_eq in G3.
    assert (Vg : VL (2^22) (map toint g) g).
    { clear - G1. induction g as [|x g IH]; cbn [map]; constructor; cbn [forallb] in G1; apply andb_prop in G1 as [A C]; [|apply IH; exact C]. apply Z.leb_le in A.
      eapply V_mono; [apply V_toint; apply Z.le_trans with (2^22); [exact A|vok]|exact A]. }
    unfold ilin_form, lin_form. split; [|split]; cbn [fst snd].
    - eapply V_mono; [apply VL_sum; [apply VL_mul; [exact Vg|exact HP|vok]|vok|rewrite (zmul_length2 g ps' n) by lia; lia|vok]|vok].
    - eapply VL_mono; [apply VL_mul; [exact Vg|exact HW|vok]|vok].
    - apply zmul_length2; lia. }
  set (os := map (ilin_form ws ps) (map (map toint) gs)) in *. set (os' := map (lin_form ws' ps') gs) in *. clearbody os os'. cbn zeta. pose proof O as O0.
  destruct O as [|o o' os os' Ho Hos]; [unfold VF; cbn [map]; repeat split; cbn; lia|].
  assert (Z0 : VP (2^47) n (iargmin (- fst o, snd o)%sint63 (map (fun o => (- fst o, snd o)%sint63) os)) (argmin (- fst o', snd o') (map (fun o => (- fst o, snd o)) os'))).
  { apply VP_argmin.
    - destruct Ho as (A & C & D). split; [|split; assumption]. apply V_opp; [exact A|vok].
    - clear - Hos. induction Hos as [|p p' os os' (A & C & D) _ IH]; cbn [map]; constructor; [|exact IH]. split; [|split; assumption]. apply V_opp; [exact A|vok]. }
  set (z := iargmin _ _) in *. set (z' := argmin _ _) in *. clearbody z z'. destruct Z0 as (Z1 & Z2 & Z3).
  assert (D : V (2^51) (fold_right (fun o acc => imax (fst o + fst z + idist (snd o) (snd z)) acc) 0 (o :: os))%sint63
      (fold_right (fun o acc => Z.max (fst o + fst z' + mag (zadd (snd o) (map Z.opp (snd z')))) acc) 0 (o' :: os'))).
  { revert O0. generalize (o :: os) (o' :: os'). clear - Z1 Z2 Z3 N. intros l l' O0. induction O0 as [|p p' l l' (A & C & D) _ IH]; cbn [fold_right]; [split; [reflexivity|vok]|].
    eapply V_mono; [apply V_max; [|exact IH]|]; [|]. 
    - exact (V_add _ _ _ _ _ _ (V_add _ _ _ _ _ _ A Z1 ltac:(vok)) (VL_dist _ _ _ _ _ C Z2 ltac:(vok) ltac:(lia) ltac:(vok)) ltac:(vok)).
    - vok. }
  change B with (tz 20). eapply VF_mono; [apply VF_rnd with (m := 2^57)|vok]; [|vok|discriminate].
  eapply VF_intro.
  - apply V_add; [apply V_add; [apply V_add; [apply V_opp; [exact Z1|vok]|exact D|vok]|apply VL_mag; [exact HP|vok|lia|vok]|vok]|apply VL_sum; [exact HW|vok|lia|vok]|vok].
  - exact Z2.
  - apply V_0.
  - lia.
  - lia.
  - vok.
  - vok.
Qed.

Lemma coords_refined : forall u U n ps ws ps' ws', V (2^20) u U -> (n <= 4)%nat -> VL (2^23) ps ps' -> VL (2^20) ws ws' -> length ps' = n -> length ws' = n ->
  Forall2 (VP (2^46) n) (icoords u ps ws) (coords U ps' ws').
Proof.
  intros u U n ps ws ps' ws' HU N HP HW LP LW. unfold icoords, coords. cbn zeta. rewrite (VL_length _ _ _ HP).
  pose proof (VL_sum _ _ _ HP ltac:(vok) ltac:(lia) ltac:(vok)) as Hs. pose proof (V_mul _ _ _ _ _ _ HU Hs ltac:(vok)) as Hu.
  set (su := (u * isum ps)%sint63) in *. set (su' := U * zsum ps') in *. clearbody su su'. clear LP Hs.
  generalize (seq 0 (length ps')) as ix. induction HP as [|p p' ps ps' Hp Hps IH]; intros ix; destruct ix as [|i ix]; cbn [combine map]; constructor; [|apply IH].
  split; [|split]; cbn [fst snd].
  - change B with 20. rewrite Z.shiftl_mul_pow2 by lia. eapply V_mono; [apply V_add; [apply V_mul; [exact Hp|apply (V_lit 1048576%sint63)|vok]|exact Hu|vok]|vok].
  - apply (VL_setk (2^40)); [apply (VL_map (2^20)); [exact HW|]|vok|].
    + intros j a Hj. eapply V_mono; [apply V_mul; [exact HU|exact Hj|vok]|vok].
    + intros j a Hj. change B with 20. rewrite Z.shiftl_mul_pow2 by lia.
      eapply V_mono; [apply V_add; [exact Hj|apply V_mul; [apply VL_nth; [exact HW|vok]|apply (V_lit 1048576%sint63)|vok]|vok]|vok].
  - rewrite BoxesSound.setk_length, map_length. exact LW.
Qed.
Theorem drop_refined : forall n U, (n <= 4)%nat -> Z.abs U <= 2^20 -> refines n (idrop_form (toint U)) (drop_form U).
Proof.
  intros n U N HU ps ws ps' ws' HP HW LP LW. unfold idrop_form, drop_form.
  assert (VU : V (2^20) (toint U) U) by (eapply V_mono; [apply V_toint; apply Z.le_trans with (2^20); [exact HU|vok]|exact HU]).
  pose proof (coords_refined _ _ _ _ _ _ _ VU N HP HW LP LW) as C0.
  assert (LC : length (coords U ps' ws') = length ps') by (unfold coords; rewrite map_length, combine_length, seq_length; lia).
  set (cs := icoords (toint U) ps ws) in *. set (cs' := coords U ps' ws') in *. clearbody cs cs'.
  assert (O : Forall2 (VP (2^46) n) (map (fun o => (iabs (fst o), if fst o <? 0 then map opp (snd o) else snd o)%sint63) cs) (map (fun o => (Z.abs (fst o), zneg_if (fst o <? 0) (snd o))) cs')).
  { clear - C0. induction C0 as [|o o' cs cs' (A & C & D) _ IH]; cbn [map]; constructor; [|exact IH]. split; [|split]; cbn [fst snd].
    - apply V_abs; [exact A|vok].
    - rewrite (V_lt _ _ _ _ _ _ A V_0). unfold zneg_if. destruct (fst o' <? 0); [apply VL_opp; [exact C|vok]|exact C].
    - unfold zneg_if. destruct (fst o' <? 0); rewrite ?map_length; exact D. }
  assert (LO : length (map (fun o => (Z.abs (fst o), zneg_if (fst o <? 0) (snd o))) cs') = length ps') by (rewrite map_length; exact LC).
  set (os := map (fun o => (iabs (fst o), if fst o <? 0 then map opp (snd o) else snd o)%sint63) cs) in *. set (os' := map (fun o => (Z.abs (fst o), zneg_if (fst o <? 0) (snd o))) cs') in *. clearbody os os'. cbn zeta. clear C0 LC.
  pose proof O as O0.
  destruct O as [|o o' os os' Ho Hos]; [unfold VF; cbn [map]; repeat split; cbn; lia|].
  assert (L5 : (length (o' :: os') <= 4)%nat) by lia.
  pose proof (VP_argmin _ _ _ _ _ _ Ho Hos) as Z0. set (z := iargmin o os) in *. set (z' := argmin o' os') in *. clearbody z z'. destruct Z0 as (Z1 & Z2 & Z3).
  assert (SUM : forall (f : int * list int -> int) (g : Z * list Z -> Z) m, 0 <= m -> 4 * m <= LIM -> (forall p p', VP (2^46) n p p' -> V m (f p) (g p')) ->
    V (4 * m) (fold_right (fun o acc => f o + acc) 0 (o :: os))%sint63 (fold_right (fun o acc => g o + acc) 0 (o' :: os'))).
  { intros f g m M M4 K. assert (A : V (Z.of_nat (length (o' :: os')) * m) (fold_right (fun o acc => f o + acc) 0 (o :: os))%sint63 (fold_right (fun o acc => g o + acc) 0 (o' :: os'))); [|eapply V_mono; [exact A|nia]].
    revert L5 O0. generalize (o :: os) (o' :: os'). clear - M M4 K. intros l l' L5 O0. induction O0 as [|p p' l l' Hp _ IH]; cbn [fold_right length] in *; [split; [reflexivity|cbn; lia]|].
    specialize (IH ltac:(lia)). eapply V_mono; [apply V_add; [apply K; exact Hp|exact IH|nia]|nia]. }
  pose proof (SUM fst fst (2^46) ltac:(vok) ltac:(vok) (fun p p' Hp => proj1 Hp)) as Vc.
  assert (Vn : V (4 * 2^50) (fold_right (fun o acc => 2 * imax 0 (imag (snd o) - fst o) + acc) 0 (o :: os))%sint63 (fold_right (fun o acc => 2 * Z.max 0 (mag (snd o) - fst o) + acc) 0 (o' :: os'))).
  { apply (SUM (fun o => 2 * imax 0 (imag (snd o) - fst o))%sint63 (fun o => 2 * Z.max 0 (mag (snd o) - fst o))); [vok|vok|]. intros p p' (A & C & D).
    eapply V_mono; [apply V_mul; [apply V_2|apply V_max; [apply V_0|apply V_sub; [apply VL_mag; [exact C|vok|lia|vok]|exact A|vok]]|vok]|vok]. }
  assert (Vl : VL (2^51) (fold_right (fun o acc => iadd (snd o) acc) (map (fun _ => 0%sint63) ws) (o :: os)) (fold_right (fun o acc => zadd (snd o) acc) (map (fun _ => 0) ws') (o' :: os')) /\
     length (fold_right (fun o acc => zadd (snd o) acc) (map (fun _ => 0) ws') (o' :: os')) = n).
  { assert (A : VL (Z.of_nat (length (o' :: os')) * 2^46) (fold_right (fun o acc => iadd (snd o) acc) (map (fun _ => 0%sint63) ws) (o :: os)) (fold_right (fun o acc => zadd (snd o) acc) (map (fun _ => 0) ws') (o' :: os')) /\
     length (fold_right (fun o acc => zadd (snd o) acc) (map (fun _ => 0) ws') (o' :: os')) = n).
    { revert L5 O0. generalize (o :: os) (o' :: os'). clear - HW LW N. intros l l' L5 O0. induction O0 as [|p p' l l' (A & C & D) _ IH]; cbn [fold_right length] in *.
      - split; [apply VL_zero; [exact (VL_length _ _ _ HW)|vok]|rewrite map_length; exact LW].
      - specialize (IH ltac:(lia)) as [I1 I2]. split; [|apply zadd_length2; [exact D|exact I2]]. eapply VL_mono; [apply VL_add; [exact C|exact I1|]|]; unfold LIM; lia. }
    destruct A as [A A']. split; [eapply VL_mono; [exact A|lia]|exact A']. }
  destruct Vl as [Vl Ll].
  assert (D : V (2^51) (fold_right (fun o acc => imax (fst z - fst o + idist (snd z) (snd o)) acc) 0 (o :: os))%sint63
      (fold_right (fun o acc => Z.max (fst z' - fst o + mag (zadd (snd z') (map Z.opp (snd o)))) acc) 0 (o' :: os'))).
  { revert O0. generalize (o :: os) (o' :: os'). clear - Z1 Z2 Z3 N. intros l l' O0. induction O0 as [|p p' l l' (A & C & D) _ IH]; cbn [fold_right]; [split; [reflexivity|vok]|].
    eapply V_mono; [apply V_max; [|exact IH]|].
    - exact (V_add _ _ _ _ _ _ (V_sub _ _ _ _ _ _ Z1 A ltac:(vok)) (VL_dist _ _ _ _ _ Z2 C ltac:(vok) ltac:(lia) ltac:(vok)) ltac:(vok)).
    - vok. }
  rewrite LO. change B with (tz 20). eapply VF_mono; [apply VF_rnd with (m := 2^57)|vok]; [|vok|discriminate].
  eapply VF_intro.
  - apply V_add; [apply V_add; [apply V_add; [apply V_sub; [exact Vc|exact Z1|vok]|exact Vn|vok]|exact D|vok]| |].
    + apply V_mul; [apply V_add; [eapply V_mono; [apply (V_len ps (length ps')); [exact (VL_length _ _ _ HP)|lia]|instantiate (1 := 4); lia]|apply V_1|vok]| |].
      * apply V_add; [apply V_abs; [apply VL_sum; [exact HP|vok|lia|vok]|vok]|apply VL_sum; [exact HW|vok|lia|vok]|vok].
      * vok.
    + vok.
  - apply VL_add; [exact Vl|apply VL_opp; [exact Z2|vok]|vok].
  - apply V_0.
  - rewrite (zadd_length2 _ _ n); [lia|exact Ll|rewrite map_length; exact Z3].
  - lia.
  - vok.
  - vok.
Qed.

Lemma V_unsigned : forall m i z, V m i z -> 0 <= z -> Uint63.to_Z i = z.
Proof.
  intros m i z [A _] P. rewrite <- (Sint63.to_Z_mod_Uint63to_Z i), A. pose proof (Sint63.to_Z_bounded i) as Q. rewrite lim_min, lim_max, A in Q.
  apply Z.mod_small. split; [exact P|]. apply Z.le_lt_trans with LIM; [lia|reflexivity].
Qed.
Lemma unsigned_V : forall i z, Uint63.to_Z i = z -> z <= LIM -> V z i z.
Proof.
  intros i z A L. pose proof (Uint63.to_Z_bounded i) as [P _]. rewrite A in P. split; [|lia]. rewrite Sint63.to_Z_cmodwB, A. apply Sint63.cmod_small.
  change (wB / 2) with (LIM + 1). unfold LIM in *. lia.
Qed.
Lemma V_sqrt : forall m i z, V m i z -> 0 <= z -> V (Z.sqrt m) (sqrt i) (Z.sqrt z).
Proof.
  intros m i z H P. pose proof (V_unsigned _ _ _ H P) as U. pose proof (Uint63.sqrt_spec i) as S0. rewrite U in S0. pose proof (Uint63.to_Z_bounded (sqrt i)) as [Q _].
  assert (E : Z.sqrt z = Uint63.to_Z (sqrt i)) by (apply Z.sqrt_unique; rewrite <- !Z.pow_2_r, <- Z.add_1_r; exact S0).
  destruct H as [H1 H2]. assert (Z.sqrt z <= Z.sqrt m) by (apply Z.sqrt_le_mono; lia). pose proof (Z.sqrt_nonneg z).
  apply V_mono with (Z.sqrt z); [|lia]. apply unsigned_V; [symmetry; exact E|].
  pose proof (Sint63.to_Z_bounded i) as B0. rewrite lim_min, lim_max, H1 in B0. pose proof (Z.sqrt_le_lin z P). lia.
Qed.
Lemma V_quot : forall m n i j z w, V m i z -> V n j w -> 0 <= z -> 0 < w -> V m (i / j)%sint63 (z / w).
Proof.
  intros m n i j z w [A A'] [C C'] P Q. split.
  - rewrite Sint63.div_spec by (right; lia). rewrite A, C. apply Z.quot_div_nonneg; lia.
  - assert (0 <= z / w) by (apply Z.div_pos; lia). assert (z / w <= z) by (apply Z.div_le_upper_bound; nia). lia.
Qed.
Lemma V_floor : forall m n i j z w, V m i z -> V n j w -> 0 < w -> n + 1 + m <= LIM -> V (n + 1 + m) (ifloor i j) (z / w).
Proof.
  intros m n i j z w H K Q L. unfold ifloor. rewrite (V_le _ _ _ _ _ _ V_0 H). destruct (Z.leb_spec 0 z) as [P|P].
  - eapply V_mono; [apply (V_quot _ _ _ _ _ _ H K P Q)|destruct K; lia].
  - assert (E : z / w = - ((w - 1 - z) / w)).
    { pose proof (Z.div_mod z w ltac:(lia)) as D. pose proof (Z.mod_pos_bound z w Q) as Mo. set (q := z / w) in *. set (r := z mod w) in *.
      replace (w - 1 - z) with ((- q) * w + (w - 1 - r)) by lia. rewrite Z.div_add_l by lia. rewrite (Z.div_small (w - 1 - r)) by lia. lia. }
    rewrite E. apply V_opp; [|exact L]. eapply V_quot; [apply V_sub; [apply V_sub; [exact K|apply V_1|destruct K, H; lia]|exact H|lia]|exact K|lia|exact Q].
Qed.
Lemma zcauchy : forall l, zsum l * zsum l <= Z.of_nat (length l) * sqsum l.
Proof.
  induction l as [|a l IH]; [cbn; lia|]. cbn [zsum sqsum fold_right length]. fold (zsum l) (sqsum l). rewrite Nat2Z.inj_succ.
  assert (2 * (a * zsum l) <= Z.of_nat (length l) * (a * a) + sqsum l); [|lia].
  clear IH. induction l as [|b l IH]; [unfold zsum, sqsum; cbn [fold_right length]; lia|]. cbn [zsum sqsum fold_right length]. fold (zsum l) (sqsum l). rewrite Nat2Z.inj_succ. pose proof (Z.square_nonneg (a - b)). nia.
Qed.
Theorem root_refined : forall n, (n <= 4)%nat -> refines n iroot_form root_form.
Proof.
  intros n N ps ws ps' ws' HP HW LP LW. unfold iroot_form, root_form.
  assert (N1 : V 5 (ilen ps + 1)%sint63 (Z.of_nat (length ps') + 1)).
  { eapply V_mono; [apply V_add; [apply (V_len ps (length ps')); [exact (VL_length _ _ _ HP)|lia]|apply V_1|unfold LIM; lia]|lia]. }
  pose proof (VL_sum _ _ _ HP ltac:(vok) ltac:(lia) ltac:(vok)) as Hs. pose proof (VL_sq _ _ _ HP ltac:(vok) ltac:(lia) ltac:(vok)) as Qp. pose proof (VL_sq _ _ _ HW ltac:(vok) ltac:(lia) ltac:(vok)) as Qw.
  pose proof (zcauchy ps') as CS. pose proof (sqsum_pos ps'). pose proof (sqsum_pos ws').
  assert (n0 : 0 <= Z.of_nat (length ps')) by lia.
  set (n1 := Z.of_nat (length ps') + 1) in *. set (s := zsum ps') in *. 
  assert (VQ : V (5 * (4 * (2^23 * 2^23)) + 4 * 2^23 * (4 * 2^23) + 5 * (4 * (2^20 * 2^20))) ((ilen ps + 1) * isq ps - isum ps * isum ps + (ilen ps + 1) * isq ws)%sint63 (n1 * sqsum ps' - s * s + n1 * sqsum ws')).
  { apply V_add; [apply V_sub; [apply V_mul; [exact N1|exact Qp|vok]|apply V_mul; [exact Hs|exact Hs|vok]|vok]|apply V_mul; [exact N1|exact Qw|vok]|vok]. }
  assert (Q0 : 0 <= n1 * sqsum ps' - s * s + n1 * sqsum ws') by (unfold n1 in *; nia).
  cbn zeta. set (q := ((ilen ps + 1) * isq ps - isum ps * isum ps + (ilen ps + 1) * isq ws)%sint63) in *. set (q' := n1 * sqsum ps' - s * s + n1 * sqsum ws') in *.
  assert (VM : V (2^27) (sqrt q + 1)%sint63 (Z.sqrt q' + 1)) by (eapply V_mono; [apply V_add; [apply (V_sqrt _ _ _ VQ Q0)|apply V_1|vok]|vok]).
  assert (M0 : 0 < Z.sqrt q' + 1) by (pose proof (Z.sqrt_nonneg q'); lia).
  set (m := (sqrt q + 1)%sint63) in *. set (m' := Z.sqrt q' + 1) in *. clearbody m m'.
  pose proof (V_mul _ _ _ _ _ _ V_2 VM ltac:(vok)) as V2.
  assert (VS : VL (2^51) (imul (map (fun p => 2 * ((ilen ps + 1) * p - isum ps)) ps)%sint63 ws) (zmul (map (fun p => 2 * (n1 * p - s)) ps') ws')).
  { eapply VL_mono; [apply VL_mul; [eapply VL_map; [exact HP|]|exact HW|]|].
    - intros i a Hi. apply V_mul; [apply V_2|apply V_sub; [apply V_mul; [exact N1|exact Hi|vok]|exact Hs|vok]|vok].
    - vok.
    - vok. }
  eapply VF_intro.
  - apply V_add; [apply V_add; [apply V_floor; [apply V_add; [exact VQ|apply V_mul; [exact VM|exact VM|vok]|vok]|exact V2|lia|vok]|apply V_1|vok]| |].
    + eapply V_mono; [apply (V_len ws (length ws')); [exact (VL_length _ _ _ HW)|lia]|instantiate (1 := 4); lia].
    + vok.
  - eapply VL_map; [exact VS|]. intros i a Hi. apply V_floor; [exact Hi|exact V2|lia|vok].
  - apply V_0.
  - rewrite map_length. rewrite (zmul_length2 _ _ n); [exact N|rewrite map_length; exact LP|exact LW].
  - lia.
  - vok.
  - vok.
Qed.
