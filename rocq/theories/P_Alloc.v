(** C21, C23 (sequential part): the node allocator hands out disjoint, aligned blocks
    inside memory it owns, and gives memory back only when nothing lives in it. *)
From Coq Require Import ZArith List Bool Lia.
From Coq Require Import ZifyBool ZifyNat.
From Verif Require Import Prelude Alloc_Model.
Import ListNotations.
Open Scope Z_scope.
Ltac Zify.zify_post_hook ::= Z.div_mod_to_equations.

(** ** Specification *)

(** a block handed out and not yet freed *)
Record block := { b_ptr : Z; b_size : Z; b_align : Z }.
Definition disjoint (b c : block) : Prop := b_ptr b + b_size b <= b_ptr c \/ b_ptr c + b_size c <= b_ptr b.
(** the block lies in the payload of the pool, behind its header *)
Definition inside (p : pool) (b : block) : Prop :=
  p_addr p + 24 <= b_ptr b /\ b_ptr b + b_size b <= p_addr p + 24 + p_size p.
Definition starts_in (p : pool) (b : block) : bool := (p_addr p + 24 <=? b_ptr b) && (b_ptr b <? p_addr p + 24 + p_size p).
(** how many live blocks a pool holds *)
Definition population (p : pool) (l : list block) : Z := Z.of_nat (length (filter (starts_in p) l)).

Record world := { w_alloc : allocator; w_live : list block }.
Definition world0 : world := {| w_alloc := allocator0; w_live := [] |}.

(** A legal request: at least two bytes, a power of two as alignment, small enough for an
    empty pool of the configured size (the requirement documented by the assertion at
    SmartNode.cpp:129). *)
Definition legal (a : allocator) (size align : Z) : Prop :=
  2 <= size /\ (exists k, 0 <= k < 32 /\ align = 2^k) /\ 24 + size + align - 1 <= a_new_size a /\ size + align - 1 <= 2^31 - 1.
(** malloc returns memory that overlaps nothing the allocator still owns *)
Definition malloc_ok (a : allocator) (fresh : option Z) : Prop :=
  forall addr, fresh = Some addr -> 0 < addr /\ addr + malloc_size a + 2^32 < 2^64 /\
    forall p, In p (a_pools a) -> addr + malloc_size a <= p_addr p \/ p_addr p + 24 + p_size p <= addr.

(** One call of the allocator by the program; the last component of the label is the pool
    returned to the system. Only live blocks are freed. *)
Inductive wstep : world -> option pool -> world -> Prop :=
| SAlloc : forall a live size align fresh r a', legal a size align -> malloc_ok a fresh ->
    alloc a size align fresh = (r, a') ->
    wstep {| w_alloc := a; w_live := live |} None
          {| w_alloc := a'; w_live := match r with Some ptr => {| b_ptr := ptr; b_size := size; b_align := align |} :: live | None => live end |}
| SFree : forall a l1 b l2 a' q, free a (b_ptr b) = (a', q) ->
    wstep {| w_alloc := a; w_live := l1 ++ b :: l2 |} q {| w_alloc := a'; w_live := l1 ++ l2 |}
| SSize : forall a live n, 0 <= n < 2^32 ->
    wstep {| w_alloc := a; w_live := live |} None {| w_alloc := set_pool_size a n; w_live := live |}.
Inductive history : world -> Prop :=
| HInit : history world0
| HStep : forall w q w', history w -> wstep w q w' -> history w'.

(** ** Invariant *)

Definition region_disj (p q : pool) : Prop := p_addr p + 24 + p_size p <= p_addr q \/ p_addr q + 24 + p_size q <= p_addr p.

Definition pool_ge (lo : Z) (live : list block) (p : pool) : Prop :=
  exists act nxt, p_state p = act + nxt * 2^32 /\ 0 <= act <= nxt /\ lo <= nxt <= p_size p /\ p_size p <= 2^31 - 1 /\ 0 < p_addr p /\
    p_addr p + 24 + p_size p + 2^32 < 2^64 /\
    act = population p live /\
    (forall b, In b live -> starts_in p b = true -> b_ptr b + b_size b <= p_addr p + 24 + nxt).

Definition pool_ok := pool_ge 1.

Definition empties (live : list block) (ps : list pool) : Z := Z.of_nat (length (filter (fun p => population p live =? 0) ps)).

Definition inv (w : world) : Prop :=
  let ps := a_pools (w_alloc w) in
  let live := w_live w in
  0 <= a_new_size (w_alloc w) < 2^32 /\
  ForallOrdPairs region_disj ps /\
  (forall p, In p ps -> pool_ok live p) /\
  ForallOrdPairs disjoint live /\
  empties live ps <= 1 /\
  (forall b, In b live -> 2 <= b_size b /\ b_ptr b mod b_align b = 0 /\ exists p, In p ps /\ inside p b).

(** ** List facts *)

Lemma fop_mid {A} (R : A -> A -> Prop) (sym : forall a b, R a b -> R b a) : forall l1 x l2,
  ForallOrdPairs R (l1 ++ x :: l2) <-> ForallOrdPairs R (l1 ++ l2) /\ (forall y, In y (l1 ++ l2) -> R x y).
Proof.
  induction l1 as [|a l1 IH]; intros x l2; cbn [app].
  - split.
    + intros H. inversion H as [|? ? F1 F2]; subst. split; auto. apply Forall_forall. auto.
    + intros [H1 H2]. constructor; auto. apply Forall_forall. auto.
  - split.
    + intros H. inversion H as [|? ? F1 F2]; subst. apply IH in F2. destruct F2 as [F2 F3]. rewrite Forall_forall in F1.
      split; [constructor; auto; apply Forall_forall; intros y Hy; apply F1; apply in_app_iff in Hy; apply in_app_iff; cbn; tauto|].
      intros y [<-|Hy]; auto. apply sym, F1, in_app_iff. cbn. tauto.
    + intros [H1 H2]. inversion H1 as [|? ? F1 F2]; subst. constructor.
      * apply Forall_forall. intros y Hy. rewrite Forall_forall in F1. apply in_app_iff in Hy. cbn in Hy.
        destruct Hy as [Hy|[<-|Hy]]; [apply F1, in_app_iff; auto| |apply F1, in_app_iff; auto]. apply sym, H2. left; auto.
      * apply IH. split; auto. intros y Hy. apply H2. right; auto.
Qed.
Lemma region_sym : forall p q, region_disj p q -> region_disj q p.
Proof. unfold region_disj. tauto. Qed.
Lemma disjoint_sym : forall b c, disjoint b c -> disjoint c b.
Proof. unfold disjoint. tauto. Qed.

Lemma in_mid {A} : forall (l1 : list A) x l2 y, In y (l1 ++ x :: l2) <-> y = x \/ In y (l1 ++ l2).
Proof. intros. rewrite !in_app_iff. cbn. intuition. Qed.

Lemma population_cons : forall p b l, population p (b :: l) = (if starts_in p b then 1 else 0) + population p l.
Proof. intros. unfold population. cbn [filter]. destruct (starts_in p b); cbn [length]; lia. Qed.
Lemma population_mid : forall p b l1 l2, population p (l1 ++ b :: l2) = (if starts_in p b then 1 else 0) + population p (l1 ++ l2).
Proof. intros. unfold population. rewrite !filter_app. cbn [filter]. destruct (starts_in p b); rewrite !app_length; cbn [length]; lia. Qed.
Lemma population_nonneg : forall p l, 0 <= population p l.
Proof. intros. unfold population. lia. Qed.
Lemma population_zero : forall p l, population p l = 0 <-> forall b, In b l -> starts_in p b = false.
Proof.
  intros p l. unfold population. split.
  - intros H b Hb. destruct (starts_in p b) eqn:E; auto. assert (I : In b (filter (starts_in p) l)) by (apply filter_In; auto).
    destruct (filter (starts_in p) l); [destruct I|cbn in H; lia].
  - intros H. induction l as [|b l IH]; auto. cbn [filter]. rewrite H by (left; auto). apply IH. intros; apply H; right; auto.
Qed.

(** ** The state word *)
Lemma word_active : forall a n, 0 <= a < 2^32 -> active_of (a + n * 2^32) = a.
Proof. intros. unfold active_of, u32. rewrite Z.mod_add by lia. apply Z.mod_small; auto. Qed.
Lemma word_next : forall a n, 0 <= a < 2^32 -> 0 <= n < 2^32 -> next_of (a + n * 2^32) = n.
Proof.
  intros a n Ha Hn. unfold next_of, u32. rewrite Z.shiftr_div_pow2 by lia. rewrite Z.div_add by lia. rewrite (Z.div_small a) by lia.
  rewrite Z.mod_small by lia. lia.
Qed.
Lemma word_lor : forall a n, 0 <= a < 2^32 -> 0 <= n -> Z.lor a (Z.shiftl n 32) = a + n * 2^32.
Proof.
  intros a n Ha Hn. rewrite Z.shiftl_mul_pow2 by lia. rewrite <- Z.lxor_lor; [symmetry; apply Z.add_nocarry_lxor|];
  apply Z.bits_inj'; intros i Hi; rewrite Z.land_spec, Z.bits_0; (destruct (Z.lt_ge_cases i 32) as [L|L];
    [rewrite Z.mul_pow2_bits_low by lia; apply andb_false_r|]; replace (Z.testbit a i) with false; auto;
     symmetry; destruct (Z.eq_dec a 0) as [->|NZ]; [apply Z.testbit_0_l|]; apply Z.bits_above_log2; [lia|];
     enough (Z.log2 a < 32) by lia; apply Z.log2_lt_pow2; lia).
Qed.
Lemma word_count : forall a n, 0 <= a < 2^31 -> s32 (a + n * 2^32) = a.
Proof. intros. unfold s32. replace (a + n * 2^32 + 2^31) with (a + 2^31 + n * 2^32) by lia. rewrite Z.mod_add by lia. rewrite Z.mod_small; lia. Qed.

(** std::align *)
Lemma align_spec : forall k size ptr space, 0 <= k < 32 -> 0 < ptr -> 0 <= size -> 0 <= space < 2^32 -> ptr + 2^32 < 2^64 ->
  match std_align (2^k) size ptr space with
  | Some a => ptr <= a /\ a mod 2^k = 0 /\ a + size <= ptr + space
  | None => space < size + (2^k - 1)
  end.
Proof.
  intros k size ptr space Hk Hp Hs Hsp Hb. unfold std_align. assert (P : 0 < 2^k <= 2^31). { split; [apply Z.pow_pos_nonneg; lia|apply Z.pow_le_mono_r; lia]. }
  destruct (space <? size) eqn:E; [lia|].
  assert (A : Z.land (u64 (ptr - 1 + 2^k)) (u64 (- 2^k)) = (ptr - 1 + 2^k) / 2^k * 2^k).
  { unfold u64. rewrite (Z.mod_small (ptr - 1 + 2^k)) by lia. set (x := ptr - 1 + 2^k).
    assert (B : (- 2^k) mod 2^64 = Z.ldiff (Z.ones 64) (Z.ones k)).
    { rewrite <- Z.sub_nocarry_ldiff. 2:{ apply Z.bits_inj'. intros i Hi. rewrite Z.ldiff_spec, Z.bits_0. destruct (Z.lt_ge_cases i k); [rewrite (Z.ones_spec_low 64) by lia; apply andb_false_r|rewrite Z.ones_spec_high by lia; reflexivity]. }
      rewrite !Z.ones_equiv. symmetry. apply (Z.mod_unique_pos _ _ (-1)); [|]; change (2^64) with 18446744073709551616 in *; lia. }
    rewrite B. apply Z.bits_inj'. intros i Hi. rewrite Z.land_spec, Z.ldiff_spec. destruct (Z.lt_ge_cases i k) as [L|L].
    - rewrite Z.mul_pow2_bits_low by lia. rewrite (Z.ones_spec_low k) by lia. cbn [negb]. rewrite !andb_false_r. reflexivity.
    - rewrite Z.mul_pow2_bits by lia. rewrite Z.div_pow2_bits by lia. rewrite (Z.ones_spec_high k) by lia. replace (i - k + k) with i by lia. cbn [negb]. rewrite andb_true_r.
      destruct (Z.lt_ge_cases i 64); [rewrite Z.ones_spec_low by lia; apply andb_true_r|].
      rewrite Z.ones_spec_high by lia. rewrite andb_false_r. symmetry. apply Z.bits_above_log2; [subst x; lia|]. enough (Z.log2 x < 64) by lia. apply Z.log2_lt_pow2; subst x; lia. }
  rewrite A. set (q := (ptr - 1 + 2^k) / 2^k).
  assert (Q : ptr <= q * 2^k <= ptr - 1 + 2^k).
  { subst q. pose proof (Z.div_mod (ptr - 1 + 2^k) (2^k)). pose proof (Z.mod_pos_bound (ptr - 1 + 2^k) (2^k)). split; lia. }
  destruct (space - size <? q * 2^k - ptr) eqn:E2; [lia|]. split; [lia|]. split; [apply Z.mod_mul; lia|lia].
Qed.

(** one TryAlloc round on a good pool: the new block is aligned, in the pool, behind all
    live blocks; only a pool without enough room refuses *)
Lemma try_alloc_spec : forall live p size k, pool_ge 0 live p -> 2 <= size -> 0 <= k < 32 ->
  match try_alloc p size (2^k) with
  | Some (ptr, p') => p_addr p' = p_addr p /\ p_size p' = p_size p /\
      (forall b, In b live -> starts_in p b = true -> b_ptr b + b_size b <= ptr) /\
      inside p {| b_ptr := ptr; b_size := size; b_align := 2^k |} /\ ptr mod 2^k = 0 /\
      pool_ok ({| b_ptr := ptr; b_size := size; b_align := 2^k |} :: live) p'
  | None => population p live = 0 -> p_size p < size + (2^k - 1)
  end.
Proof.
  intros live p size k (act & nxt & ST & A1 & N1 & S1 & AD & AB & POP & LIVE) Hs Hk. unfold try_alloc, alloc_round.
  rewrite ST, word_active, word_next by lia. unfold p_data, HDR.
  set (st := if act =? 0 then p_addr p + 24 else p_addr p + 24 + nxt). set (sp := if act =? 0 then p_size p else u32 (p_size p - nxt)).
  assert (SP : sp = p_addr p + 24 + p_size p - st). { subst sp st. unfold u32. destruct (act =? 0); [lia|]. rewrite Z.mod_small by lia. lia. }
  assert (ST1 : p_addr p + 24 <= st <= p_addr p + 24 + p_size p) by (subst st; destruct (act =? 0); lia).
  pose proof (align_spec k size st sp Hk ltac:(lia) ltac:(lia) ltac:(lia) ltac:(lia)) as AL.
  destruct (std_align (2^k) size st sp) as [slot|].
  2:{ intros P0. subst st. replace (act =? 0) with true in * by lia. lia. }
  destruct AL as (L1 & L2 & L3).
  assert (U1 : u32 (slot + size - (p_addr p + 24)) = slot + size - (p_addr p + 24)) by (unfold u32; apply Z.mod_small; lia).
  assert (U2 : u32 (act + 1) = act + 1) by (unfold u32; apply Z.mod_small; lia). rewrite U1, U2. rewrite word_lor by lia.
  assert (BEH : forall b, In b live -> starts_in p b = true -> b_ptr b + b_size b <= slot).
  { intros b Hb Sb. specialize (LIVE b Hb Sb). subst st. destruct (act =? 0) eqn:E; [|lia]. assert (Z0 : population p live = 0) by lia.
    rewrite population_zero in Z0. rewrite (Z0 b Hb) in Sb. discriminate. }
  cbn [with_state p_addr p_size]. repeat split; auto.
  - cbn. lia.
  - cbn. lia.
  - exists (act + 1), (slot + size - (p_addr p + 24)). cbn [p_state p_addr p_size with_state]. split; [reflexivity|].
    assert (ACT : act + 1 <= slot + size - (p_addr p + 24)) by (subst st; destruct (act =? 0) eqn:E; lia).
    split; [lia|]. split; [lia|]. split; [lia|]. split; [lia|]. split; [lia|]. split.
    + rewrite population_cons. unfold starts_in at 1. cbn [p_addr p_size b_ptr with_state].
      replace (_ && _) with true by (symmetry; apply andb_true_intro; split; lia).
      change (population (with_state p (act + 1 + (slot + size - (p_addr p + 24)) * 2 ^ 32)) live) with (population p live). lia.
    + intros b [<-|Hb] Sb; [cbn; lia|]. specialize (BEH b Hb Sb). lia.
Qed.

(** the pools other than the one serving a request are not affected *)
Lemma not_in_other : forall p x b, region_disj p x -> 0 <= b_size b -> inside p b -> 0 < p_size x -> 2 <= b_size b -> starts_in x b = false.
Proof. unfold region_disj, inside, starts_in. intros. lia. Qed.
Lemma pool_ok_add : forall live x b, starts_in x b = false -> pool_ok live x -> pool_ok (b :: live) x.
Proof.
  intros live x b N (act & nxt & ST & A1 & N1 & S1 & AD & AB & POP & LIVE). exists act, nxt. repeat split; try lia; auto.
  - rewrite population_cons, N. lia.
  - intros c [<-|Hc] Sc; [congruence|auto].
Qed.
Lemma pool_ok_del : forall l1 b l2 x, starts_in x b = false -> pool_ok (l1 ++ b :: l2) x -> pool_ok (l1 ++ l2) x.
Proof.
  intros l1 b l2 x N (act & nxt & ST & A1 & N1 & S1 & AD & AB & POP & LIVE). exists act, nxt. repeat split; try lia; auto.
  - rewrite population_mid, N in POP. lia.
  - intros c Hc. apply LIVE. apply in_mid. auto.
Qed.
Lemma pool_ok_pos : forall l p, pool_ok l p -> 0 < p_size p.
Proof. intros l p (act & nxt & H). lia. Qed.

Lemma pool_ok_ge0 : forall l p, pool_ok l p -> pool_ge 0 l p.
Proof. intros l p (act & nxt & H1 & H2 & H3 & H). exists act, nxt. repeat split; try lia; apply H. Qed.
Lemma pool_count : forall l p, pool_ok l p -> alloc_count p = population p l.
Proof. intros l p (act & nxt & ST & A1 & N1 & S1 & AD & AB & POP & LIVE). unfold alloc_count. rewrite ST, word_count by lia. auto. Qed.
Lemma empties_mid : forall l q1 p q2, empties l (q1 ++ p :: q2) = (if population p l =? 0 then 1 else 0) + empties l (q1 ++ q2).
Proof. intros. unfold empties. rewrite !filter_app. cbn [filter]. destruct (population p l =? 0); rewrite !app_length; cbn [length]; lia. Qed.
Lemma empties_nonneg : forall l q, 0 <= empties l q.
Proof. intros. unfold empties. lia. Qed.
Lemma empties_ext : forall l l' ps, (forall p, In p ps -> population p l = population p l') -> empties l ps = empties l' ps.
Proof.
  intros l l' ps H. unfold empties. f_equal. f_equal. induction ps as [|p ps IH]; auto. cbn [filter]. rewrite (H p) by (left; auto).
  rewrite IH by (intros; apply H; right; auto). reflexivity.
Qed.

(** a request served by the pool [p] *)
Lemma served : forall live q1 p q2 p' ptr size k n, 
  ForallOrdPairs region_disj (q1 ++ p :: q2) -> (forall x, In x (q1 ++ q2) -> pool_ok live x) -> pool_ge 0 live p -> 
  ForallOrdPairs disjoint live -> 0 <= n < 2^32 -> empties live (q1 ++ q2) <= 1 ->
  (forall b, In b live -> 2 <= b_size b /\ b_ptr b mod b_align b = 0 /\ exists x, In x (q1 ++ p :: q2) /\ inside x b) ->
  2 <= size -> 0 <= k < 32 -> try_alloc p size (2^k) = Some (ptr, p') ->
  inv {| w_alloc := {| a_pools := q1 ++ p' :: q2; a_new_size := n |};
         w_live := {| b_ptr := ptr; b_size := size; b_align := 2^k |} :: live |}.
Proof.
  intros live q1 p q2 p' ptr size k n I1 I2 Pp I3 I0 IE I4 Hs Hk E.
  pose proof (try_alloc_spec live p size k Pp Hs Hk) as T. rewrite E in T. destruct T as (TA & TS & BEH & INS & AL & OK').
  set (b := {| b_ptr := ptr; b_size := size; b_align := 2^k |}) in *.
  apply (fop_mid _ region_sym) in I1. destruct I1 as (J1 & J2).
  assert (RD : forall x, region_disj p' x <-> region_disj p x) by (intros x; unfold region_disj; rewrite TA, TS; tauto).
  assert (INS' : forall c, inside p' c <-> inside p c) by (intros c; unfold inside; rewrite TA, TS; tauto).
  assert (OTH : forall x, In x (q1 ++ q2) -> starts_in x b = false).
  { intros x Hx. eapply not_in_other; eauto; [cbn; lia|eapply pool_ok_pos; eauto]. }
  split; [exact I0|]. split; [|split; [|split; [|split]]]; cbn [w_alloc w_live a_pools].
  - apply (fop_mid _ region_sym). split; auto. intros y Hy. apply RD. auto.
  - intros x Hx. apply in_mid in Hx. destruct Hx as [->|Hx]; auto. apply pool_ok_add; auto.
  - constructor; auto. apply Forall_forall. intros c Hc. destruct (I4 c Hc) as (S2 & _ & x & Hx & IX).
    apply in_mid in Hx. destruct Hx as [->|Hx].
    + right. apply BEH; auto. unfold starts_in, inside in *. lia.
    + specialize (J2 x Hx). unfold disjoint, region_disj, inside in *. lia.
  - rewrite empties_mid. rewrite (empties_ext (b :: live) live).
    2:{ intros x Hx. rewrite population_cons, OTH by auto. lia. }
    rewrite population_cons. unfold starts_in. rewrite TA, TS. unfold inside in INS. pose proof (population_nonneg p' live).
    cbn [b b_ptr b_size] in *. destruct ((p_addr p + 24 <=? ptr) && (ptr <? p_addr p + 24 + p_size p)) eqn:EB; [|lia].
    destruct (1 + population p' live =? 0) eqn:E0; lia.
  - intros c [<-|Hc].
    + split; [cbn; lia|]. split; [exact AL|]. exists p'. split; [apply in_mid; auto|apply INS'; auto].
    + destruct (I4 c Hc) as (S2 & A2 & x & Hx & IX). split; auto. split; auto. apply in_mid in Hx. destruct Hx as [->|Hx]; [exists p'; split; [apply in_mid; auto|apply INS'; auto]|exists x; split; [apply in_mid; auto|auto]].
Qed.

Lemma alloc_from_pools_inv : forall ps size align ptr ps', alloc_from_pools ps size align = Some (ptr, ps') ->
  exists q1 p q2 p', ps = q1 ++ p :: q2 /\ ps' = q1 ++ p' :: q2 /\ try_alloc p size align = Some (ptr, p').
Proof.
  induction ps as [|p ps IH]; intros size align ptr ps' E; cbn in E; [discriminate|].
  destruct (try_alloc p size align) as [[x p1]|] eqn:T.
  - injection E as <- <-. exists [], p, ps, p1. auto.
  - destruct (alloc_from_pools ps size align) as [[x r]|] eqn:R; [|discriminate]. injection E as <- <-.
    destruct (IH _ _ _ _ R) as (q1 & p1 & q2 & p2 & -> & -> & X). exists (p :: q1), p1, q2, p2. auto.
Qed.

Lemma alloc_inv : forall a live size align fresh r a', inv {| w_alloc := a; w_live := live |} -> legal a size align -> malloc_ok a fresh ->
  alloc a size align fresh = (r, a') ->
  inv {| w_alloc := a'; w_live := match r with Some ptr => {| b_ptr := ptr; b_size := size; b_align := align |} :: live | None => live end |}
  /\ (r = None -> fresh = None).
Proof.
  intros a live size align fresh r a' (I0 & I1 & I2 & I3 & IE & I4) (Hs & (k & Hk & ->) & L1 & L2) MO E. cbn [w_alloc w_live a_pools a_new_size] in *.
  unfold alloc in E. destruct (alloc_from_pools (a_pools a) size (2^k)) as [[ptr ps]|] eqn:AP.
  - injection E as <- <-. destruct (alloc_from_pools_inv _ _ _ _ _ AP) as (q1 & p & q2 & p' & EP & -> & T). rewrite EP in *. split; [|discriminate].
    eapply served; eauto; [intros; apply I2, in_mid; auto|apply pool_ok_ge0, I2, in_mid; auto|]. rewrite empties_mid in IE. destruct (population p live =? 0); lia.
  - destruct fresh as [addr|]; [|injection E as <- <-; split; auto; split; auto].
    destruct (MO addr eq_refl) as (M1 & M2 & M3). unfold malloc_size, HDR in *.
    assert (NS : p_size (new_pool addr (new_pool_size a)) = Z.min (a_new_size a - 24) (2^31 - 1)).
    { unfold new_pool, new_pool_size, INT32_MAX, HDR, u32. cbn [p_size]. rewrite Z.mod_small by lia. reflexivity. }
    set (np := new_pool addr (new_pool_size a)) in *. assert (NA : p_addr np = addr) by reflexivity.
    assert (P0 : population np live = 0).
    { apply population_zero. intros b Hb. destruct (I4 b Hb) as (S2 & _ & x & Hx & IX). specialize (M3 x Hx). unfold inside, starts_in in *. rewrite NA, NS. lia. }
    assert (G0 : pool_ge 0 live np).
    { exists 0, 0. rewrite NA, NS. repeat split; try lia. intros b Hb Sb. rewrite population_zero in P0. rewrite (P0 b Hb) in Sb. discriminate. }
    pose proof (try_alloc_spec live np size k G0 Hs Hk) as T. destruct (try_alloc np size (2^k)) as [[ptr np']|] eqn:TE; [|specialize (T P0); lia].
    injection E as <- <-. split; [|discriminate].
    eapply (served live (a_pools a) np []); eauto; rewrite ?app_nil_r; auto.
    + apply (fop_mid _ region_sym). rewrite app_nil_r. split; auto. intros y Hy. specialize (M3 y Hy). unfold region_disj. rewrite NA, NS. lia.
    + intros b Hb. destruct (I4 b Hb) as (S2 & A2 & x & Hx & IX). split; auto. split; auto. exists x. split; auto. apply in_mid. rewrite app_nil_r. auto.
Qed.

Lemma contains_other : forall live x ptr, pool_ok live x -> ~ (p_addr x + 24 <= ptr < p_addr x + 24 + p_size x) -> contains (p_data x) (p_state x) ptr = false.
Proof.
  intros live x ptr (act & nxt & ST & A1 & N1 & S1 & AD & AB & POP & LIVE) N. unfold contains, p_data, HDR. rewrite ST, word_next by lia.
  unfold u32. rewrite Z.mod_small by lia. lia.
Qed.

Lemma free_walk_owner : forall live q1 p q2 b, In b live -> inside p b -> 2 <= b_size b ->
  (forall x, In x (q1 ++ p :: q2) -> pool_ok live x) -> (forall x, In x q1 -> region_disj p x) ->
  exists p', free_walk (q1 ++ p :: q2) (b_ptr b) = (Some (population p live - 1), q1 ++ p' :: q2) /\
    p_addr p' = p_addr p /\ p_size p' = p_size p /\ p_state p' = p_state p - 1 /\ 1 <= population p live.
Proof.
  intros live q1 p q2 b Hb IB Sb. induction q1 as [|x q1 IH]; intros PO RD; cbn [app free_walk].
  - destruct (PO p (or_introl eq_refl)) as (act & nxt & ST & A1 & N1 & S1 & AD & AB & POP & LIVE).
    assert (SI : starts_in p b = true) by (unfold starts_in, inside in *; lia). specialize (LIVE b Hb SI).
    assert (P1 : 1 <= population p live).
    { pose proof (population_nonneg p live). destruct (Z.eq_dec (population p live) 0) as [e|]; [|lia]. rewrite population_zero in e. rewrite (e b Hb) in SI. discriminate. }
    unfold pool_free. assert (CN : contains (p_data p) (p_state p) (b_ptr b) = true).
    { unfold contains, p_data, HDR. rewrite ST, word_next by lia. unfold u32. rewrite Z.mod_small by lia. unfold inside in IB. lia. }
    rewrite CN. assert (SC : s32 (p_state p) = act) by (rewrite ST; apply word_count; lia). rewrite SC. rewrite <- POP. replace (0 <=? act - 1) with true by lia.
    eexists. split; [reflexivity|]. cbn [with_state p_addr p_size p_state]. split; auto. split; auto. split; [|lia]. unfold u64. rewrite Z.mod_small; [reflexivity|]. rewrite ST. lia.
  - assert (NC : contains (p_data x) (p_state x) (b_ptr b) = false).
    { apply (contains_other live); [apply PO; left; auto|]. specialize (RD x (or_introl eq_refl)). unfold region_disj, inside in *. lia. }
    unfold pool_free. rewrite NC. cbn [Z.leb Z.compare]. destruct IH as (p' & E & R); [intros; apply PO; right; auto|intros; apply RD; right; auto|].
    rewrite E. exists p'. auto.
Qed.

Lemma remove_loop_spec : forall live e ps, (forall p, In p ps -> pool_ok live p) ->
  match remove_loop e ps with
  | (ps', None) => ps' = ps /\ empties live ps + (if e then 1 else 0) <= 1
  | (ps', Some q) => exists r1 r2, ps = r1 ++ q :: r2 /\ ps' = r1 ++ r2 /\ population q live = 0 /\
                       (e = true \/ exists x, In x r1 /\ population x live = 0)
  end.
Proof.
  intros live e ps. revert e. induction ps as [|p ps IH]; intros e PO; cbn [remove_loop].
  - split; auto. cbn. destruct e; lia.
  - assert (Pp : pool_ok live p) by (apply PO; left; auto). pose proof (pool_count _ _ Pp) as PC. pose proof (population_nonneg p live).
    change (p :: ps) with ([] ++ p :: ps). rewrite empties_mid. cbn [app]. rewrite <- PC.
    destruct (alloc_count p =? 0) eqn:E0.
    + destruct e.
      * assert (M : u32 (p_state p) = 0). { unfold alloc_count, s32, u32 in *. lia. }
        unfold mark_for_removal. rewrite M. cbn [Z.eqb]. exists [], ps. repeat split; auto. lia.
      * specialize (IH true (fun x H => PO x (or_intror H))). destruct (remove_loop true ps) as [r' [q|]].
        -- destruct IH as (r1 & r2 & -> & -> & Q & _). exists (p :: r1), r2. repeat split; auto. right. exists p. split; [left; auto|lia].
        -- destruct IH as [-> IH]. split; auto. lia.
    + specialize (IH e (fun x H => PO x (or_intror H))). destruct (remove_loop e ps) as [r' [q|]].
      * destruct IH as (r1 & r2 & -> & -> & Q & X). exists (p :: r1), r2. repeat split; auto. destruct X as [X|(x & X1 & X2)]; auto. right. exists x. split; [right; auto|auto].
      * destruct IH as [-> IH]. split; auto.
Qed.

Lemma remove_empty_spec : forall live ps, (forall p, In p ps -> pool_ok live p) ->
  match remove_empty ps with
  | (ps', None) => ps' = ps /\ empties live ps <= 1
  | (ps', Some q) => exists r1 r2, ps = r1 ++ q :: r2 /\ ps' = r1 ++ r2 /\ population q live = 0 /\ exists x, In x r1 /\ population x live = 0
  end.
Proof.
  intros live [|p ps] PO; cbn [remove_empty]; [cbn; split; auto; lia|].
  assert (Pp : pool_ok live p) by (apply PO; left; auto). pose proof (pool_count _ _ Pp) as PC. pose proof (population_nonneg p live).
  pose proof (remove_loop_spec live (negb (0 <? alloc_count p)) ps (fun x H => PO x (or_intror H))) as R.
  change (p :: ps) with ([] ++ p :: ps). rewrite empties_mid. cbn [app].
  destruct (remove_loop (negb (0 <? alloc_count p)) ps) as [r' [q|]].
  - destruct R as (r1 & r2 & -> & -> & Q & X). exists (p :: r1), r2. repeat split; auto. destruct X as [X|(x & X1 & X2)]; [exists p; split; [left; auto|lia]|exists x; split; [right; auto|auto]].
  - destruct R as [-> R]. split; auto. destruct (population p live =? 0) eqn:E; destruct (negb (0 <? alloc_count p)) eqn:E2; lia.
Qed.

Lemma pool_ok_freed : forall l1 b l2 p p', pool_ok (l1 ++ b :: l2) p -> starts_in p b = true ->
  p_addr p' = p_addr p -> p_size p' = p_size p -> p_state p' = p_state p - 1 -> pool_ok (l1 ++ l2) p'.
Proof.
  intros l1 b l2 p p' (act & nxt & ST & A1 & N1 & S1 & AD & AB & POP & LIVE) SI EA ES EST.
  rewrite population_mid, SI in POP. pose proof (population_nonneg p (l1 ++ l2)).
  assert (SE : forall c, starts_in p' c = starts_in p c) by (intros c; unfold starts_in; rewrite EA, ES; auto).
  assert (PE : population p' (l1 ++ l2) = population p (l1 ++ l2)).
  { unfold population. rewrite (filter_ext _ _ SE). auto. }
  exists (act - 1), nxt. rewrite EA, ES, EST, PE. repeat split; try lia.
  intros c Hc Sc. rewrite SE in Sc. apply LIVE; auto. apply in_mid. auto.
Qed.

Lemma free_inv : forall a l1 b l2 a' q, inv {| w_alloc := a; w_live := l1 ++ b :: l2 |} -> free a (b_ptr b) = (a', q) ->
  inv {| w_alloc := a'; w_live := l1 ++ l2 |} /\
  match q with
  | None => map p_addr (a_pools a') = map p_addr (a_pools a)
  | Some r => In (p_addr r) (map p_addr (a_pools a)) /\ (forall c, In c (l1 ++ l2) -> starts_in r c = false) /\
              exists x, In x (a_pools a') /\ population x (l1 ++ l2) = 0
  end.
Proof.
  intros a l1 b l2 a' q (I0 & I1 & I2 & I3 & IE & I4) E. cbn [w_alloc w_live a_pools a_new_size] in *.
  destruct (I4 b (proj2 (in_mid _ _ _ _) (or_introl eq_refl))) as (Sb & Ab & p & Hp & IB). apply in_split in Hp. destruct Hp as (q1 & q2 & EP). rewrite EP in *.
  assert (Pp : pool_ok (l1 ++ b :: l2) p) by (apply I2, in_mid; auto).
  pose proof I1 as I1'. apply (fop_mid _ region_sym) in I1'. destruct I1' as (J1 & J2).
  destruct (free_walk_owner (l1 ++ b :: l2) q1 p q2 b) as (p' & EW & PA & PS & PST & P1); auto; [apply in_mid; auto|intros; apply J2, in_app_iff; auto|].
  assert (SI : starts_in p b = true) by (unfold starts_in, inside in *; lia).
  assert (OTH : forall x, In x (q1 ++ q2) -> starts_in x b = false).
  { intros x Hx. eapply not_in_other; eauto; [lia|]. eapply pool_ok_pos, I2, in_mid. eauto. }
  assert (Pp' : pool_ok (l1 ++ l2) p') by (eapply pool_ok_freed; eauto).
  assert (K1 : ForallOrdPairs region_disj (q1 ++ p' :: q2)). { apply (fop_mid _ region_sym). split; auto. intros y Hy. specialize (J2 y Hy). unfold region_disj in *. rewrite PA, PS. auto. }
  assert (K2 : forall x, In x (q1 ++ p' :: q2) -> pool_ok (l1 ++ l2) x).
  { intros x Hx. apply in_mid in Hx. destruct Hx as [->|Hx]; auto. eapply pool_ok_del; [apply OTH; auto|apply I2, in_mid; auto]. }
  assert (K3 : ForallOrdPairs disjoint (l1 ++ l2)) by (apply (fop_mid _ disjoint_sym) in I3; tauto).
  assert (K4 : forall c, In c (l1 ++ l2) -> 2 <= b_size c /\ b_ptr c mod b_align c = 0 /\ exists x, In x (q1 ++ p' :: q2) /\ inside x c).
  { intros c Hc. destruct (I4 c (proj2 (in_mid _ _ _ _) (or_intror Hc))) as (X1 & X2 & x & Hx & IX). split; auto. split; auto.
    apply in_mid in Hx. destruct Hx as [->|Hx]; [exists p'; split; [apply in_mid; auto|unfold inside in *; rewrite PA, PS; auto]|exists x; split; [apply in_mid; auto|auto]]. }
  assert (PE : population p' (l1 ++ l2) = population p (l1 ++ b :: l2) - 1).
  { rewrite population_mid, SI. assert (X : population p' (l1 ++ l2) = population p (l1 ++ l2)); [|lia]. unfold population, starts_in. rewrite PA, PS. auto. }
  assert (KE : empties (l1 ++ l2) (q1 ++ q2) = empties (l1 ++ b :: l2) (q1 ++ q2)).
  { apply empties_ext. intros x Hx. rewrite population_mid, OTH by auto. lia. }
  rewrite empties_mid in IE.
  unfold free in E. rewrite EP, EW in E.
  assert (MP : map p_addr (q1 ++ p' :: q2) = map p_addr (q1 ++ p :: q2)) by (rewrite !map_app; cbn [map]; rewrite PA; auto).
  destruct (Z.eq_dec (population p (l1 ++ b :: l2) - 1) 0) as [e|NZ].
  - rewrite e in E. pose proof (remove_empty_spec (l1 ++ l2) (q1 ++ p' :: q2) K2) as R. destruct (remove_empty (q1 ++ p' :: q2)) as [ps [r|]]; injection E as <- <-.
    + destruct R as (r1 & r2 & ER & -> & QZ & x & Hx & XZ). rewrite ER in K1, K2, K4. split.
      * split; [auto|]. split; [|split; [|split; [|split]]]; cbn [w_alloc w_live a_pools].
        -- apply (fop_mid _ region_sym) in K1. tauto.
        -- intros y Hy. apply K2, in_mid. auto.
        -- auto.
        -- assert (X : empties (l1 ++ l2) (q1 ++ p' :: q2) = empties (l1 ++ l2) (r1 ++ r :: r2)) by (rewrite ER; auto). rewrite !empties_mid in X.
           rewrite KE in X. replace (population r (l1 ++ l2) =? 0) with true in X by lia. pose proof (empties_nonneg (l1 ++ b :: l2) (q1 ++ q2)). destruct (population p' (l1 ++ l2) =? 0); destruct (population p (l1 ++ b :: l2) =? 0); lia.
        -- intros c Hc. destruct (K4 c Hc) as (X1 & X2 & y & Hy & IY). split; auto. split; auto. exists y. split; auto. apply in_mid in Hy. destruct Hy as [->|Hy]; auto.
           exfalso. rewrite population_zero in QZ. specialize (QZ c Hc). unfold starts_in, inside in *. lia.
      * cbn [a_pools]. split; [|split; [apply population_zero; auto|exists x; split; auto; apply in_app_iff; auto]].
        rewrite <- MP, ER. apply in_map, in_mid. auto.
    + destruct R as [-> RE]. split; [|cbn; auto]. split; auto.
  - assert (NM : match population p (l1 ++ b :: l2) - 1 with 0 => remove_empty (q1 ++ p' :: q2) | _ => (q1 ++ p' :: q2, None) end = (q1 ++ p' :: q2, None)).
    { destruct (population p (l1 ++ b :: l2) - 1); auto. congruence. }
    rewrite NM in E. injection E as <- <-. split; [|cbn; auto]. split; auto. cbn [w_alloc w_live a_pools].
    split; auto. split; auto. split; auto. split; [|exact K4]. rewrite empties_mid, KE. destruct (population p' (l1 ++ l2) =? 0) eqn:X; destruct (population p (l1 ++ b :: l2) =? 0); lia.
Qed.

Lemma step_inv : forall w q w', inv w -> wstep w q w' -> inv w'.
Proof.
  intros w q w' I S. destruct S.
  - eapply alloc_inv; eauto.
  - eapply free_inv; eauto.
  - destruct I as (I0 & I). split; [|exact I]. cbn. unfold u32. rewrite Z.mod_small; lia.
Qed.
Lemma history_inv : forall w, history w -> inv w.
Proof.
  intros w H. induction H as [|w q w' H IH S]; [|eapply step_inv; eauto].
  split; [cbn; lia|]. cbn [w_alloc w_live a_pools world0 allocator0]. split; [constructor|]. split; [intros ? []|]. split; [constructor|]. split; [cbn; lia|intros ? []].
Qed.

(** ** C21 *)

(** After every history: live blocks are pairwise disjoint, aligned, inside the payload
    of a pool the allocator owns, and each pool's own count is the number of live blocks
    in it. *)
Theorem C21_live_blocks_disjoint : forall w, history w ->
  ForallOrdPairs disjoint (w_live w) /\
  (forall b, In b (w_live w) -> b_ptr b mod b_align b = 0 /\ exists p, In p (a_pools (w_alloc w)) /\ inside p b) /\
  ForallOrdPairs region_disj (a_pools (w_alloc w)) /\
  (forall p, In p (a_pools (w_alloc w)) -> alloc_count p = population p (w_live w)).
Proof.
  intros w H. destruct (history_inv w H) as (I0 & I1 & I2 & I3 & IE & I4). split; [auto|]. split; [|split; [auto|intros p Hp; apply pool_count; auto]].
  intros b Hb. apply (I4 b Hb).
Qed.
Print Assumptions C21_live_blocks_disjoint.

(** A legal request fails only when malloc does; the block it returns is new. *)
Theorem C21_alloc_succeeds : forall w size align fresh r a', history w -> legal (w_alloc w) size align -> malloc_ok (w_alloc w) fresh ->
  alloc (w_alloc w) size align fresh = (r, a') ->
  match r with
  | None => fresh = None
  | Some ptr => ptr mod align = 0 /\ (forall b, In b (w_live w) -> disjoint {| b_ptr := ptr; b_size := size; b_align := align |} b) /\
                exists p, In p (a_pools a') /\ inside p {| b_ptr := ptr; b_size := size; b_align := align |}
  end.
Proof.
  intros [a live] size align fresh r a' H L M E. cbn [w_alloc w_live] in *. destruct (alloc_inv a live size align fresh r a' (history_inv _ H) L M E) as (I & N).
  destruct r as [ptr|]; [|auto]. destruct I as (_ & _ & _ & D & _ & I4). cbn [w_alloc w_live] in *.
  inversion D as [|? ? F1 F2]; subst. rewrite Forall_forall in F1. destruct (I4 _ (or_introl eq_refl)) as (_ & A & X). auto.
Qed.
Print Assumptions C21_alloc_succeeds.

(** Every pool lies inside the memory malloc returned for it: a pool is created only by an
    allocation, at the address malloc returned, and is no longer than what was asked for. *)
Theorem C21_pool_in_malloc : forall w size align fresh r a', history w -> legal (w_alloc w) size align ->
  alloc (w_alloc w) size align fresh = (r, a') ->
  forall p, In p (a_pools a') ->
    (exists p0, In p0 (a_pools (w_alloc w)) /\ p_addr p = p_addr p0 /\ p_size p = p_size p0) \/
    (fresh = Some (p_addr p) /\ 24 + p_size p <= malloc_size (w_alloc w)).
Proof.
  intros [a live] size align fresh r a' H (Hs & (k & Hk & AK) & L1 & L2) E p Hp. cbn [w_alloc] in *. assert (0 < align) by (subst; apply Z.pow_pos_nonneg; lia). destruct (history_inv _ H) as (I0 & _). cbn in I0.
  assert (TA : forall q s al ptr q', try_alloc q s al = Some (ptr, q') -> p_addr q' = p_addr q /\ p_size q' = p_size q).
  { intros q s al ptr q' X. unfold try_alloc in X. destruct (alloc_round _ _ _ _ _) as [[? ?]|]; [|discriminate]. injection X as _ <-. auto. }
  unfold alloc in E. destruct (alloc_from_pools (a_pools a) size align) as [[ptr ps]|] eqn:AP.
  - injection E as <- <-. destruct (alloc_from_pools_inv _ _ _ _ _ AP) as (q1 & x & q2 & x' & EP & -> & T). cbn [a_pools] in Hp. rewrite EP. apply in_mid in Hp. left. destruct Hp as [->|Hp].
    + exists x. split; [apply in_mid; auto|eauto].
    + exists p. split; [apply in_mid; auto|auto].
  - destruct fresh as [addr|]; [|injection E as <- <-; left; eauto].
    assert (NS : 24 + p_size (new_pool addr (new_pool_size a)) <= malloc_size a).
    { unfold new_pool, new_pool_size, malloc_size, INT32_MAX, HDR, u32. cbn [p_size]. rewrite Z.mod_small by lia. lia. }
    destruct (try_alloc _ size align) as [[ptr np']|] eqn:TE; injection E as <- <-; cbn [a_pools] in Hp; apply in_app_iff in Hp; (destruct Hp as [Hp|[<-|[]]]; [left; eauto|right]).
    + destruct (TA _ _ _ _ _ TE) as [-> ->]. auto.
    + auto.
Qed.
Print Assumptions C21_pool_in_malloc.

(** Outside the legal requests the claim is false. (1) A block of one byte at the end of a
    pool's used part is never released: freeing it changes nothing. *)
Theorem C21_one_byte_block_refuted : exists a ptr, snd (alloc allocator0 8 8 (Some 4096)) = a /\ 
  exists a2, alloc a 1 1 None = (Some ptr, a2) /\ free a2 ptr = (a2, None).
Proof.
  exists (snd (alloc allocator0 8 8 (Some 4096))), 4128. split; [reflexivity|].
  exists (snd (alloc (snd (alloc allocator0 8 8 (Some 4096))) 1 1 None)). split; vm_compute; reflexivity.
Qed.
Print Assumptions C21_one_byte_block_refuted.

(** (2) With a pool size below the pool header (SetMemoryPoolSize accepts any value) the
    block handed out lies outside the memory malloc returned. *)
Theorem C21_small_pool_refuted : exists ptr a', alloc (set_pool_size allocator0 16) 64 16 (Some 4096) = (Some ptr, a') /\
  4096 + malloc_size (set_pool_size allocator0 16) < ptr + 64.
Proof.
  exists 4128, (snd (alloc (set_pool_size allocator0 16) 64 16 (Some 4096))). split; vm_compute; reflexivity.
Qed.
Print Assumptions C21_small_pool_refuted.

(** (3) After a request that does not fit into an empty pool (null is returned), an
    unused pool stays in the list; freeing a block of a later pool corrupts it, and a
    following small request is served outside every pool. *)
Theorem C21_oversized_request_refuted : exists a1 a2 a3 a4 p q ptr,
  alloc (set_pool_size allocator0 100) 1000 8 (Some 4096) = (None, a1) /\
  alloc (set_pool_size a1 65536) 1000 8 (Some 8192) = (Some p, a2) /\
  free a2 p = (a3, q) /\
  alloc a3 8 8 None = (Some ptr, a4) /\
  (forall x, In x (a_pools a4) -> ~ inside x {| b_ptr := ptr; b_size := 8; b_align := 8 |}).
Proof.
  pose (a1 := snd (alloc (set_pool_size allocator0 100) 1000 8 (Some 4096))).
  pose (a2 := snd (alloc (set_pool_size a1 65536) 1000 8 (Some 8192))).
  pose (a3 := fst (free a2 8216)). pose (a4 := snd (alloc a3 8 8 None)).
  exists a1, a2, a3, a4, 8216, (snd (free a2 8216)), (match fst (alloc a3 8 8 None) with Some x => x | None => 0 end).
  split; [vm_compute; reflexivity|]. split; [vm_compute; reflexivity|]. split; [vm_compute; reflexivity|]. split; [vm_compute; reflexivity|].
  assert (F : forallb (fun x => negb ((p_addr x + 24 <=? (match fst (alloc a3 8 8 None) with Some x => x | None => 0 end)) &&
     ((match fst (alloc a3 8 8 None) with Some x => x | None => 0 end) + 8 <=? p_addr x + 24 + p_size x))) (a_pools a4) = true) by (vm_compute; reflexivity).
  rewrite forallb_forall in F. intros x Hx I. specialize (F x Hx). unfold inside in I. cbn [b_ptr b_size] in I. set (v := match fst (alloc a3 8 8 None) with Some x => x | None => 0 end) in *. lia.
Qed.
Print Assumptions C21_oversized_request_refuted.

(** ** C23 *)

(** Whenever a pool is given back to the system no live block starts in it, an empty pool
    is kept, and (by C21) every live block still lies in an owned pool; otherwise the set
    of pools is unchanged by a free. There is never more than one empty pool. *)
Theorem C23_reclaim_only_unused : forall w q w', history w -> wstep w q w' ->
  (forall r, q = Some r -> In (p_addr r) (map p_addr (a_pools (w_alloc w))) /\
     (forall b, In b (w_live w') -> starts_in r b = false) /\
     exists x, In x (a_pools (w_alloc w')) /\ population x (w_live w') = 0) /\
  (forall b, In b (w_live w') -> exists p, In p (a_pools (w_alloc w')) /\ inside p b) /\
  empties (w_live w') (a_pools (w_alloc w')) <= 1.
Proof.
  intros w q w' H S. pose proof (history_inv w H) as I. pose proof (step_inv _ _ _ I S) as (_ & _ & _ & _ & IE & I4).
  split; [|split; [intros b Hb; apply I4; auto|exact IE]].
  intros r ->. inversion S; subst. destruct (free_inv _ _ _ _ _ _ I H0) as (_ & X). exact X.
Qed.
Print Assumptions C23_reclaim_only_unused.

(** a history in which a second pool is created, emptied and given back *)
Example C23_demo : exists w q w', history w /\ wstep w (Some q) w' /\ w_live w' = [].
Proof.
  pose (P1 := fun st => {| p_addr := 4096; p_state := st; p_size := 176 |}). pose (P2 := fun st => {| p_addr := 8192; p_state := st; p_size := 176 |}).
  pose (A := fun ps => {| a_pools := ps; a_new_size := 200 |}).
  pose (full := 429496729601). pose (none := 429496729600).
  pose (B1 := {| b_ptr := 4120; b_size := 100; b_align := 8 |}). pose (B2 := {| b_ptr := 8216; b_size := 100; b_align := 8 |}).
  exists {| w_alloc := A [P1 none; P2 full]; w_live := [] ++ B2 :: [] |}, (P2 none), {| w_alloc := A [P1 none]; w_live := [] ++ [] |}.
  split; [|split; [apply SFree; vm_compute; reflexivity|reflexivity]].
  apply (HStep {| w_alloc := A [P1 full; P2 full]; w_live := [B2] ++ B1 :: [] |} None). 2:{ apply (SFree _ [B2] B1 []). vm_compute. reflexivity. }
  assert (L : legal (A []) 100 8). { split; [lia|]. split; [exists 3; split; [lia|reflexivity]|]. vm_compute. split; discriminate. }
  apply (HStep {| w_alloc := A [P1 full]; w_live := [B1] |} None).
  2:{ apply (SAlloc (A [P1 full]) [B1] 100 8 (Some 8192) (Some 8216)); [exact L| |vm_compute; reflexivity].
    intros addr X. injection X as <-. split; [lia|]. split; [vm_compute; reflexivity|]. cbn [In a_pools A]. intros p [<-|[]]. right. vm_compute. discriminate. }
  apply (HStep {| w_alloc := A []; w_live := [] |} None).
  2:{ apply (SAlloc (A []) [] 100 8 (Some 4096) (Some 4120)); [exact L| |vm_compute; reflexivity].
    intros addr X. injection X as <-. split; [lia|]. split; [vm_compute; reflexivity|]. intros p []. }
  apply (HStep world0 None); [apply HInit|]. apply (SSize allocator0 [] 200). lia.
Qed.
