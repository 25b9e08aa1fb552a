(** C49: GeneratorCache returns what its source would return. *)
From Coq Require Import ZArith List Bool Arith Lia.
From Verif Require Import Prelude Simd_Model Cache_Model.
Import ListNotations.
Local Open Scope nat_scope.

Section Cache.
Context {s : sops} (n : nat).
Notation W := (lanes n).

(** ** Specification *)
Definition at_lane {A} (l : nat) (xs : list (nat -> A)) : list A := map (fun x => x l) xs.
(** [value gs p seed pos v]: without any caching the node p has the value v at this seed and
    position (in one lane). *)
Definition value (gs : graph s scalar) (p : ptr) (seed : Z) (pos : list (V s)) (v : V s) : Prop :=
  exists fuel, Pure (W:=scalar) fuel gs p seed pos = Some v.
(** Node bodies are lane-wise (this is what C51 shows of the code's nodes): lane l of the
    questions and of the result is computed from lane l of the inputs. *)
Inductive prog_at (l : nat) : prog s W -> prog s scalar -> Prop :=
| at_ret : forall (v : F s W) (v' : F s scalar), v l = v' -> prog_at l (Ret v) (Ret v')
| at_ask : forall p (sd : I W) (ps : list (F s W)) k (sd' : I scalar) (ps' : list (F s scalar)) k',
    sd l = sd' -> at_lane l ps = ps' -> (forall (v : F s W) (v' : F s scalar), v l = v' -> prog_at l (k v) (k' v')) ->
    prog_at l (Ask p sd ps k) (Ask p sd' ps' k').
Definition node_at (l : nat) (a : gnode s W) (b : gnode s scalar) : Prop :=
  match a, b with
  | Cached x, Cached y => x = y
  | Plain f, Plain f' => forall (sd : I W) (ps : list (F s W)), prog_at l (f sd ps) (f' (sd l) (at_lane l ps))
  | _, _ => False
  end.
Definition lane_wise (g : graph s W) (gs : graph s scalar) : Prop := forall l p, l < n -> node_at l (g p) (gs p).
(** a node asked by a body, and reachability *)
Inductive asks : prog s W -> ptr -> Prop :=
| asks_now : forall p sd ps k, asks (Ask p sd ps k) p
| asks_later : forall p sd ps k v q, asks (k v) q -> asks (Ask p sd ps k) q.
Inductive reach (g : graph s W) : ptr -> ptr -> Prop :=
| reach_refl : forall p, reach g p p
| reach_plain : forall p body sd ps q r, g p = Plain body -> asks (body sd ps) q -> reach g q r -> reach g p r
| reach_cached : forall p src r, g p = Cached src -> reach g src r -> reach g p r.
(** no cache below a cache *)
Definition cache_free (g : graph s W) (p : ptr) : Prop := forall q src, reach g p q -> g q <> Cached src.
Definition not_nested (g : graph s W) : Prop := forall c src, g c = Cached src -> cache_free g src.
(** a cached node does not tell coordinates apart that compare equal (0 and -0) *)
Definition eq_insensitive (gs : graph s scalar) : Prop := forall c src seed pos pos' v, gs c = Cached src ->
  Forall2 (fun x y => s_eq x y = true) pos pos' -> value gs src seed pos' v -> value gs src seed pos v.

(** ** Pure evaluation *)
Fixpoint prun (f : nat) (gs : graph s scalar) (b : prog s scalar) : option (V s) :=
  match b with
  | Ret v => Some v
  | Ask q sd ps k => match Pure (W:=scalar) f gs q sd ps with Some v => prun f gs (k v) | None => None end
  end.
Lemma Pure_S : forall f (gs : graph s scalar) p seed pos, Pure (W:=scalar) (S f) gs p seed pos =
  match gs p with Plain body => prun f gs (body seed pos) | Cached src => Pure (W:=scalar) f gs src seed pos end.
Proof.
  intros. cbn [Pure]. destruct (gs p) as [body|src]; [|reflexivity]. induction (body seed pos) as [v|q sd ps k IH]; [reflexivity|].
  cbn [prun]. destruct (Pure f gs q sd ps); [apply IH|reflexivity].
Qed.
Lemma Pure_mono : forall f f' (gs : graph s scalar) p seed pos v, f <= f' -> Pure (W:=scalar) f gs p seed pos = Some v -> Pure (W:=scalar) f' gs p seed pos = Some v.
Proof.
  induction f; intros f' gs p seed pos v L H; [discriminate|]. destruct f' as [|f']; [lia|].
  rewrite Pure_S in *. destruct (gs p) as [body|src]; [|apply (IHf f'); [lia|exact H]].
  revert H. induction (body seed pos) as [w|q sd ps k IH]; cbn [prun]; intros H; [exact H|].
  destruct (Pure f gs q sd ps) as [w|] eqn:E; [|discriminate]. rewrite (IHf f' gs q sd ps w) by (auto; lia). apply IH. exact H.
Qed.
Lemma value_det : forall gs p seed pos v v', value gs p seed pos v -> value gs p seed pos v' -> v = v'.
Proof.
  intros gs p seed pos v v' [f H] [f' H'].
  apply (Pure_mono f (f + f')) in H; [|lia]. apply (Pure_mono f' (f + f')) in H'; [|lia]. congruence.
Qed.

(** ** Cached evaluation *)
Fixpoint grun (f : nat) (g : graph s W) (b : prog s W) (t : thread s W) : option (F s W * thread s W) :=
  match b with
  | Ret v => Some (v, t)
  | Ask q sd ps k => match Gen f g q sd ps t with Some (v, t') => grun f g (k v) t' | None => None end
  end.
Lemma Gen_S : forall f (g : graph s W) p seed pos t, Gen (W:=W) (S f) g p seed pos t =
  match g p with
  | Plain body => grun f g (body seed pos) t
  | Cached src =>
      let d := length pos in
      if isSame (t d) src seed pos then Some (CachedValue (t d), t)
      else let t1 := set_tls t d (set_gen (t d) (Some src)) in
           match Gen (W:=W) f g src seed pos t1 with
           | None => None
           | Some (value, t2) => Some (value, set_tls t2 d {| CachedGenerator := CachedGenerator (t2 d); CachedSeed := seed; CachedPos := pos; CachedValue := value |})
           end
  end.
Proof.
  intros. cbn [Gen]. destruct (g p) as [body|src]; [|reflexivity]. revert t. induction (body seed pos) as [v|q sd ps k IH]; intros t; [reflexivity|].
  cbn [grun]. destruct (Gen f g q sd ps t) as [[v t']|]; [apply IH|reflexivity].
Qed.
Lemma prun_mono : forall f f' gs b v, f <= f' -> prun f gs b = Some v -> prun f' gs b = Some v.
Proof.
  intros f f' gs b v L. revert v. induction b as [w|q sd ps k IH]; cbn [prun]; intros v H; [exact H|].
  destruct (Pure f gs q sd ps) as [w|] eqn:E; [|discriminate]. rewrite (Pure_mono f f' gs q sd ps w L E). apply IH. exact H.
Qed.
(** a cache-free node neither reads nor writes the thread state *)
Lemma Gen_cache_free : forall g gs, lane_wise g gs -> forall f p seed pos t v t', cache_free g p ->
  Gen f g p seed pos t = Some (v, t') -> t' = t /\ forall l, l < n -> value gs p (seed l) (at_lane l pos) (v l).
Proof.
  intros g gs Hl. induction f; intros p seed pos t v t' Hc H; [discriminate|].
  rewrite Gen_S in H. destruct (g p) as [body|src] eqn:Ep; [|exfalso; exact (Hc p src (reach_refl g p) Ep)].
  assert (A : forall q, asks (body seed pos) q -> cache_free g q).
  { intros q Hq r src Hr. apply Hc. eapply reach_plain; eauto. }
  assert (K : forall b t v t', (forall q, asks b q -> cache_free g q) -> grun f g b t = Some (v, t') ->
    t' = t /\ forall l b', l < n -> prog_at l b b' -> exists f', prun f' gs b' = Some (v l)).
  { clear - IHf. induction b as [w|q sd ps k IH]; intros t v t' A H; cbn [grun] in H.
    - injection H as -> ->. split; [reflexivity|]. intros l b' Hl P. inversion P; subst. exists O. reflexivity.
    - destruct (Gen f g q sd ps t) as [[w t1]|] eqn:E; [|discriminate].
      destruct (IHf q sd ps t w t1 (A q (asks_now q sd ps k)) E) as [-> Hw].
      destruct (IH w t v t' (fun r Hr => A r (asks_later q sd ps k w r Hr)) H) as [-> Hv]. split; [reflexivity|].
      intros l b' Hl P. inversion P as [|p0 sd0 ps0 k0 sd' ps' k' E1 E2 Hk]; subst. destruct (Hw l Hl) as [f1 H1].
      destruct (Hv l (k' (w l)) Hl (Hk w (w l) eq_refl)) as [f2 H2]. exists (f1 + f2). cbn [prun].
      rewrite (Pure_mono f1 (f1 + f2) gs q _ _ (w l)) by (auto; lia). apply (prun_mono f2); [lia|exact H2]. }
  destruct (K _ _ _ _ A H) as [-> Hv]. split; [reflexivity|]. intros l Hln. specialize (Hl l p Hln). unfold node_at in Hl. rewrite Ep in Hl.
  destruct (gs p) as [body'|] eqn:Es; [|contradiction].
  destruct (Hv l _ Hln (Hl seed pos)) as [f' Hf']. exists (S f'). rewrite Pure_S, Es. exact Hf'.
Qed.

(** ** The invariant of the thread state *)
Definition consistent (gs : graph s scalar) (g : graph s W) (t : thread s W) : Prop := forall d src, CachedGenerator (t d) = Some src ->
  length (CachedPos (t d)) = d /\
  (forall l, l < n -> value gs src (CachedSeed (t d) l) (at_lane l (CachedPos (t d))) (CachedValue (t d) l)).
Lemma any_false : forall (m : M W) l, any m = false -> l < n -> m l = false.
Proof.
  intros m l H Hl. cbn in H. destruct (m l) eqn:E; [|reflexivity]. exfalso.
  assert (existsb m (seq 0 n) = true); [|congruence]. apply existsb_exists. exists l. split; [apply in_seq; lia|exact E].
Qed.
Lemma same_pos_lane : forall l (a b : list (F s W)), l < n -> length a = length b -> same_pos a b = true ->
  Forall2 (fun x y => s_eq x y = true) (at_lane l a) (at_lane l b).
Proof.
  intros l. induction a as [|x a IH]; intros b Hl L H; destruct b as [|y b]; try discriminate; [constructor|].
  cbn [same_pos] in H. apply andb_true_iff in H as [H1 H2]. cbn [at_lane map]. constructor; [|apply IH; auto].
  apply negb_true_iff in H1. apply (any_false _ l) in H1; [|exact Hl]. unfold fne in H1. cbn in H1. apply negb_false_iff in H1. exact H1.
Qed.

Lemma Gen_consistent : forall g gs, lane_wise g gs -> not_nested g -> eq_insensitive gs -> forall f p seed pos t v t', consistent gs g t ->
  Gen f g p seed pos t = Some (v, t') -> consistent gs g t' /\ forall l, l < n -> value gs p (seed l) (at_lane l pos) (v l).
Proof.
  intros g gs Hl Hn He. induction f; intros p seed pos t v t' Hc H; [discriminate|].
  rewrite Gen_S in H. destruct (g p) as [body|src] eqn:Ep.
  - assert (K : forall b t v t', consistent gs g t -> grun f g b t = Some (v, t') ->
      consistent gs g t' /\ forall l b', l < n -> prog_at l b b' -> exists f', prun f' gs b' = Some (v l)).
    { clear - IHf. induction b as [w|q sd ps k IH]; intros t v t' A H; cbn [grun] in H.
      - injection H as -> ->. split; [exact A|]. intros l b' Hl P. inversion P; subst. exists O. reflexivity.
      - destruct (Gen f g q sd ps t) as [[w t1]|] eqn:E; [|discriminate].
        destruct (IHf q sd ps t w t1 A E) as [A1 Hw]. destruct (IH w t1 v t' A1 H) as [A2 Hv]. split; [exact A2|].
        intros l b' Hl P. inversion P as [|p0 sd0 ps0 k0 sd' ps' k' E1 E2 Hk]; subst. destruct (Hw l Hl) as [f1 H1].
        destruct (Hv l (k' (w l)) Hl (Hk w (w l) eq_refl)) as [f2 H2]. exists (f1 + f2). cbn [prun].
        rewrite (Pure_mono f1 (f1 + f2) gs q _ _ (w l)) by (auto; lia). apply (prun_mono f2); [lia|exact H2]. }
    destruct (K _ _ _ _ Hc H) as [A Hv]. split; [exact A|]. intros l Hln. specialize (Hl l p Hln). unfold node_at in Hl. rewrite Ep in Hl.
    destruct (gs p) as [body'|] eqn:Es; [|contradiction].
    destruct (Hv l _ Hln (Hl seed pos)) as [f' Hf']. exists (S f'). rewrite Pure_S, Es. exact Hf'.
  - cbv zeta in H. set (d := length pos) in *.
    assert (C : forall l, l < n -> gs p = Cached src).
    { intros l Hln. specialize (Hl l p Hln). unfold node_at in Hl. rewrite Ep in Hl. destruct (gs p) as [|y]; [contradiction|]. rewrite Hl. reflexivity. }
    assert (U : forall sd ps w, gs p = Cached src -> value gs src sd ps w -> value gs p sd ps w).
    { intros sd ps w E [f' Hf']. exists (S f'). rewrite Pure_S, E. exact Hf'. }
    destruct (isSame (t d) src seed pos) eqn:Es.
    + injection H as <- <-. split; [exact Hc|]. intros l Hln. apply (U _ _ _ (C l Hln)).
      unfold isSame in Es. apply andb_true_iff in Es as [Es E3]. apply andb_true_iff in Es as [E1 E2].
      unfold is_ptr in E1. destruct (CachedGenerator (t d)) as [q|] eqn:Eg; [|discriminate]. apply Nat.eqb_eq in E1. subst q.
      destruct (Hc d src Eg) as [L Hv].
      apply negb_true_iff in E2. apply (any_false _ l) in E2; [|exact Hln]. unfold ine in E2. cbn in E2. apply negb_false_iff, Z.eqb_eq in E2.
      eapply (He p src _ _ (at_lane l (CachedPos (t d)))); [exact (C l Hln)|apply same_pos_lane; auto|].
      rewrite E2. apply Hv. exact Hln.
    + destruct (Gen f g src seed pos (set_tls t d (set_gen (t d) (Some src)))) as [[w t2]|] eqn:E; [|discriminate]. injection H as <- <-.
      destruct (Gen_cache_free g gs Hl f src seed pos _ w t2 (Hn p src Ep) E) as [-> Hv]. split; [|intros l Hln; apply (U _ _ _ (C l Hln)); auto].
      intros d' src' Eg. unfold set_tls in *. rewrite Nat.eqb_refl in *. destruct (Nat.eqb d' d) eqn:Ed.
      * apply Nat.eqb_eq in Ed. subst d'. cbn in *. injection Eg as <-. split; [reflexivity|exact Hv].
      * apply Hc. exact Eg.
Qed.

(** For every sequence of queries on a thread, every answer is the uncached value in every lane. *)
Theorem C49_cache_transparent : forall g gs fuel qs t vs t',
  lane_wise g gs -> not_nested g -> eq_insensitive gs -> thread_start t ->
  queries fuel g qs t = Some (vs, t') ->
  Forall2 (fun '(p, seed, pos) v => forall l, l < n -> value gs p (seed l) (at_lane l pos) (v l)) qs vs.
Proof.
  intros g gs fuel qs t vs t' Hl Hn He Hs. assert (Hc : consistent gs g t) by (intros d src E; rewrite Hs in E; discriminate). clear Hs.
  revert t vs Hc. induction qs as [|[[p sd] ps] qs IH]; intros t vs Hc H; cbn [queries] in H; [injection H as <- <-; constructor|].
  destruct (Gen fuel g p sd ps t) as [[v t1]|] eqn:E; [|discriminate].
  destruct (queries fuel g qs t1) as [[vs1 t2]|] eqn:E2; [|discriminate]. injection H as <- <-.
  destruct (Gen_consistent g gs Hl Hn He fuel p sd ps t v t1 Hc E) as [Hc1 Hv].
  constructor; [exact Hv|]. apply (IH t1); assumption.
Qed.
(** No query fails: in an acyclic graph the depth is enough fuel. *)
Definition ranked (g : graph s W) (rank : ptr -> nat) : Prop := forall p,
  match g p with
  | Plain body => forall sd ps q, asks (body sd ps) q -> rank q < rank p
  | Cached src => rank src < rank p
  end.
Lemma Gen_total : forall g rank, ranked g rank -> forall fuel p seed pos t, rank p < fuel -> Gen fuel g p seed pos t <> None.
Proof.
  intros g rank Hr. induction fuel; intros p seed pos t L; [lia|]. rewrite Gen_S. specialize (Hr p). destruct (g p) as [body|src].
  - assert (A : forall q, asks (body seed pos) q -> rank q < fuel) by (intros q Hq; specialize (Hr seed pos q Hq); lia).
    clear - A IHfuel. revert t. induction (body seed pos) as [v|q sd ps k IH]; intros t; cbn [grun]; [discriminate|].
    destruct (Gen fuel g q sd ps t) as [[w t1]|] eqn:E; [|exfalso; exact (IHfuel q sd ps t (A q (asks_now q sd ps k)) E)].
    apply IH. intros r H. apply A. eapply asks_later. exact H.
  - cbv zeta. destruct (isSame _ _ _ _); [discriminate|].
    match goal with |- context [Gen fuel g src seed pos ?x] => pose proof (IHfuel src seed pos x ltac:(lia)) as N; destruct (Gen fuel g src seed pos x) as [[w t2]|] end; [discriminate|].
    exfalso. apply N. reflexivity.
Qed.
Theorem C49_no_failure : forall g rank qs fuel t, ranked g rank -> (forall q, In q qs -> rank (fst (fst q)) < fuel) ->
  queries fuel g qs t <> None.
Proof.
  intros g rank qs fuel t Hr. revert t. induction qs as [|[[p sd] ps] qs IH]; intros t H; cbn [queries]; [discriminate|].
  pose proof (Gen_total g rank Hr fuel p sd ps t (H _ (or_introl eq_refl))) as N.
  destruct (Gen fuel g p sd ps t) as [[v t1]|]; [|congruence].
  specialize (IH t1 (fun q Hq => H q (or_intror Hq))). destruct (queries fuel g qs t1) as [[vs t2]|]; [discriminate|congruence].
Qed.
End Cache.

(** ** Counterexamples in binary32, four lanes *)
From Verif Require Import Utils_Model Nodes_Model Simd_F32.
Local Open Scope nat_scope.
Section Refute.
Variables (fsin_ fcos_ : f32 -> f32) (fpow_ ffmod_ : f32 -> f32 -> f32).
Notation S32 := (F32ops fsin_ fcos_ fpow_ ffmod_).
Notation W4 := (lanes 4).
Definition one {W : simd} : F S32 W := num 1.
Definition start : thread S32 W4 := fun _ => {| CachedGenerator := None; CachedSeed := iv 0; CachedPos := []; CachedValue := num 0 |}.
(** Constant, Add and Subtract nodes as programs *)
Definition constant_node {W : simd} (c : V S32) : gnode S32 W := Plain (fun sd ps => Ret (fv c)).
Definition add_node {W : simd} (lhs : ptr) (rhs : V S32) : gnode S32 W := Plain (fun sd ps => Ask lhs sd ps (fun a => Ret (fadd a (fv rhs)))).
Definition subtract_node {W : simd} (lhs rhs : ptr) : gnode S32 W := Plain (fun sd ps => Ask lhs sd ps (fun a => Ask rhs sd ps (fun b => Ret (fsub a b)))).
(** the graph: 0 = Constant 1, 1 = Cache( 0 ), 2 = 1 + 1, 3 = Cache( 2 ), 4 = 3 - 1 *)
Definition nested {W : simd} : graph S32 W := fun p =>
  match p with
  | 0 => constant_node (lit 1 0)
  | 1 => Cached 0
  | 2 => add_node 1 (lit 1 0)
  | 3 => Cached 2
  | _ => subtract_node 3 1
  end.
(** A cache below a cache: the graph Cache( Cache( c ) + 1 ) - Cache( c ) has the value 1 but evaluates to 0: the outer cache
    leaves its value under the inner cache's source. *)
Definition bits_of {T} (r : option (F S32 W4 * T)) : list Z := match r with Some (v, _) => map (fun l => f_bits (v l)) [0; 1; 2; 3] | None => [] end.
Definition bits_s (r : option (F S32 scalar)) : list Z := match r with Some v => [f_bits v] | None => [] end.
Definition bit1 : Z := 0x3F800000. (* 1.0f *)
Definition bit2 : Z := 0x40000000. (* 2.0f *)
Theorem C49_nested_refuted : exists v t' w, Gen 10 nested 4 (iv 0) [num 0; num 0] start = Some (v, t') /\
  value (s:=S32) nested 4 0%Z ([lit 0 0; lit 0 0] : list (V S32)) w /\ f_bits w = bit1 /\ (forall l, l < 4 -> f_bits (v l) = 0%Z).
Proof.
  assert (H : bits_of (Gen 10 nested 4 (iv 0) [num 0; num 0] start) = [0; 0; 0; 0]%Z) by (vm_compute; reflexivity).
  assert (K : bits_s (Pure (s:=S32) (W:=scalar) 10 nested 4 0%Z ([lit 0 0; lit 0 0] : list (V S32))) = [bit1]) by (vm_compute; reflexivity).
  destruct (Gen 10 nested 4 (iv 0) [num 0; num 0] start) as [[v t']|]; [|discriminate H].
  destruct (Pure (s:=S32) (W:=scalar) 10 nested 4 0%Z ([lit 0 0; lit 0 0] : list (V S32))) as [w|] eqn:E; [|discriminate K].
  exists v, t', w. split; [reflexivity|]. split; [exists 10; exact E|]. cbn [bits_of bits_s map] in H, K.
  injection K as ->. injection H as H0 H1 H2 H3. split; [reflexivity|].
  intros l Hl. destruct l as [|[|[|[|l]]]]; [assumption..|lia].
Qed.
(** A node changed between two queries: the second answer is the value before the change. [p = 0] is a Constant node whose
    value is set from 1 to 2. *)
Definition const_graph (c : V S32) {W : simd} : graph S32 W := fun p => match p with 0 => constant_node c | _ => Cached 0 end.
Definition twice (g1 g2 : graph S32 W4) (p : ptr) (pos1 pos2 : list (F S32 W4)) : option (F S32 W4 * (F S32 W4 * thread S32 W4 * thread S32 W4)) :=
  match Gen 10 g1 p (iv 0) pos1 start with
  | Some (v, t) => match Gen 10 g2 p (iv 0) pos2 t with Some (v2, t2) => Some (v2, (v, t, t2)) | None => None end
  | None => None
  end.
Theorem C49_stale_refuted : exists v t v2 t2 w, Gen 10 (const_graph (lit 1 0)) 1 (iv 0) [num 0; num 0] start = Some (v, t) /\
  Gen 10 (const_graph (lit 2 0)) 1 (iv 0) [num 0; num 0] t = Some (v2, t2) /\
  value (s:=S32) (const_graph (lit 2 0)) 1 0%Z ([lit 0 0; lit 0 0] : list (V S32)) w /\ f_bits w = bit2 /\ f_bits (v2 0) = bit1.
Proof.
  assert (H : bits_of (twice (const_graph (lit 1 0)) (const_graph (lit 2 0)) 1 [num 0; num 0] [num 0; num 0]) = [bit1; bit1; bit1; bit1]) by (vm_compute; reflexivity).
  assert (K : bits_s (Pure (s:=S32) (W:=scalar) 10 (const_graph (lit 2 0)) 1 0%Z ([lit 0 0; lit 0 0] : list (V S32))) = [bit2]) by (vm_compute; reflexivity).
  unfold twice in H. destruct (Gen 10 (const_graph (lit 1 0)) 1 (iv 0) [num 0; num 0] start) as [[v t]|] eqn:E1; [|discriminate H].
  destruct (Gen 10 (const_graph (lit 2 0)) 1 (iv 0) [num 0; num 0] t) as [[v2 t2]|] eqn:E2; [|discriminate H].
  destruct (Pure (s:=S32) (W:=scalar) 10 (const_graph (lit 2 0)) 1 0%Z ([lit 0 0; lit 0 0] : list (V S32))) as [w|] eqn:E; [|discriminate K].
  exists v, t, v2, t2, w. cbn [bits_of bits_s map] in H, K. injection K as Kw. injection H as H0 _ _ _.
  split; [reflexivity|]. split; [exact E2|]. split; [exists 10; exact E|]. split; assumption.
Qed.
(** 0 and -0 compare equal but White distinguishes them: the second answer is that of the first query. *)
Definition white_graph {W : simd} : graph S32 W := fun p =>
  match p with 0 => Plain (fun sd ps => Ret (WhiteGen 0 {| rMin := lit (-1) 0; rScale := lit 2 0 |} sd ps)) | _ => Cached 0 end.
Definition mzero {W : simd} : F S32 W := fv (s:=S32) (f_neg (f_lit 0 0)).
Theorem C49_signed_zero_refuted : exists v t v2 t2 w, Gen 10 white_graph 1 (iv 0) [num 0; num 0] start = Some (v, t) /\
  Gen 10 white_graph 1 (iv 0) [mzero; num 0] t = Some (v2, t2) /\
  value (s:=S32) white_graph 1 0%Z [s_neg (s:=S32) (lit 0 0); lit (s:=S32) 0 0] w /\ f_bits (v2 0) <> f_bits w.
Proof.
  assert (H : exists b, bits_of (twice white_graph white_graph 1 [num 0; num 0] [mzero; num 0]) = [b; b; b; b] /\
     bits_s (Pure (s:=S32) (W:=scalar) 10 white_graph 1 0%Z [s_neg (s:=S32) (lit 0 0); lit (s:=S32) 0 0]) <> [b] /\ bits_s (Pure (s:=S32) (W:=scalar) 10 white_graph 1 0%Z [s_neg (s:=S32) (lit 0 0); lit (s:=S32) 0 0]) <> [])
    by (eexists; split; [vm_compute; reflexivity|split; vm_compute; intros X; discriminate X]).
  destruct H as (b & H & K & K').
  unfold twice in H. destruct (Gen 10 white_graph 1 (iv 0) [num 0; num 0] start) as [[v t]|] eqn:E1; [|discriminate H].
  destruct (Gen 10 white_graph 1 (iv 0) [mzero; num 0] t) as [[v2 t2]|] eqn:E2; [|discriminate H].
  destruct (Pure (s:=S32) (W:=scalar) 10 white_graph 1 0%Z [s_neg (s:=S32) (lit 0 0); lit (s:=S32) 0 0]) as [w|] eqn:E; [|exfalso; apply K'; reflexivity].
  exists v, t, v2, t2, w. cbn [bits_of bits_s map] in H, K. injection H as H0 _ _ _.
  split; [reflexivity|]. split; [exact E2|]. split; [exists 10; exact E|]. intros X. apply K. rewrite <- X, H0. reflexivity.
Qed.
(** The hypotheses of C49_cache_transparent hold of a graph with two caches: Cache( c1 ) - Cache( c1 + 1 ). *)
Definition flat {W : simd} : graph S32 W := fun p =>
  match p with
  | 0 => constant_node (lit 1 0)
  | 1 => Cached 0
  | 2 => add_node 0 (lit 1 0)
  | 3 => Cached 2
  | _ => subtract_node 1 3
  end.
Example C49_case : forall n, lane_wise (s:=S32) n flat flat /\ not_nested (s:=S32) n flat /\ eq_insensitive (s:=S32) flat.
Proof.
  intros n. split; [|split].
  - intros l p Hl. destruct p as [|[|[|[|p]]]]; cbn; try reflexivity; intros; repeat (constructor; intros; auto); subst; reflexivity.
  - assert (R0 : forall q, reach n (flat (W:=lanes n)) 0 q -> q = 0).
    { intros q H. inversion H as [|p body sd ps q' r E1 A Hr|p src r E1 Hr]; subst; [reflexivity|injection E1 as <-; inversion A|discriminate]. }
    assert (R2 : forall q, reach n (flat (W:=lanes n)) 2 q -> q = 0 \/ q = 2).
    { intros q H. inversion H as [|p body sd ps q' r E1 A Hr|p src r E1 Hr]; subst; [right; reflexivity| |discriminate].
      injection E1 as <-. inversion A as [|p0 sd0 ps0 k0 v0 q0 A']; subst; [left; apply R0; exact Hr|inversion A']. }
    intros c src E q src' Hq. destruct c as [|[|[|[|c]]]]; try discriminate; injection E as <-.
    + rewrite (R0 q Hq). discriminate.
    + destruct (R2 q Hq) as [-> | ->]; discriminate.
  - intros c src seed pos pos' v E F2 [f H]. exists f. destruct c as [|[|[|[|c]]]]; try discriminate; injection E as <-;
      (destruct f as [|[|f]]; [discriminate| |]; exact H).
Qed.
End Refute.
Print Assumptions C49_cache_transparent.
Print Assumptions C49_no_failure.
Print Assumptions C49_nested_refuted.
Print Assumptions C49_stale_refuted.
Print Assumptions C49_signed_zero_refuted.
