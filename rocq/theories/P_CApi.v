(** Properties C16 (metadata queries of the C API) and C17 (setters of the C API). *)
From Coq Require Import String.
From Coq Require Import ZArith List Bool Lia ZifyBool ZifyNat.
From Verif Require Import Prelude Registry_Model MetaVector_Model NodeTree_Model NodeTree_Spec P_Registry CApi_Model.
Import ListNotations.
Open Scope Z_scope.
Ltac Zify.zify_post_hook ::= Z.div_mod_to_equations.

Definition is_int (i : Z) : Prop := -2^31 <= i < 2^31.

(** ** C16: what the documentation of the queries promises, for declared types [ds] *)
Section Expected.
  Variable ds : list tdecl.
  Variable at_ : attrs.

  (** element of a declared list at an int position *)
  Definition elem {A} (l : list A) (i : Z) : option A := if (0 <=? i) && (i <? Z.of_nat (length l)) then nth_error l (Z.to_nat i) else None.
  Definition of_type (d : option tdecl) (err : answer) (f : tdecl -> answer) : answer := match d with Some d => f d | None => err end.
  Definition of_elem {A} (x : option A) (err : answer) (f : A -> answer) : answer := match x with Some x => f x | None => err end.

  (** expected answer when the id is looked up with [ty] *)
  Definition expected (ty : Z -> option tdecl) (q : query) : answer :=
    let var id i eid ei f := of_type (ty id) eid (fun d => of_elem (elem (vars_of (d_items d)) i) ei f) in
    let lk id i eid ei f := of_type (ty id) eid (fun d => of_elem (elem (lookups_of (d_items d)) i) ei f) in
    let hy id i eid ei f := of_type (ty id) eid (fun d => of_elem (elem (hybrids_of (d_items d)) i) ei f) in
    let len {A} (l : list A) := AInt (Z.of_nat (length l)) in
    match q with
    | QCount => len ds
    | QName id => of_type (ty id) (AStr "INVALID NODE ID") (fun d => AStr (d_name d))
    | QDescription id => of_type (ty id) (AStr "INVALID NODE ID") (fun d => AStr (a_desc at_ (d_name d)))
    | QGroupCount id => of_type (ty id) (AInt (-1)) (fun d => len (groups_of (d_items d)))
    | QGroupName id i => of_type (ty id) (AStr "INVALID NODE ID") (fun d => of_elem (elem (groups_of (d_items d)) i) (AStr "INVALID GROUP INDEX") AStr)
    | QVarCount id => of_type (ty id) (AInt (-1)) (fun d => len (vars_of (d_items d)))
    | QVarName id i => var id i (AStr "INVALID NODE ID") (AStr "INVALID VARIABLE INDEX") (fun v => AStr (v_name (fst v)))
    | QVarDescription id i => var id i (AStr "INVALID NODE ID") (AStr "INVALID VARIABLE INDEX") (fun v => AStr (a_vdesc at_ (fst v)))
    | QVarType id i => var id i (AInt (-1)) (AInt (-1)) (fun v => AInt (match v_kind (fst v) with KFloat => 0 | KInt => 1 | KEnum _ => 2 end))
    | QVarDim id i => var id i (AInt (-1)) (AInt (-1)) (fun v => AInt (v_dim (fst v)))
    | QVarDefault id i => var id i (AInt 0) (AInt 0) (fun v => AInt (v_default (fst v)))
    | QVarMin id i => var id i (AInt 0) (AInt 0) (fun v => AInt (a_vmin at_ (fst v)))
    | QVarMax id i => var id i (AInt 0) (AInt 0) (fun v => AInt (a_vmax at_ (fst v)))
    | QEnumCount id i => var id i (AInt (-1)) (AInt (-1)) (fun v => len (snd v))
    | QEnumName id i e => var id i (AStr "INVALID NODE ID") (AStr "INVALID VARIABLE INDEX") (fun v => of_elem (elem (snd v) e) (AStr "INVALID ENUM INDEX") AStr)
    | QLookupCount id => of_type (ty id) (AInt (-1)) (fun d => len (lookups_of (d_items d)))
    | QLookupName id i => lk id i (AStr "INVALID NODE ID") (AStr "INVALID NODE LOOKUP INDEX") (fun l => AStr (l_name l))
    | QLookupDescription id i => lk id i (AStr "INVALID NODE ID") (AStr "INVALID NODE LOOKUP INDEX") (fun l => AStr (a_ldesc at_ l))
    | QLookupDim id i => lk id i (AInt (-1)) (AInt (-1)) (fun _ => AInt (-1))
    | QHybridCount id => of_type (ty id) (AInt (-1)) (fun d => len (hybrids_of (d_items d)))
    | QHybridName id i => hy id i (AStr "INVALID NODE ID") (AStr "INVALID HYBRID INDEX") (fun h => AStr (h_name h))
    | QHybridDescription id i => hy id i (AStr "INVALID NODE ID") (AStr "INVALID HYBRID INDEX") (fun h => AStr (a_hdesc at_ h))
    | QHybridDim id i => hy id i (AInt (-1)) (AInt (-1)) (fun h => AInt (h_dim h))
    | QHybridDefault id i => hy id i (AInt 0) (AInt 0) (fun h => AInt (h_default h))
    end.
End Expected.

(** the int arguments of a query: the node id and the member indices *)
Definition q_id (q : query) : list Z :=
  match q with
  | QCount => []
  | QName id | QDescription id | QGroupCount id | QVarCount id | QLookupCount id | QHybridCount id => [id]
  | QGroupName id _ | QVarName id _ | QVarDescription id _ | QVarType id _ | QVarDim id _ | QVarDefault id _ | QVarMin id _ | QVarMax id _ | QEnumCount id _ | QEnumName id _ _
  | QLookupName id _ | QLookupDescription id _ | QLookupDim id _ | QHybridName id _ | QHybridDescription id _ | QHybridDim id _ | QHybridDefault id _ => [id]
  end.
Definition q_idx (q : query) : list Z :=
  match q with
  | QCount | QName _ | QDescription _ | QGroupCount _ | QVarCount _ | QLookupCount _ | QHybridCount _ => []
  | QGroupName _ i | QVarName _ i | QVarDescription _ i | QVarType _ i | QVarDim _ i | QVarDefault _ i | QVarMin _ i | QVarMax _ i | QEnumCount _ i
  | QLookupName _ i | QLookupDescription _ i | QLookupDim _ i | QHybridName _ i | QHybridDescription _ i | QHybridDim _ i | QHybridDefault _ i => [i]
  | QEnumName _ i e => [i; e]
  end.

Lemma elem_ok : forall A (l : list A) i, elem l i = if 0 <=? i then nth_error l (Z.to_nat i) else None.
Proof.
  intros. unfold elem. destruct (Z.leb_spec 0 i); auto. cbn [andb]. destruct (Z.ltb_spec i (Z.of_nat (length l))); auto. symmetry. apply nth_error_None. lia.
Qed.

Lemma holds_size : forall A (tbl : list A) v xs, holds tbl v xs -> vsize v = Z.of_nat (length xs) \/ 2^64 <= Z.of_nat (length xs).
Proof.
  intros A tbl v xs [(-> & ->)|(Hx & pre & post & -> & H1 & H2)]; [left; reflexivity|]. unfold vsize. rewrite H1, H2.
  destruct (Z.le_gt_cases (2^64) (Z.of_nat (length xs))); [right; auto|left]. unfold u64. rewrite Z.mod_small; lia.
Qed.

Lemma member_ok : forall A (tbl : list A) v xs i err (f : A -> res answer) g, holds tbl v xs -> (length xs <= 255)%nat -> is_int i ->
  (forall x, In x xs -> f x = Ok (g x)) -> with_member tbl v i err f = Ok (of_elem (elem xs i) err g).
Proof.
  intros A tbl v xs i err f g H HL HI HF. unfold with_member. destruct (holds_size _ _ _ _ H) as [E|E]; [|lia]. rewrite E. rewrite elem_ok. unfold is_int in HI.
  assert (U : u64 i = if 0 <=? i then i else i + 2^64) by (unfold u64; destruct (Z.leb_spec 0 i); [apply Z.mod_small; lia|symmetry; apply Z.mod_unique with (-1); lia]). rewrite U.
  destruct (Z.leb_spec 0 i).
  - destruct (Z.ltb_spec i (Z.of_nat (length xs))) as [L|L].
    + destruct H as [(-> & ->)|(Hx & pre & post & -> & H1 & H2)]; [simpl in L; lia|]. unfold vget, rd. rewrite H1.
      replace (Z.to_nat (Z.of_nat (length pre) + i)) with (length pre + Z.to_nat i)%nat by lia. rewrite nth_error_app2 by lia. replace (length pre + Z.to_nat i - length pre)%nat with (Z.to_nat i) by lia.
      rewrite nth_error_app1 by lia. destruct (nth_error xs (Z.to_nat i)) as [x|] eqn:EX; [|apply nth_error_None in EX; lia]. cbn [bind]. apply nth_error_In in EX. rewrite HF by auto. reflexivity.
    + replace (nth_error xs (Z.to_nat i)) with (@None A) by (symmetry; apply nth_error_None; lia). reflexivity.
  - destruct (Z.ltb_spec (i + 2^64) (Z.of_nat (length xs))); [lia|]. reflexivity.
Qed.

Lemma all_items_in : forall ds k d, nth_error ds k = Some d -> exists a b, all_items ds = a ++ d_items d ++ b.
Proof.
  intros ds k d Hk. apply nth_error_split in Hk. destruct Hk as (l1 & l2 & -> & _). exists (all_items l1), (all_items l2). rewrite all_items_app. unfold all_items at 2. cbn [flat_map]. reflexivity.
Qed.
Lemma parts_bound : forall ds k d, fits_tables ds -> nth_error ds k = Some d ->
  (length (groups_of (d_items d)) <= 255 /\ length (vars_of (d_items d)) <= 255 /\ length (lookups_of (d_items d)) <= 255 /\ length (hybrids_of (d_items d)) <= 255)%nat /\
  (forall v, In v (vars_of (d_items d)) -> (length (snd v) <= 255)%nat).
Proof.
  intros ds k d (L0 & L1 & L2 & L3 & L4) Hk. destruct (all_items_in ds k d Hk) as (a & b & E). rewrite E in *.
  rewrite !strings_app in L1. rewrite !vars_app in L2. rewrite !lookups_app in L3. rewrite !hybrids_app in L4. rewrite !app_length in *.
  assert (SL : forall its, (length (groups_of its) <= length (strings_of its))%nat /\ forall v, In v (vars_of its) -> (length (snd v) <= length (strings_of its))%nat).
  { induction its as [|it its (I1 & I2)]; [split; [auto|intros v []]|]. split.
    - destruct it; unfold groups_of, strings_of in *; cbn [flat_map app length]; rewrite ?app_length; cbn [length]; lia.
    - intros v Hv. destruct it; unfold vars_of, strings_of in *; cbn [flat_map app length] in *; rewrite ?app_length; cbn [length]; try (specialize (I2 v Hv); lia).
      destruct Hv as [<-|Hv]; [cbn; lia|specialize (I2 v Hv); lia]. }
  destruct (SL (d_items d)) as (S1 & S2). split; [lia|]. intros v Hv. specialize (S2 v Hv). lia.
Qed.

(** Every query, for every int argument, is defined and answers exactly what the type
    with number (id mod 256) declared, or its documented error value. *)
Theorem C16_queries_exact : forall ds at_ q, Forall (fun d => groups_together (d_items d)) ds -> fits_tables ds ->
  Forall is_int (q_id q) -> Forall is_int (q_idx q) ->
  run_query (register_all ds) at_ q = Ok (expected ds at_ (fun id => nth_error ds (Z.to_nat (id mod 256))) q).
Proof.
  intros ds at_ q HG HF HI HX. set (T := register_all ds).
  pose proof (register_all_ok ds HG HF) as RI. fold T in RI. destruct RI as [P A Ln S V L H SH].
  assert (SZ : vsize (tb_all T) = Z.of_nat (length ds)).
  { rewrite (at_end_size _ _ _ _ A) by (rewrite P, seq_length; apply HF). rewrite seq_length. reflexivity. }
  assert (L255 : (length ds <= 255)%nat) by apply HF.
  assert (WM : forall id err f g, (forall k d m, nth_error ds k = Some d -> shows T k d m -> f m = Ok (g d)) ->
    with_meta T id err f = Ok (of_type (nth_error ds (Z.to_nat (id mod 256))) err g)).
  { intros id err f g HFG. unfold with_meta. change (u8 id) with (id mod 256).
    destruct (nth_error ds (Z.to_nat (id mod 256))) as [d|] eqn:ED.
    - assert (KL : (Z.to_nat (id mod 256) < length ds)%nat) by (apply nth_error_Some; congruence).
      destruct (SH _ d ED) as (m & Hm & B). destruct (C14_metadata_lists ds HG HF _ d ED) as (m' & GM & _). rewrite Z2Nat.id in GM by lia. fold T in GM.
      assert (m' = m).
      { unfold get_from_id in GM. rewrite SZ in GM. destruct (Z.ltb_spec (id mod 256) (Z.of_nat (length ds))); [|lia]. unfold vget, rd in GM.
        destruct A as [(A & _)|(_ & pre & A & A1 & A2)]; [destruct ds; [simpl in KL; lia|discriminate]|].
        assert (pre = []). { rewrite P in A. assert (X : length (seq 0 (length ds)) = length (pre ++ seq 0 (length ds))) by congruence. rewrite app_length in X. destruct pre; auto. simpl in X. lia. }
        subst pre. rewrite A1 in GM. cbn [length] in GM. change (Z.of_nat 0 + id mod 256) with (id mod 256) in GM. rewrite P in GM.
        assert (SQ : forall n a j, (j < n)%nat -> nth_error (seq a n) j = Some (a + j)%nat) by (clear; induction n; intros a [|j] Hj; simpl; try lia; [f_equal; lia|rewrite IHn by lia; f_equal; lia]).
        rewrite SQ in GM by auto. cbn [bind Nat.add] in GM. rewrite Hm in GM. cbn [bind] in GM. congruence. }
      subst m'. rewrite GM. cbn [bind of_type]. eapply HFG; eauto.
    - apply nth_error_None in ED. unfold get_from_id. rewrite SZ. destruct (Z.ltb_spec (id mod 256) (Z.of_nat (length ds))); [lia|]. reflexivity. }
  assert (CNT : forall A (tbl : list A) v xs, holds tbl v xs -> (length xs <= 255)%nat -> count v = Ok (AInt (Z.of_nat (length xs)))).
  { intros B tbl v xs HH HL. unfold count. destruct (holds_size _ _ _ _ HH) as [E|E]; [|lia]. rewrite E. unfold s32. do 2 f_equal. lia. }
  assert (VH : forall d m k, nth_error ds k = Some d -> shows T k d m -> exists ws, holds (tb_var T) (m_vars m) ws /\ (length ws <= 255)%nat /\ Forall (var_ok T) ws /\
     vars_of (d_items d) = map (fun p => (fst p, enum_names (fst p))) ws).
  { intros d m k Hk (B1 & B2 & B3 & B4 & (ws & B5 & B6 & B7) & B8 & B9). exists ws. destruct (parts_bound ds k d HF Hk) as ((_ & X & _) & _).
    split; auto. split; [rewrite <- (map_length fst ws), B5, map_length; auto|]. split; auto.
    assert (EV : forall its, vars_of its = map (fun d => (d, enum_names d)) (map fst (vars_of its))).
    { clear. induction its as [|[] its IH]; simpl; auto. unfold vars_of in IH. rewrite IH at 1. rewrite !map_map. reflexivity. }
    rewrite EV, <- B5, map_map. reflexivity. }
  assert (VQ : forall id i eid ei f g, is_int i -> (forall w, var_ok T w -> (length (enum_names (fst w)) <= 255)%nat -> f w = Ok (g (fst w, enum_names (fst w)))) ->
    var_q T id i eid ei f = Ok (of_type (nth_error ds (Z.to_nat (id mod 256))) eid (fun d => of_elem (elem (vars_of (d_items d)) i) ei g))).
  { intros id i eid ei f g Hi HFG. unfold var_q. apply WM. intros k d m Hk B. destruct (VH d m k Hk B) as (ws & W1 & W2 & W3 & W4).
    rewrite (member_ok _ _ _ _ i ei f (fun p => g (fst p, enum_names (fst p))) W1 W2 Hi).
    - rewrite W4. rewrite !elem_ok. destruct (0 <=? i); [|reflexivity]. rewrite nth_error_map. destruct (nth_error ws (Z.to_nat i)); reflexivity.
    - intros x Hx. rewrite Forall_forall in W3. apply HFG; auto. destruct (parts_bound ds k d HF Hk) as (_ & EB). apply (EB (fst x, enum_names (fst x))). rewrite W4. apply (in_map (fun p => (fst p, enum_names (fst p)))). auto. }
  assert (LQ : forall id i eid ei f g, is_int i -> (forall w, f w = Ok (g w)) -> lk_q T id i eid ei f = Ok (of_type (nth_error ds (Z.to_nat (id mod 256))) eid (fun d => of_elem (elem (lookups_of (d_items d)) i) ei g))).
  { intros id i eid ei f g Hi HFG. unfold lk_q. apply WM. intros k d m Hk (B1 & B2 & B3 & B4 & B5 & B8 & B9). destruct (parts_bound ds k d HF Hk) as ((_ & _ & X & _) & _). apply member_ok; auto. }
  assert (HQ : forall id i eid ei f g, is_int i -> (forall w, f w = Ok (g w)) -> hy_q T id i eid ei f = Ok (of_type (nth_error ds (Z.to_nat (id mod 256))) eid (fun d => of_elem (elem (hybrids_of (d_items d)) i) ei g))).
  { intros id i eid ei f g Hi HFG. unfold hy_q. apply WM. intros k d m Hk (B1 & B2 & B3 & B4 & B5 & B8 & B9). destruct (parts_bound ds k d HF Hk) as ((_ & _ & _ & X) & _). apply member_ok; auto. }
  destruct q; cbn [q_idx] in HX; repeat match goal with X : Forall is_int (_ :: _) |- _ => inversion_clear X end; cbn [run_query expected];
    try (apply VQ; [assumption|intros w Hw1 Hw2; reflexivity]); try (apply LQ; [assumption|reflexivity]); try (apply HQ; [assumption|reflexivity]);
    try (apply WM; intros k d m Hk (B1 & B2 & B3 & B4 & B5 & B8 & B9); rewrite B2; reflexivity).
  - rewrite (CNT _ (tb_ptrs T) _ (seq 0 (length ds))); [rewrite seq_length; reflexivity|rewrite <- P; apply at_end_holds; rewrite P; rewrite P in A; exact A|rewrite seq_length; auto].
  - apply WM. intros k d m Hk (B1 & B2 & B3 & B4 & B5 & B8 & B9). destruct (parts_bound ds k d HF Hk) as ((X & _) & _). eapply CNT; eauto.
  - apply WM. intros k d m Hk (B1 & B2 & B3 & B4 & B5 & B8 & B9). destruct (parts_bound ds k d HF Hk) as ((X & _) & _). apply member_ok; auto.
  - apply WM. intros k d m Hk B. destruct (VH d m k Hk B) as (ws & W1 & W2 & W3 & W4). rewrite (CNT _ _ _ _ W1 W2), W4, map_length. reflexivity.
  - apply VQ; auto. intros w Hw1 Hw2. cbn [snd fst]. eapply CNT; eauto.
  - apply (VQ id i _ _ _ (fun v => of_elem (elem (snd v) e) (AStr "INVALID ENUM INDEX") AStr)); auto. intros w Hw1 Hw2. cbn [snd fst]. apply member_ok; auto.
  - apply WM. intros k d m Hk (B1 & B2 & B3 & B4 & B5 & B8 & B9). destruct (parts_bound ds k d HF Hk) as ((_ & _ & X & _) & _). eapply CNT; eauto.
  - apply WM. intros k d m Hk (B1 & B2 & B3 & B4 & B5 & B8 & B9). destruct (parts_bound ds k d HF Hk) as ((_ & _ & _ & X) & _). eapply CNT; eauto.
Qed.
Print Assumptions C16_queries_exact.

(** For ids in 0..255 this is the documented behaviour: out-of-range ids and indices are
    rejected. *)
Theorem C16_small_ids_rejected_partial : forall ds at_ q, Forall (fun d => groups_together (d_items d)) ds -> fits_tables ds ->
  Forall (fun id => 0 <= id < 256) (q_id q) -> Forall is_int (q_idx q) ->
  run_query (register_all ds) at_ q = Ok (expected ds at_ (elem ds) q).
Proof.
  intros ds at_ q HG HF HI HX. rewrite C16_queries_exact; auto.
  - assert (E : forall id, 0 <= id < 256 -> nth_error ds (Z.to_nat (id mod 256)) = elem ds id).
    { intros id Hid. rewrite elem_ok. rewrite Z.mod_small by lia. destruct (Z.leb_spec 0 id); [auto|lia]. }
    destruct q; cbn [q_id] in HI; repeat match goal with X : Forall _ (_ :: _) |- _ => inversion_clear X end; cbn [expected]; rewrite ?E by assumption; reflexivity.
  - eapply Forall_impl; [|exact HI]. unfold is_int. cbn beta. intros a Ha. lia.
Qed.
Print Assumptions C16_small_ids_rejected_partial.

(** ... but larger and negative ids are answered with another type's data. *)
Theorem C16_id_range_refuted : exists at_, run_query shipped at_ (QName 256) = Ok (AStr "Constant") /\ run_query shipped at_ (QVarCount (-256)) = Ok (AInt 1) /\
  run_query shipped at_ QCount = Ok (AInt 47) /\ run_query shipped at_ (QName 47) = Ok (AStr "INVALID NODE ID").
Proof.
  exists {| a_desc := fun s => s; a_vdesc := v_name; a_vmin := fun _ => 0; a_vmax := fun _ => 0; a_ldesc := l_name; a_hdesc := h_name |}.
  split; [vm_cast_no_check (eq_refl (Ok (AStr "Constant")))|]. split; [vm_cast_no_check (eq_refl (Ok (AInt 1)))|]. split; [vm_cast_no_check (eq_refl (Ok (AInt 47)))|vm_cast_no_check (eq_refl (Ok (AStr "INVALID NODE ID")))].
Qed.
Print Assumptions C16_id_range_refuted.

(** the shipped types satisfy the hypotheses *)
Example C16_hypotheses_met : Forall (fun d => groups_together (d_items d)) (map decl_of registry) /\ fits_tables (map decl_of registry).
Proof. split; [|apply shipped_fits]. apply Forall_forall. intros d Hd. apply in_map_iff in Hd. destruct Hd as (t' & <- & _). apply decl_together. Qed.

(** ** C17 *)
(** the node passed is a valid node; a source passed is null or a valid node *)
Definition call_ok (h : heap) (c : ccall) : Prop :=
  match c with
  | SetVariable n _ _ | SetHybridFloat n _ _ => (n < length h)%nat
  | SetNodeLookup n _ s | SetHybridNode n _ s => (n < length h)%nat /\ forall m, s = Some m -> (m < length h)%nat
  end.
(** the index argument is a C int *)
Definition ints (c : ccall) : Prop :=
  match c with SetVariable _ i _ | SetNodeLookup _ i _ | SetHybridNode _ i _ | SetHybridFloat _ i _ => is_int i end.
(** node memory a C program can build: created nodes, modified by setter calls *)
Inductive built (reg : list node_type) : heap -> Prop :=
| built0 : built reg []
| builtN : forall h id p h', built reg h -> run_new reg h id = (p, h') -> built reg h'
| builtC : forall h c b h', built reg h -> call_ok h c -> ints c -> run_call reg h c = Ok (b, h') -> built reg h'.

(** the members of a node; a member is named by its kind and position *)
Inductive mname := MVar (i : nat) | MLookup (i : nat) | MHybridSource (i : nat) | MHybridValue (i : nat).
Inductive mval := VBits (v : Z) | VNode (p : option nat) | VNone.
Definition member (h : heap) (n : nat) (m : mname) : mval :=
  match nth_error h n with
  | None => VNone
  | Some nd =>
      match m with
      | MVar i => match nth_error (nd_vars nd) i with Some v => VBits v | None => VNone end
      | MLookup i => match nth_error (nd_lookups nd) i with Some p => VNode p | None => VNone end
      | MHybridSource i => match nth_error (nd_hybrids nd) i with Some p => VNode (fst p) | None => VNone end
      | MHybridValue i => match nth_error (nd_hybrids nd) i with Some p => VBits (snd p) | None => VNone end
      end
  end.
Definition type_of (reg : list node_type) (h : heap) (n : nat) : option node_type :=
  match nth_error h n with Some nd => match nd_meta nd with Some k => nth_error reg k | None => None end | None => None end.
(** [h'] differs from [h] only in the listed members, which have the listed values *)
Definition changes (h h' : heap) (l : list (nat * mname * mval)) : Prop :=
  length h' = length h /\ (forall n, option_map nd_meta (nth_error h' n) = option_map nd_meta (nth_error h n)) /\
  (forall n m v, In (n, m, v) l -> member h' n m = v) /\
  (forall n m, (forall v, ~ In (n, m, v) l) -> member h' n m = member h n m).

(** what each call must do: succeed or not, and the members it sets *)
Definition call_spec (reg : list node_type) (h : heap) (c : ccall) (b : bool) (l : list (nat * mname * mval)) : Prop :=
  match c with
  | SetVariable n i v =>
      exists t, type_of reg h n = Some t /\
      match elem (t_vars t) i with
      | Some d => b = true /\ l = [(n, MVar (Z.to_nat i), VBits (if clamped t d then u32 (Z.min (Z.max (s32 v) 0) 3) else u32 v))]
      | None => b = false /\ l = []
      end
  | SetNodeLookup n i s =>
      exists t, type_of reg h n = Some t /\
      match elem (t_lookups t) i, s with
      | Some d, Some m =>
          exists ct, type_of reg h m = Some ct /\
          if l_warp d && negb (t_warp ct) then b = false /\ l = [] else b = true /\ l = [(n, MLookup (Z.to_nat i), VNode (Some m))]
      | _, _ => b = false /\ l = []
      end
  | SetHybridNode n i s =>
      exists t, type_of reg h n = Some t /\
      match elem (t_hybrids t) i, s with
      | Some _, Some m => b = true /\ l = [(n, MHybridSource (Z.to_nat i), VNode (Some m))]   (* the constant is kept *)
      | _, _ => b = false /\ l = []
      end
  | SetHybridFloat n i v =>
      exists t, type_of reg h n = Some t /\
      match elem (t_hybrids t) i with
      | Some _ => b = true /\ l = [(n, MHybridSource (Z.to_nat i), VNode None); (n, MHybridValue (Z.to_nat i), VBits (u32 v))]
      | None => b = false /\ l = []
      end
  end.

Definition shaped (reg : list node_type) (h : heap) : Prop := forall n nd, nth_error h n = Some nd ->
  exists k t, nd_meta nd = Some k /\ nth_error reg k = Some t /\ length (nd_vars nd) = length (t_vars t) /\
    length (nd_lookups nd) = length (t_lookups t) /\ length (nd_hybrids nd) = length (t_hybrids t).

Lemma member_at_elem : forall A (l : list A) i, is_int i -> Z.of_nat (length l) < 2^32 ->
  member_at l i = match elem l i with Some x => Some (Z.to_nat i, x) | None => None end.
Proof.
  intros A l i HI HL. unfold is_int in HI. unfold member_at. rewrite elem_ok.
  assert (U : u64 i = if 0 <=? i then i else i + 2^64) by (unfold u64; destruct (Z.leb_spec 0 i); [apply Z.mod_small; lia|symmetry; apply Z.mod_unique with (-1); lia]). rewrite U.
  destruct (Z.leb_spec 0 i).
  - destruct (Z.ltb_spec i (Z.of_nat (length l))); auto. replace (nth_error l (Z.to_nat i)) with (@None A) by (symmetry; apply nth_error_None; lia). reflexivity.
  - destruct (Z.ltb_spec (i + 2^64) (Z.of_nat (length l))); [lia|reflexivity].
Qed.
Lemma elem_nth : forall A (l : list A) i x, elem l i = Some x -> nth_error l (Z.to_nat i) = Some x /\ 0 <= i.
Proof. intros A l i x E. rewrite elem_ok in E. destruct (Z.leb_spec 0 i); [auto|discriminate]. Qed.

Lemma changes_refl : forall h, changes h h [].
Proof. intros. split; [reflexivity|split; [reflexivity|split; [intros n m v []|reflexivity]]]. Qed.

Lemma nth_upd : forall A (l : list A) i j x, nth_error (upd l i x) j = if Nat.eqb i j then (if Nat.ltb i (length l) then Some x else None) else nth_error l j.
Proof.
  intros. destruct (Nat.eqb_spec i j) as [e|N]; [|apply nth_error_upd_neq; auto]. subst j. destruct (Nat.ltb_spec i (length l)); [apply nth_error_upd_eq; auto|].
  apply nth_error_None. rewrite upd_length. lia.
Qed.

Lemma call_step : forall reg h c, (forall t, In t reg -> Z.of_nat (length (t_vars t)) < 2^32 /\ Z.of_nat (length (t_lookups t)) < 2^32 /\ Z.of_nat (length (t_hybrids t)) < 2^32) ->
  shaped reg h -> call_ok h c -> ints c ->
  exists b h' l, run_call reg h c = Ok (b, h') /\ call_spec reg h c b l /\ changes h h' l /\ shaped reg h'.
Proof.
  intros reg h c HR HS HC HI.
  assert (GET : forall n, (n < length h)%nat -> exists nd k t, nth_error h n = Some nd /\ nd_meta nd = Some k /\ nth_error reg k = Some t /\ type_of reg h n = Some t /\ rd h n = Ok nd /\ node_type_of reg h n = Ok t /\
     length (nd_vars nd) = length (t_vars t) /\ length (nd_lookups nd) = length (t_lookups t) /\ length (nd_hybrids nd) = length (t_hybrids t)).
  { intros n Hn. destruct (nth_error h n) as [nd|] eqn:E; [|apply nth_error_None in E; lia]. destruct (HS n nd E) as (k & t & A & B & C). exists nd, k, t.
    unfold type_of, node_type_of, rd. rewrite E. cbn [bind]. rewrite A, B. repeat split; auto; apply C. }
  assert (SHP : forall n nd nd', nth_error h n = Some nd -> nd_meta nd' = nd_meta nd -> length (nd_vars nd') = length (nd_vars nd) -> length (nd_lookups nd') = length (nd_lookups nd) ->
     length (nd_hybrids nd') = length (nd_hybrids nd) -> shaped reg (upd h n nd')).
  { intros n nd nd' E A B C D m x Hm. rewrite nth_upd in Hm. destruct (Nat.eqb_spec n m) as [e|N]; [|apply (HS m x Hm)]. destruct (Nat.ltb_spec n (length h)); [|discriminate]. injection Hm as <-.
    rewrite A, B, C, D. apply (HS n nd E). }
  assert (META : forall n nd nd', nth_error h n = Some nd -> nd_meta nd' = nd_meta nd -> forall m, option_map nd_meta (nth_error (upd h n nd') m) = option_map nd_meta (nth_error h m)).
  { intros n nd nd' E A m. rewrite nth_upd. destruct (Nat.eqb_spec n m) as [e|N]; auto. subst m. destruct (Nat.ltb_spec n (length h)); [rewrite E; cbn; rewrite A; auto|]. assert (n < length h)%nat by (apply nth_error_Some; congruence). lia. }
  assert (MEM : forall n nd nd' x m, nth_error h n = Some nd -> member (upd h n nd') x m = if Nat.eqb n x then member [nd'] 0 m else member h x m).
  { intros n nd nd' x m E. unfold member. rewrite nth_upd. destruct (Nat.eqb_spec n x) as [e|N]; auto. destruct (Nat.ltb_spec n (length h)); [reflexivity|]. assert (n < length h)%nat by (apply nth_error_Some; congruence). lia. }
  assert (REG : forall k t, nth_error reg k = Some t -> In t reg) by (intros k t E; eapply nth_error_In; eauto).
  destruct c as [n i v|n i s|n i s|n i v]; cbn [call_ok ints] in *; cbn [run_call call_spec].
  - destruct (GET n HC) as (nd & k & t & E & A & B & TY & R1 & R2 & LV & LL & LH). rewrite R1, R2. cbn [bind]. destruct (HR t (REG _ _ B)) as (G1 & G2 & G3). rewrite member_at_elem by auto.
    destruct (elem (t_vars t) i) as [d|] eqn:EE.
    + destruct (elem_nth _ _ _ _ EE) as (EN & _). assert (LT : (Z.to_nat i < length (t_vars t))%nat) by (apply nth_error_Some; congruence).
      destruct (nth_error (nd_vars nd) (Z.to_nat i)) as [old|] eqn:EO; [|apply nth_error_None in EO; lia]. rewrite (rd_Ok _ _ _ _ EO). cbn [bind]. do 3 eexists.
      split; [reflexivity|]. split; [exists t; split; [auto|]; rewrite EE; split; reflexivity|]. split; [|eapply SHP; eauto; cbn; rewrite ?upd_length; auto].
      split; [apply upd_length|]. split; [eapply META; eauto|]. unfold stored. split.
      * intros x m y [X|[]]. injection X as <- <- <-. rewrite (MEM n nd) by auto. rewrite Nat.eqb_refl. cbn. rewrite nth_upd, Nat.eqb_refl. destruct (Nat.ltb_spec (Z.to_nat i) (length (nd_vars nd))); [reflexivity|lia].
      * intros x m NI. rewrite (MEM n nd) by auto. destruct (Nat.eqb_spec n x) as [e|N]; auto. subst x. unfold member. rewrite E. cbn [nth_error]. destruct m; auto. cbn [set_var nd_vars]. rewrite nth_upd.
        destruct (Nat.eqb_spec (Z.to_nat i) i0) as [e|N]; auto. subst i0. exfalso. eapply NI. left. reflexivity.
    + do 3 eexists. split; [reflexivity|]. split; [exists t; split; [auto|]; rewrite EE; split; reflexivity|]. split; [apply changes_refl|auto].
  - destruct HC as (HC & HM). destruct (GET n HC) as (nd & k & t & E & A & B & TY & R1 & R2 & LV & LL & LH). rewrite R1, R2. cbn [bind]. destruct (HR t (REG _ _ B)) as (G1 & G2 & G3). rewrite member_at_elem by auto.
    destruct (elem (t_lookups t) i) as [d|] eqn:EE.
    + destruct (elem_nth _ _ _ _ EE) as (EN & _). assert (LT : (Z.to_nat i < length (t_lookups t))%nat) by (apply nth_error_Some; congruence).
      destruct (nth_error (nd_lookups nd) (Z.to_nat i)) as [old|] eqn:EO; [|apply nth_error_None in EO; lia]. rewrite (rd_Ok _ _ _ _ EO). cbn [bind]. unfold set_source.
      destruct s as [m|]; [|do 3 eexists; split; [reflexivity|]; split; [exists t; split; [auto|]; rewrite EE; split; reflexivity|]; split; [apply changes_refl|auto]].
      destruct (GET m (HM m eq_refl)) as (mnd & mk & mt & E2 & A2 & B2 & TY2 & _ & R3 & _). rewrite R3. cbn [bind]. unfold accepts.
      destruct (l_warp d && negb (t_warp mt)) eqn:W.
      * apply andb_true_iff in W. destruct W as (W1 & W2). rewrite W1. apply negb_true_iff in W2. rewrite W2. cbn [negb orb]. do 3 eexists. split; [reflexivity|].
        split; [exists t; split; [auto|]; rewrite EE; exists mt; split; [auto|]; rewrite W1, W2; split; reflexivity|]. split; [apply changes_refl|auto].
      * assert (W' : negb (l_warp d) || t_warp mt = true) by (destruct (l_warp d), (t_warp mt); auto; discriminate). rewrite W'. do 3 eexists. split; [reflexivity|].
        split; [exists t; split; [auto|]; rewrite EE; exists mt; split; [auto|]; rewrite W; split; reflexivity|]. split; [|eapply SHP; eauto; cbn; rewrite ?upd_length; auto].
        split; [apply upd_length|]. split; [eapply META; eauto|]. split.
        -- intros x q y [X|[]]. injection X as <- <- <-. rewrite (MEM n nd) by auto. rewrite Nat.eqb_refl. cbn. rewrite nth_upd, Nat.eqb_refl. destruct (Nat.ltb_spec (Z.to_nat i) (length (nd_lookups nd))); [reflexivity|lia].
        -- intros x q NI. rewrite (MEM n nd) by auto. destruct (Nat.eqb_spec n x) as [e|N]; auto. subst x. unfold member. rewrite E. cbn [nth_error]. destruct q; auto. cbn [set_lookup nd_lookups]. rewrite nth_upd.
           destruct (Nat.eqb_spec (Z.to_nat i) i0) as [e|N]; auto. subst i0. exfalso. eapply NI. left. reflexivity.
    + do 3 eexists. split; [reflexivity|]. split; [exists t; split; [auto|]; rewrite EE; split; reflexivity|]. split; [apply changes_refl|auto].
  - destruct HC as (HC & HM). destruct (GET n HC) as (nd & k & t & E & A & B & TY & R1 & R2 & LV & LL & LH). rewrite R1, R2. cbn [bind]. destruct (HR t (REG _ _ B)) as (G1 & G2 & G3). rewrite member_at_elem by auto.
    destruct (elem (t_hybrids t) i) as [d|] eqn:EE.
    + destruct (elem_nth _ _ _ _ EE) as (EN & _). assert (LT : (Z.to_nat i < length (t_hybrids t))%nat) by (apply nth_error_Some; congruence).
      destruct (nth_error (nd_hybrids nd) (Z.to_nat i)) as [old|] eqn:EO; [|apply nth_error_None in EO; lia]. rewrite (rd_Ok _ _ _ _ EO). cbn [bind]. unfold set_source.
      destruct s as [m|]; [|do 3 eexists; split; [reflexivity|]; split; [exists t; split; [auto|]; rewrite EE; split; reflexivity|]; split; [apply changes_refl|auto]].
      destruct (GET m (HM m eq_refl)) as (mnd & mk & mt & E2 & A2 & B2 & TY2 & _ & R3 & _). rewrite R3. cbn [bind accepts l_warp negb orb]. do 3 eexists. split; [reflexivity|].
      split; [exists t; split; [auto|]; rewrite EE; split; reflexivity|]. split; [|eapply SHP; eauto; cbn; rewrite ?upd_length; auto].
      split; [apply upd_length|]. split; [eapply META; eauto|]. split.
      * intros x q y [X|[]]. injection X as <- <- <-. rewrite (MEM n nd) by auto. rewrite Nat.eqb_refl. cbn. rewrite nth_upd, Nat.eqb_refl. destruct (Nat.ltb_spec (Z.to_nat i) (length (nd_hybrids nd))); [reflexivity|lia].
      * intros x q NI. rewrite (MEM n nd) by auto. destruct (Nat.eqb_spec n x) as [e|N]; auto. subst x. unfold member. rewrite E. cbn [nth_error]. destruct q; auto; cbn [set_hybrid nd_hybrids]; rewrite nth_upd;
          (destruct (Nat.eqb_spec (Z.to_nat i) i0) as [e|N]; auto); subst i0; [exfalso; eapply NI; left; reflexivity|]. destruct (Nat.ltb_spec (Z.to_nat i) (length (nd_hybrids nd))); [rewrite EO; reflexivity|lia].
    + do 3 eexists. split; [reflexivity|]. split; [exists t; split; [auto|]; rewrite EE; split; reflexivity|]. split; [apply changes_refl|auto].
  - destruct (GET n HC) as (nd & k & t & E & A & B & TY & R1 & R2 & LV & LL & LH). rewrite R1, R2. cbn [bind]. destruct (HR t (REG _ _ B)) as (G1 & G2 & G3). rewrite member_at_elem by auto.
    destruct (elem (t_hybrids t) i) as [d|] eqn:EE.
    + destruct (elem_nth _ _ _ _ EE) as (EN & _). assert (LT : (Z.to_nat i < length (t_hybrids t))%nat) by (apply nth_error_Some; congruence).
      destruct (nth_error (nd_hybrids nd) (Z.to_nat i)) as [old|] eqn:EO; [|apply nth_error_None in EO; lia]. rewrite (rd_Ok _ _ _ _ EO). cbn [bind]. do 3 eexists.
      split; [reflexivity|]. split; [exists t; split; [auto|]; rewrite EE; split; reflexivity|]. split; [|eapply SHP; eauto; cbn; rewrite ?upd_length; auto].
      split; [apply upd_length|]. split; [eapply META; eauto|]. split.
      * intros x q y [X|[X|[]]]; injection X as <- <- <-; rewrite (MEM n nd) by auto; rewrite Nat.eqb_refl; cbn; rewrite nth_upd, Nat.eqb_refl; (destruct (Nat.ltb_spec (Z.to_nat i) (length (nd_hybrids nd))); [reflexivity|lia]).
      * intros x q NI. rewrite (MEM n nd) by auto. destruct (Nat.eqb_spec n x) as [e|N]; auto. subst x. unfold member. rewrite E. cbn [nth_error]. destruct q; auto; cbn [set_hybrid nd_hybrids]; rewrite nth_upd;
          (destruct (Nat.eqb_spec (Z.to_nat i) i0) as [e|N]; auto); subst i0; exfalso; eapply NI; [left|right; left]; reflexivity.
    + do 3 eexists. split; [reflexivity|]. split; [exists t; split; [auto|]; rewrite EE; split; reflexivity|]. split; [apply changes_refl|auto].
Qed.

Definition small_types (reg : list node_type) : Prop :=
  forall t, In t reg -> Z.of_nat (length (t_vars t)) < 2^32 /\ Z.of_nat (length (t_lookups t)) < 2^32 /\ Z.of_nat (length (t_hybrids t)) < 2^32.

Lemma built_shaped : forall reg h, small_types reg -> built reg h -> shaped reg h.
Proof.
  intros reg h HR B. induction B as [|h id p h' B IH E|h c b h' B IH HC HI E].
  - intros n nd X. destruct n; discriminate.
  - unfold run_new in E. destruct (nth_error reg (Z.to_nat (u8 id))) as [t|] eqn:ET; injection E as <- <-; auto.
    intros n nd X. destruct (Nat.lt_ge_cases n (length h)) as [L|L]; [rewrite nth_error_app1 in X by auto; apply (IH n nd X)|].
    rewrite nth_error_app2 in X by auto. destruct (n - length h)%nat as [|j]; [|destruct j; discriminate]. injection X as <-.
    exists (Z.to_nat (u8 id)), t. cbn [new_generator nd_meta nd_vars nd_lookups nd_hybrids]. rewrite !map_length. auto.
  - destruct (call_step reg h c HR IH HC HI) as (b1 & h1 & l & E1 & _ & _ & SH). rewrite E in E1. injection E1 as <- <-. exact SH.
Qed.

(** In every state a C program can reach, every setter call is defined, succeeds exactly
    when the index is valid (and the source is a non-null node of an acceptable type), and
    changes exactly the addressed member; a failing call changes nothing. *)
Theorem C17_setters_exact : forall reg h c, small_types reg -> built reg h -> call_ok h c -> ints c ->
  exists b h' l, run_call reg h c = Ok (b, h') /\ call_spec reg h c b l /\ changes h h' l /\ (b = false -> h' = h).
Proof.
  intros reg h c HR B HC HI. destruct (call_step reg h c HR (built_shaped reg h HR B) HC HI) as (b & h' & l & E & S & C & _).
  exists b, h', l. repeat split; auto; try apply C. intros ->.
  assert (X : forall b h', run_call reg h c = Ok (b, h') -> b = false -> h' = h); [|eauto].
  clear. intros b h' E ->. destruct c; cbn [run_call] in E; repeat (match type of E with
    | bind _ _ = Ok _ => let x := fresh "x" in let H1 := fresh "E" in apply bind_Ok_inv in E; destruct E as (x & H1 & E)
    | match ?x with Some _ => _ | None => _ end = Ok _ => destruct x as [[]|]
    | set_source _ _ _ ?s _ _ = Ok _ => unfold set_source in E; destruct s
    | (if ?b then _ else _) = Ok _ => destruct b
    end); try congruence.
Qed.
Print Assumptions C17_setters_exact.

(** fnNewFromMetadata returns a new node holding the class initialisers, changes no other
    node, and fails exactly for ids whose low 8 bits are no type *)
Theorem C17_new_node : forall reg h id p h', run_new reg h id = (p, h') ->
  (p = None /\ h' = h /\ nth_error reg (Z.to_nat (id mod 256)) = None) \/
  (exists t, p = Some (length h) /\ nth_error reg (Z.to_nat (id mod 256)) = Some t /\ type_of reg h' (length h) = Some t /\
     (forall n, (n < length h)%nat -> nth_error h' n = nth_error h n) /\
     (forall i d, nth_error (t_vars t) i = Some d -> member h' (length h) (MVar i) = VBits (v_class d)) /\
     (forall i d, nth_error (t_lookups t) i = Some d -> member h' (length h) (MLookup i) = VNode None) /\
     (forall i d, nth_error (t_hybrids t) i = Some d -> member h' (length h) (MHybridSource i) = VNode None /\ member h' (length h) (MHybridValue i) = VBits (h_class d))).
Proof.
  intros reg h id p h' E. unfold run_new in E. change (u8 id) with (id mod 256) in E. destruct (nth_error reg (Z.to_nat (id mod 256))) as [t|] eqn:ET; injection E as <- <-; [right|left; auto].
  exists t. assert (N : nth_error (h ++ [new_generator (Z.to_nat (id mod 256)) t]) (length h) = Some (new_generator (Z.to_nat (id mod 256)) t)) by (rewrite nth_error_app2, Nat.sub_diag by lia; reflexivity).
  unfold type_of, member. rewrite N. cbn [new_generator nd_meta nd_vars nd_lookups nd_hybrids]. split; auto. split; auto. split; auto. split; [intros; apply nth_error_app1; auto|].
  split; [|split]; intros i d Hd; rewrite !nth_error_map, Hd; auto.
Qed.
Print Assumptions C17_new_node.

Lemma shipped_small : small_types registry.
Proof.
  assert (X : forallb (fun t => (Z.of_nat (length (t_vars t)) <? 2^32) && (Z.of_nat (length (t_lookups t)) <? 2^32) && (Z.of_nat (length (t_hybrids t)) <? 2^32)) registry = true) by (vm_compute; reflexivity).
  rewrite forallb_forall in X. intros t Ht. specialize (X t Ht). lia.
Qed.
(** a Cellular Value node (type 10 of the shipped registry): index 7 is stored as 3 *)
Example C17_demo : exists h h', built registry h /\ call_ok h (SetVariable 0 5 7) /\ run_call registry h (SetVariable 0 5 7) = Ok (true, h') /\ member h' 0 (MVar 5) = VBits 3.
Proof.
  exists (snd (run_new registry [] 10)).
  exists (match run_call registry (snd (run_new registry [] 10)) (SetVariable 0 5 7) with Ok (_, h') => h' | _ => [] end).
  split; [eapply builtN with (id := 10); [apply built0|reflexivity]|].
  split; [vm_compute; repeat split; repeat constructor|]. split; vm_compute; reflexivity.
Qed.
