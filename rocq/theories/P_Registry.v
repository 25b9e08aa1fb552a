(** Properties C14, C15: registration of node types and the shipped registry. *)
From Coq Require Import String.
From Coq Require Import ZArith List Bool Lia ZifyBool ZifyNat.
From Verif Require Import Prelude Registry_Model MetaVector_Model NodeTree_Model NodeTree_Spec P_NodeTree.
Import ListNotations.
Open Scope Z_scope.
Ltac Zify.zify_post_hook ::= Z.div_mod_to_equations.

(** ** Specification: what a declaration says *)
Definition groups_of (its : list item) : list string := flat_map (fun it => match it with IGroup s => [s] | _ => [] end) its.
Definition vars_of (its : list item) : list (var_decl * list string) := flat_map (fun it => match it with IVar d => [(d, enum_names d)] | _ => [] end) its.
Definition lookups_of (its : list item) : list lookup_decl := flat_map (fun it => match it with ILookup l => [l] | _ => [] end) its.
Definition hybrids_of (its : list item) : list hybrid_decl := flat_map (fun it => match it with IHybrid h => [h] | _ => [] end) its.
(** strings a declaration adds to the shared table: its groups and its enum names *)
Definition strings_of (its : list item) : list string :=
  flat_map (fun it => match it with IGroup s => [s] | IVar d => enum_names d | _ => [] end) its.
(** no enum variable is declared between two groups of the type *)
Definition groups_together (its : list item) : Prop :=
  forall a g1 b g2 c, its = a ++ [IGroup g1] ++ b ++ [IGroup g2] ++ c -> forall d, In (IVar d) b -> enum_names d = [].

(** ** Index ranges *)
Definition holds {A} (tbl : list A) (v : vec) (xs : list A) : Prop :=
  (xs = [] /\ v = vec0) \/
  (xs <> [] /\ exists pre post, tbl = pre ++ xs ++ post /\ v_start v = Z.of_nat (length pre) /\ v_end v = Z.of_nat (length pre + length xs)).
Definition at_end {A} (tbl : list A) (v : vec) (xs : list A) : Prop :=
  (xs = [] /\ v = vec0) \/
  (xs <> [] /\ exists pre, tbl = pre ++ xs /\ v_start v = Z.of_nat (length pre) /\ v_end v = Z.of_nat (length pre + length xs)).

Lemma at_end_holds : forall A (tbl : list A) v xs, at_end tbl v xs -> holds tbl v xs.
Proof. intros A tbl v xs [H|(H & pre & -> & H1 & H2)]; [left; auto|right]. split; auto. exists pre, []. rewrite app_nil_r. auto. Qed.
Lemma holds_app : forall A (tbl : list A) v xs more, holds tbl v xs -> holds (tbl ++ more) v xs.
Proof.
  intros A tbl v xs more [H|(H & pre & post & -> & H1 & H2)]; [left; auto|right]. split; auto.
  exists pre, (post ++ more). rewrite <- !app_assoc. auto.
Qed.
Lemma at_end_nil : forall A (tbl : list A), at_end tbl vec0 [].
Proof. left. auto. Qed.

Lemma push_at_end : forall A (tbl : list A) v xs x, at_end tbl v xs -> (length tbl < 255)%nat ->
  at_end (fst (push tbl v x)) (snd (push tbl v x)) (xs ++ [x]) /\ fst (push tbl v x) = tbl ++ [x].
Proof.
  intros A tbl v xs x H HL. split; [|reflexivity]. right. split; [destruct xs; discriminate|].
  unfold push. cbn [fst snd v_start v_end]. rewrite app_length. cbn [length].
  assert (E : u8 (u8 (Z.of_nat (length tbl + 1)) - 1) = Z.of_nat (length tbl)) by (unfold u8; lia). rewrite E.
  destruct H as [(-> & ->)|(Hx & pre & -> & H1 & H2)].
  - exists tbl. split; auto. cbn [v_start vec0]. simpl length. unfold u8. lia.
  - exists pre. rewrite <- app_assoc. split; auto. rewrite !app_length in *. simpl length. unfold u8. lia.
Qed.

Lemma vread_ok : forall A (xs pre post : list A), vread (pre ++ xs ++ post) (length pre) (length xs) = Ok xs.
Proof.
  intros A. induction xs as [|x xs IH]; intros pre post; [reflexivity|]. cbn [length vread].
  unfold rd at 1. rewrite nth_error_app2 by lia. rewrite Nat.sub_diag. cbn [nth_error app bind].
  specialize (IH (pre ++ [x]) post). rewrite app_length in IH. cbn [length] in IH. rewrite <- app_assoc in IH. cbn [app] in IH.
  replace (S (length pre)) with (length pre + 1)%nat by lia. rewrite IH. reflexivity.
Qed.

Lemma holds_contents : forall A (tbl : list A) v xs, holds tbl v xs -> contents tbl v = Ok xs.
Proof.
  intros A tbl v xs [(-> & ->)|(Hx & pre & post & -> & H1 & H2)]; [reflexivity|]. unfold contents. rewrite H1, H2.
  destruct (Z.ltb_spec (Z.of_nat (length pre + length xs)) (Z.of_nat (length pre))); [lia|].
  rewrite Nat2Z.id. replace (Z.to_nat (Z.of_nat (length pre + length xs) - Z.of_nat (length pre))) with (length xs) by lia. apply vread_ok.
Qed.

Lemma push_names_at_end : forall ns tbl v xs, at_end tbl v xs -> (length tbl + length ns <= 255)%nat ->
  at_end (fst (push_names tbl v ns)) (snd (push_names tbl v ns)) (xs ++ ns) /\ fst (push_names tbl v ns) = tbl ++ ns.
Proof.
  induction ns as [|n ns IH]; intros tbl v xs H HL.
  - cbn. rewrite !app_nil_r. auto.
  - cbn [length] in HL. destruct (push_at_end _ tbl v xs n H) as (P1 & P2); [lia|].
    unfold push_names. cbn [fold_left fst snd]. fold (push_names (fst (push tbl v n)) (snd (push tbl v n)) ns).
    destruct (IH _ _ _ P1) as (Q1 & Q2); [rewrite P2, app_length; cbn; lia|].
    unfold push_names in *. destruct (push tbl v n) as [t' v']. cbn [fst snd] in *. subst t'.
    rewrite <- !app_assoc in Q1. rewrite <- !app_assoc in Q2. auto.
Qed.

(** ** One constructor *)
Section Run.
  (** tables at the start of the constructor *)
  Variable T0 : tables.
  Variable m0 : metadata.
  Hypothesis M0 : m_groups m0 = vec0 /\ m_vars m0 = vec0 /\ m_lookups m0 = vec0 /\ m_hybrids m0 = vec0.

  Definition var_ok (T : tables) (p : var_decl * vec) : Prop := holds (tb_str T) (snd p) (enum_names (fst p)).

  Record rinv (its : list item) (T : tables) (m : metadata) : Prop := {
    ri_frame : tb_ptrs T = tb_ptrs T0 /\ tb_all T = tb_all T0 /\ tb_objs T = tb_objs T0;
    ri_id : m_id m = m_id m0 /\ m_name m = m_name m0 /\ m_warp m = m_warp m0;
    ri_str : tb_str T = tb_str T0 ++ strings_of its;
    ri_lk : tb_lk T = tb_lk T0 ++ lookups_of its;
    ri_hy : tb_hy T = tb_hy T0 ++ hybrids_of its;
    ri_var : exists vs, tb_var T = tb_var T0 ++ vs /\ map fst vs = map fst (vars_of its) /\ Forall (var_ok T) vs /\ at_end (tb_var T) (m_vars m) vs;
    ri_g : holds (tb_str T) (m_groups m) (groups_of its);
    (* either the group range can still grow, or an enum variable follows a group *)
    ri_g2 : at_end (tb_str T) (m_groups m) (groups_of its) \/
            exists a g b d, its = a ++ [IGroup g] ++ b /\ In (IVar d) b /\ enum_names d <> [];
    ri_l : at_end (tb_lk T) (m_lookups m) (lookups_of its);
    ri_h : at_end (tb_hy T) (m_hybrids m) (hybrids_of its)
  }.

  Lemma group_in : forall its, groups_of its <> [] -> exists a g b, its = a ++ [IGroup g] ++ b.
  Proof.
    induction its as [|it its IH]; intros H; [contradiction|]. destruct it as [s|d|l|h].
    - exists [], s, its. reflexivity.
    - destruct IH as (a & g & b & ->); auto. exists (IVar d :: a), g, b. reflexivity.
    - destruct IH as (a & g & b & ->); auto. exists (ILookup l :: a), g, b. reflexivity.
    - destruct IH as (a & g & b & ->); auto. exists (IHybrid h :: a), g, b. reflexivity.
  Qed.

  Lemma run_ok : forall todo done T m, rinv done T m -> groups_together (done ++ todo) ->
    (length (tb_str T0) + length (strings_of (done ++ todo)) <= 255)%nat ->
    (length (tb_var T0) + length (vars_of (done ++ todo)) <= 255)%nat ->
    (length (tb_lk T0) + length (lookups_of (done ++ todo)) <= 255)%nat ->
    (length (tb_hy T0) + length (hybrids_of (done ++ todo)) <= 255)%nat ->
    rinv (done ++ todo) (fst (fold_left run_item todo (T, m))) (snd (fold_left run_item todo (T, m))).
  Proof.
    induction todo as [|it todo IH]; intros done T m HI HG LS LV LL LH; [rewrite app_nil_r in *; auto|].
    replace (done ++ it :: todo) with ((done ++ [it]) ++ todo) in * by (rewrite <- app_assoc; reflexivity).
    cbn [fold_left]. destruct (run_item (T, m) it) as [T' m'] eqn:ER. apply IH; auto. clear IH.
    destruct HI as [F I S L H (vs & V1 & V2 & V3 & V4) G G2 LK HY].
    assert (FO : forall A (f : item -> list A) (x : item), flat_map f (done ++ [x]) = flat_map f done ++ f x).
    { intros. rewrite flat_map_app. simpl. rewrite app_nil_r. reflexivity. }
    unfold strings_of, vars_of, lookups_of, hybrids_of, groups_of in LS, LV, LL, LH. rewrite !flat_map_app in *. cbn [flat_map] in *. rewrite !app_length in *. cbn [length] in *.
    destruct it as [s|d|l|h]; cbn [run_item] in ER.
    - (* group *)
      assert (AE : at_end (tb_str T) (m_groups m) (groups_of done)).
      { destruct G2 as [G2|(a & g & b & d & E & Hd & Hn)]; auto. exfalso. apply Hn. apply (HG a g b s todo); auto. rewrite E, <- !app_assoc. reflexivity. }
      destruct (push_at_end _ _ _ _ s AE) as (P1 & P2).
      { rewrite S, app_length. unfold strings_of. cbn in LS. rewrite ?app_length in LS. cbn in LS. lia. }
      destruct (push (tb_str T) (m_groups m) s) as [t' v'] eqn:EP. cbn [fst snd] in P1, P2. injection ER as <- <-.
      constructor; cbn [tb_ptrs tb_all tb_objs tb_str tb_var tb_lk tb_hy m_id m_name m_warp m_groups m_vars m_lookups m_hybrids]; auto;
        unfold strings_of, vars_of, lookups_of, hybrids_of, groups_of; rewrite ?FO, ?app_nil_r; auto.
      + rewrite P2, S. unfold strings_of. rewrite app_assoc. reflexivity.
      + exists vs. split; auto. split; auto. split; auto. eapply Forall_impl; [|exact V3]. intros p Hp. unfold var_ok in *. cbn [tb_str]. rewrite P2. apply holds_app. auto.
      + apply at_end_holds. auto.
    - (* variable *)
      destruct (push_names_at_end (enum_names d) (tb_str T) vec0 [] (at_end_nil _ _)) as (P1 & P2).
      { rewrite S, app_length. unfold strings_of. cbn in LS. rewrite ?app_length in LS. cbn in LS. lia. }
      destruct (push_names (tb_str T) vec0 (enum_names d)) as [strs ev]. cbn [fst snd] in P1, P2.
      destruct (push_at_end _ _ _ _ (d, ev) V4) as (Q1 & Q2).
      { rewrite V1, app_length. assert (length vs = length (vars_of done)) by (rewrite <- (map_length fst vs), V2, map_length; auto). unfold vars_of in *. cbn in LV. rewrite ?app_length in LV. cbn in LV. lia. }
      destruct (push (tb_var T) (m_vars m) (d, ev)) as [t' v']. cbn [fst snd] in Q1, Q2. injection ER as <- <-.
      constructor; cbn [tb_ptrs tb_all tb_objs tb_str tb_var tb_lk tb_hy m_id m_name m_warp m_groups m_vars m_lookups m_hybrids]; auto;
        unfold strings_of, vars_of, lookups_of, hybrids_of, groups_of; rewrite ?FO, ?app_nil_r; auto.
      + rewrite P2, S. unfold strings_of. rewrite app_assoc. reflexivity.
      + exists (vs ++ [(d, ev)]). split; [rewrite Q2, V1, app_assoc; reflexivity|]. split.
        { rewrite !map_app. unfold vars_of in V2. rewrite V2. reflexivity. }
        split; auto. apply Forall_app. split.
        * eapply Forall_impl; [|exact V3]. intros p Hp. unfold var_ok in *. cbn [tb_str]. rewrite P2. apply holds_app. auto.
        * constructor; auto. unfold var_ok. cbn [tb_str fst snd]. apply at_end_holds in P1. exact P1.
      + rewrite P2. apply holds_app. exact G.
      + destruct (enum_names d) as [|n ns] eqn:EN.
        * rewrite app_nil_r in P2. subst strs. destruct G2 as [G2|(a & g & b & d' & E & Hd & Hn)]; [left; auto|right].
          exists a, g, (b ++ [IVar d]), d'. rewrite E, <- !app_assoc. split; auto. split; auto. rewrite in_app_iff. auto.
        * destruct (groups_of done) as [|g gs] eqn:EG.
          -- left. left. split; [exact EG|]. destruct G as [(_ & G)|(G & _)]; [auto|contradiction].
          -- right. destruct (group_in done) as (a & g' & b & ->); [congruence|]. exists a, g', (b ++ [IVar d]), d. rewrite <- !app_assoc. split; auto.
             split; [rewrite in_app_iff; right; left; reflexivity|]. congruence.
    - (* lookup *)
      destruct (push_at_end _ _ _ _ l LK) as (Q1 & Q2).
      { rewrite L, app_length. unfold lookups_of. cbn in LL. lia. }
      destruct (push (tb_lk T) (m_lookups m) l) as [t' v']. cbn [fst snd] in Q1, Q2. injection ER as <- <-.
      constructor; cbn [tb_ptrs tb_all tb_objs tb_str tb_var tb_lk tb_hy m_id m_name m_warp m_groups m_vars m_lookups m_hybrids]; auto;
        unfold strings_of, vars_of, lookups_of, hybrids_of, groups_of; rewrite ?FO, ?app_nil_r; auto.
      + rewrite Q2, L. unfold lookups_of. rewrite app_assoc. reflexivity.
      + exists vs. auto.
      + destruct G2 as [G2|(a & g & b & d' & E & Hd & Hn)]; [left; auto|right].
        exists a, g, (b ++ [ILookup l]), d'. rewrite E, <- !app_assoc. split; auto. split; auto. rewrite in_app_iff. auto.
    - (* hybrid *)
      destruct (push_at_end _ _ _ _ h HY) as (Q1 & Q2).
      { rewrite H, app_length. unfold hybrids_of. cbn in LH. lia. }
      destruct (push (tb_hy T) (m_hybrids m) h) as [t' v']. cbn [fst snd] in Q1, Q2. injection ER as <- <-.
      constructor; cbn [tb_ptrs tb_all tb_objs tb_str tb_var tb_lk tb_hy m_id m_name m_warp m_groups m_vars m_lookups m_hybrids]; auto;
        unfold strings_of, vars_of, lookups_of, hybrids_of, groups_of; rewrite ?FO, ?app_nil_r; auto.
      + rewrite Q2, H. unfold hybrids_of. rewrite app_assoc. reflexivity.
      + exists vs. auto.
      + destruct G2 as [G2|(a & g & b & d' & E & Hd & Hn)]; [left; auto|right].
        exists a, g, (b ++ [IHybrid h]), d'. rewrite E, <- !app_assoc. split; auto. split; auto. rewrite in_app_iff. auto.
  Qed.

  Lemma rinv_nil : rinv [] T0 m0.
  Proof.
    destruct M0 as (A & B & C & D). constructor; simpl; rewrite ?app_nil_r, ?A, ?B, ?C, ?D; auto using at_end_nil.
    - exists []. rewrite app_nil_r. auto using at_end_nil.
    - left. auto.
  Qed.
End Run.

(** ** All registrations *)
Definition all_items (ds : list tdecl) : list item := flat_map d_items ds.

(** object [m] shows declaration [d] in tables [T] *)
Definition shows (T : tables) (k : nat) (d : tdecl) (m : metadata) : Prop :=
  m_id m = Z.of_nat k /\ m_name m = d_name d /\ m_warp m = d_warp d /\
  holds (tb_str T) (m_groups m) (groups_of (d_items d)) /\
  (exists vs, map fst vs = map fst (vars_of (d_items d)) /\ Forall (var_ok T) vs /\ holds (tb_var T) (m_vars m) vs) /\
  holds (tb_lk T) (m_lookups m) (lookups_of (d_items d)) /\
  holds (tb_hy T) (m_hybrids m) (hybrids_of (d_items d)).

Record ginvr (ds : list tdecl) (T : tables) : Prop := {
  gi_ptrs : tb_ptrs T = seq 0 (length ds);
  gi_all : at_end (tb_ptrs T) (tb_all T) (seq 0 (length ds));
  gi_len : length (tb_objs T) = length ds;
  gi_str : tb_str T = strings_of (all_items ds);
  gi_var : length (tb_var T) = length (vars_of (all_items ds));
  gi_lk : tb_lk T = lookups_of (all_items ds);
  gi_hy : tb_hy T = hybrids_of (all_items ds);
  gi_shows : forall k d, nth_error ds k = Some d -> exists m, nth_error (tb_objs T) k = Some m /\ shows T k d m
}.

Lemma all_items_app : forall a b, all_items (a ++ b) = all_items a ++ all_items b.
Proof. intros. apply flat_map_app. Qed.
Lemma strings_app : forall a b, strings_of (a ++ b) = strings_of a ++ strings_of b. Proof. intros. apply flat_map_app. Qed.
Lemma vars_app : forall a b, vars_of (a ++ b) = vars_of a ++ vars_of b. Proof. intros. apply flat_map_app. Qed.
Lemma lookups_app : forall a b, lookups_of (a ++ b) = lookups_of a ++ lookups_of b. Proof. intros. apply flat_map_app. Qed.
Lemma hybrids_app : forall a b, hybrids_of (a ++ b) = hybrids_of a ++ hybrids_of b. Proof. intros. apply flat_map_app. Qed.

Lemma at_end_size : forall A (tbl : list A) v xs, at_end tbl v xs -> (length tbl <= 255)%nat -> vsize v = Z.of_nat (length xs).
Proof.
  intros A tbl v xs [(-> & ->)|(H & pre & -> & H1 & H2)] HL; [reflexivity|]. rewrite app_length in HL. unfold vsize. rewrite H1, H2. unfold u64. lia.
Qed.

Lemma register_step : forall ds d T, ginvr ds T -> groups_together (d_items d) ->
  (length ds < 255)%nat ->
  (length (strings_of (all_items (ds ++ [d]))) <= 255)%nat -> (length (vars_of (all_items (ds ++ [d]))) <= 255)%nat ->
  (length (lookups_of (all_items (ds ++ [d]))) <= 255)%nat -> (length (hybrids_of (all_items (ds ++ [d]))) <= 255)%nat ->
  ginvr (ds ++ [d]) (register T d).
Proof.
  intros ds d T [P A Ln S V L H SH] HG LD LS LV LL LH. assert (AI : all_items [d] = d_items d) by (unfold all_items; cbn [flat_map]; apply app_nil_r).
  rewrite all_items_app, AI in *.
  rewrite strings_app, app_length in LS. rewrite vars_app, app_length in LV. rewrite lookups_app, app_length in LL. rewrite hybrids_app, app_length in LH.
  destruct (push_at_end _ _ _ _ (length (tb_objs T)) A) as (P1 & P2); [rewrite P, seq_length; auto|].
  unfold register. destruct (push (tb_ptrs T) (tb_all T) (length (tb_objs T))) as [ptrs all]. cbn [fst snd] in P1, P2.
  set (T0 := {| tb_ptrs := ptrs |}). set (m0 := {| m_id := _ |}).
  assert (SQ : seq 0 (length ds) ++ [length (tb_objs T)] = seq 0 (length (ds ++ [d]))).
  { rewrite app_length. cbn [length]. rewrite seq_app, Ln. reflexivity. }
  assert (RI : rinv T0 m0 (d_items d) (fst (fold_left run_item (d_items d) (T0, m0))) (snd (fold_left run_item (d_items d) (T0, m0)))).
  { apply (run_ok T0 m0 (d_items d) [] T0 m0); auto; cbn [app]; subst T0; cbn [tb_str tb_var tb_lk tb_hy].
    - apply rinv_nil. auto.
    - rewrite S. lia.
    - lia.
    - rewrite L. lia.
    - rewrite H. lia. }
  destruct (fold_left run_item (d_items d) (T0, m0)) as [T1 m1]. cbn [fst snd] in RI.
  destruct RI as [(F1 & F2 & F3) (I1 & I2 & I3) RS RL RH (vs & V1 & V2 & V3 & V4) G _ LK HY].
  subst T0 m0. cbn [tb_ptrs tb_all tb_objs tb_str tb_var tb_lk tb_hy m_id m_name m_warp] in *.
  constructor; cbn [tb_ptrs tb_all tb_objs tb_str tb_var tb_lk tb_hy].
  - rewrite F1, P2, P. exact SQ.
  - rewrite F1, F2, <- SQ. exact P1.
  - rewrite F3, !app_length. cbn. lia.
  - rewrite RS, S, all_items_app, strings_app. rewrite AI. reflexivity.
  - rewrite V1, app_length, all_items_app, vars_app, app_length. rewrite AI.
    assert (length vs = length (vars_of (d_items d))) by (rewrite <- (map_length fst vs), V2, map_length; auto). lia.
  - rewrite RL, L, all_items_app, lookups_app. rewrite AI. reflexivity.
  - rewrite RH, H, all_items_app, hybrids_app. rewrite AI. reflexivity.
  - intros k e Hk. rewrite F3. destruct (Nat.lt_ge_cases k (length ds)) as [Lt|Ge].
    + rewrite nth_error_app1 in Hk by auto. destruct (SH k e Hk) as (m & Hm & (B1 & B2 & B3 & B4 & (ws & B5 & B6 & B7) & B8 & B9)).
      exists m. split; [rewrite nth_error_app1 by lia; auto|]. split; auto. split; auto. split; auto. cbn [tb_str tb_var tb_lk tb_hy].
      rewrite RS, V1, RL, RH. split; [apply holds_app; auto|]. split; [|split; apply holds_app; auto].
      exists ws. split; auto. split; [|apply holds_app; auto]. eapply Forall_impl; [|exact B6]. intros p Hp. unfold var_ok in *. cbn [tb_str]. apply holds_app. auto.
    + rewrite nth_error_app2 in Hk by auto. destruct (k - length ds)%nat as [|j] eqn:Ek; [|destruct j; discriminate]. injection Hk as <-.
      assert (k = length ds) by lia. subst k. exists m1. split; [rewrite nth_error_app2 by lia; replace (length ds - length (tb_objs T))%nat with 0%nat by lia; reflexivity|].
      split.
      { rewrite I1, (at_end_size _ _ _ _ P1) by (rewrite P2, P, app_length, seq_length; cbn; lia).
        rewrite SQ, seq_length, app_length. cbn. unfold u8. lia. }
      split; auto. split; auto. cbn [tb_str tb_var tb_lk tb_hy]. split; auto. split; [|split; apply at_end_holds; auto].
      exists vs. split; auto. split; [|apply at_end_holds; auto]. eapply Forall_impl; [|exact V3]. intros p Hp. exact Hp.
Qed.

Definition fits_tables (ds : list tdecl) : Prop :=
  (length ds <= 255)%nat /\ (length (strings_of (all_items ds)) <= 255)%nat /\ (length (vars_of (all_items ds)) <= 255)%nat /\
  (length (lookups_of (all_items ds)) <= 255)%nat /\ (length (hybrids_of (all_items ds)) <= 255)%nat.

Lemma register_all_ok : forall ds, Forall (fun d => groups_together (d_items d)) ds -> fits_tables ds -> ginvr ds (register_all ds).
Proof.
  intros ds HG. unfold register_all. induction ds as [|d ds IH] using rev_ind; intros (L0 & L1 & L2 & L3 & L4).
  - constructor; try reflexivity; [apply at_end_nil|]. intros [|k] d; discriminate.
  - rewrite fold_left_app. cbn [fold_left]. apply Forall_app in HG. destruct HG as (HG & Hd). inversion Hd; subst.
    rewrite all_items_app, ?strings_app, ?vars_app, ?lookups_app, ?hybrids_app, ?app_length in *. cbn [length] in L0.
    apply register_step; auto; try (rewrite all_items_app, ?strings_app, ?vars_app, ?lookups_app, ?hybrids_app, app_length; lia); [|lia].
    apply IH; auto. unfold fits_tables. lia.
Qed.

(** ** C14: the metadata of each type exposes exactly what the type declared *)
Theorem C14_metadata_lists : forall ds, Forall (fun d => groups_together (d_items d)) ds -> fits_tables ds ->
  forall k d, nth_error ds k = Some d ->
  exists m, get_from_id (register_all ds) (Z.of_nat k) = Ok (Some m) /\
    view_of (register_all ds) m =
      Ok {| vw_id := Z.of_nat k; vw_name := d_name d; vw_groups := groups_of (d_items d); vw_vars := vars_of (d_items d);
            vw_lookups := lookups_of (d_items d); vw_hybrids := hybrids_of (d_items d) |}.
Proof.
  intros ds HG HF k d Hk. destruct (register_all_ok ds HG HF) as [P A Ln S V L H SH]. destruct HF as (L0 & _).
  assert (Kl : (k < length ds)%nat) by (apply nth_error_Some; congruence).
  destruct (SH k d Hk) as (m & Hm & (B1 & B2 & B3 & B4 & (ws & B5 & B6 & B7) & B8 & B9)).
  exists m. split.
  - unfold get_from_id. rewrite (at_end_size _ _ _ _ A) by (rewrite P, seq_length; auto). rewrite seq_length.
    destruct (Z.ltb_spec (Z.of_nat k) (Z.of_nat (length ds))); [|lia].
    unfold vget, rd. destruct A as [(A & _)|(_ & pre & A & A1 & A2)].
    + destruct ds; [simpl in Kl; lia|discriminate].
    + assert (pre = []). { rewrite P in A. assert (X : length (seq 0 (length ds)) = length (pre ++ seq 0 (length ds))) by congruence. rewrite app_length in X. destruct pre; auto. simpl in X. lia. }
      subst pre. rewrite A1. cbn [length]. replace (Z.to_nat (Z.of_nat 0 + Z.of_nat k)) with k by lia. rewrite P.
      assert (SQ : forall n a j, (j < n)%nat -> nth_error (seq a n) j = Some (a + j)%nat) by (clear; induction n; intros a [|j] Hj; simpl; try lia; [f_equal; lia|rewrite IHn by lia; f_equal; lia]). rewrite SQ by auto. cbn [bind Nat.add]. rewrite Hm. reflexivity.
  - unfold view_of. rewrite (holds_contents _ _ _ _ B4), (holds_contents _ _ _ _ B7). cbn [bind].
    assert (VV : view_vars (register_all ds) ws = Ok (vars_of (d_items d))).
    { clear -B5 B6. assert (EV : forall its, vars_of its = map (fun d => (d, enum_names d)) (map fst (vars_of its))).
      { induction its as [|[] its IH]; simpl; auto. unfold vars_of in IH. rewrite IH at 1. rewrite !map_map. reflexivity. }
      rewrite EV, <- B5. clear -B6. induction B6 as [|[d v] ws Hv H IH]; [reflexivity|]. cbn [view_vars map fst].
      unfold var_ok in Hv. cbn [fst snd] in Hv. rewrite (holds_contents _ _ _ _ Hv). cbn [bind]. rewrite IH. reflexivity. }
    rewrite VV. cbn [bind]. rewrite (holds_contents _ _ _ _ B8), (holds_contents _ _ _ _ B9). cbn [bind]. rewrite B1, B2. reflexivity.
Qed.
Print Assumptions C14_metadata_lists.

(** the two hypotheses are needed *)
Theorem C14_overflow_refuted : exists ds d, Forall (fun d => groups_together (d_items d)) ds /\ nth_error ds 0 = Some d /\
  length (lookups_of (d_items d)) = 256%nat /\
  exists m vw, get_from_id (register_all ds) 0 = Ok (Some m) /\ view_of (register_all ds) m = Ok vw /\ vw_lookups vw = [].
Proof.
  set (d := {| d_name := "Big"; d_warp := false; d_items := repeat (ILookup (lG "s")) 256 |}). exists [d], d.
  split; [|split; [reflexivity|split; [vm_compute; reflexivity|]]].
  - apply Forall_cons; [|apply Forall_nil]. intros a g1 b g2 c E. exfalso.
    assert (In (IGroup g1) (d_items d)) by (rewrite E, !in_app_iff; right; left; left; reflexivity).
    pose proof (repeat_spec 256 (ILookup (lG "s")) (IGroup g1)) as R. change (repeat (ILookup (lG "s")) 256) with (d_items d) in R. specialize (R H). discriminate R.
  - set (m := {| m_id := 0; m_name := "Big"; m_warp := false; m_groups := vec0; m_vars := vec0; m_lookups := {| v_start := 0; v_end := 0 |}; m_hybrids := vec0 |}).
    set (vw := {| vw_id := 0; vw_name := "Big"; vw_groups := []; vw_vars := []; vw_lookups := []; vw_hybrids := [] |}).
    exists m, vw. split; [vm_cast_no_check (eq_refl (Ok (Some m)))|]. split; [vm_cast_no_check (eq_refl (Ok vw))|reflexivity].
Qed.
Print Assumptions C14_overflow_refuted.

Theorem C14_split_groups_refuted : exists ds d m vw, fits_tables ds /\ nth_error ds 0 = Some d /\
  get_from_id (register_all ds) 0 = Ok (Some m) /\ view_of (register_all ds) m = Ok vw /\ vw_groups vw <> groups_of (d_items d).
Proof.
  set (d := {| d_name := "T"; d_warp := false; d_items := [IGroup "A"; IVar (vE "v" 0 ["x"; "y"]%string); IGroup "B"] |}).
  exists [d], d, {| m_id := 0; m_name := "T"; m_warp := false; m_groups := {| v_start := 0; v_end := 4 |}; m_vars := {| v_start := 0; v_end := 1 |}; m_lookups := vec0; m_hybrids := vec0 |},
    {| vw_id := 0; vw_name := "T"; vw_groups := ["A"; "x"; "y"; "B"]%string; vw_vars := [(vE "v" 0 ["x"; "y"]%string, ["x"; "y"]%string)]; vw_lookups := []; vw_hybrids := [] |}.
  split; [unfold fits_tables; repeat split; apply Nat.leb_le; vm_compute; reflexivity|]. split; [reflexivity|]. split; [vm_compute; reflexivity|]. split; [vm_compute; reflexivity|].
  vm_compute. discriminate.
Qed.
Print Assumptions C14_split_groups_refuted.

(** ** C15: the shipped registry *)

(** the constructors of the shipped types: groups, then variables, sources, hybrids
    (the relative order of kinds is immaterial, except that the groups are together) *)
Definition decl_of (t : node_type) : tdecl :=
  {| d_name := t_name t; d_warp := t_warp t;
     d_items := map IGroup (t_groups t) ++ map IVar (t_vars t) ++ map ILookup (t_lookups t) ++ map IHybrid (t_hybrids t) |}.
Definition shipped : tables := register_all (map decl_of registry).

Lemma decl_parts : forall t, groups_of (d_items (decl_of t)) = t_groups t /\ vars_of (d_items (decl_of t)) = map (fun d => (d, enum_names d)) (t_vars t) /\
  lookups_of (d_items (decl_of t)) = t_lookups t /\ hybrids_of (d_items (decl_of t)) = t_hybrids t.
Proof.
  intros t.
  assert (Z1 : forall A B (f : A -> item) (g : item -> list B) (l : list A), (forall x, g (f x) = []) -> flat_map g (map f l) = []).
  { induction l; intros H; simpl; auto. rewrite H. auto. }
  assert (Z2 : forall A B (f : A -> item) (g : item -> list B) (h : A -> B) (l : list A), (forall x, g (f x) = [h x]) -> flat_map g (map f l) = map h l).
  { induction l; intros H; simpl; auto. rewrite H, IHl; auto. }
  assert (MI : forall A (l : list A), map (fun x => x) l = l) by (intros; apply map_id).
  unfold groups_of, vars_of, lookups_of, hybrids_of. cbn [decl_of d_items]. rewrite !flat_map_app. repeat split.
  - rewrite (Z2 _ _ IGroup _ (fun x => x)), (Z1 _ _ IVar), (Z1 _ _ ILookup), (Z1 _ _ IHybrid) by reflexivity. rewrite !app_nil_r. apply MI.
  - rewrite (Z1 _ _ IGroup), (Z2 _ _ IVar _ (fun d => (d, enum_names d))), (Z1 _ _ ILookup), (Z1 _ _ IHybrid) by reflexivity. rewrite !app_nil_r. reflexivity.
  - rewrite (Z1 _ _ IGroup), (Z1 _ _ IVar), (Z2 _ _ ILookup _ (fun x => x)), (Z1 _ _ IHybrid) by reflexivity. rewrite !app_nil_r. apply MI.
  - rewrite (Z1 _ _ IGroup), (Z1 _ _ IVar), (Z1 _ _ ILookup), (Z2 _ _ IHybrid _ (fun x => x)) by reflexivity. apply MI.
Qed.

Lemma decl_together : forall t, groups_together (d_items (decl_of t)).
Proof.
  intros t a g1 b g2 c E d Hd. exfalso. cbn [decl_of d_items] in E.
  assert (X : forall (gs : list string) (rest a b c : list item), (forall g, ~ In (IGroup g) rest) -> map IGroup gs ++ rest = a ++ [IGroup g1] ++ b ++ [IGroup g2] ++ c -> In (IVar d) b -> False).
  { clear. induction gs as [|g gs IH]; intros rest a b c HR E Hd.
    - apply (HR g1). simpl in E. rewrite E. cbn [app]. rewrite in_app_iff. right. left. reflexivity.
    - destruct a as [|x a]; cbn in E.
      + injection E as -> E. clear IH. revert b E Hd. induction gs as [|g gs IH]; intros b E Hd; simpl in E.
        * apply (HR g2). rewrite E. rewrite in_app_iff. right. left. reflexivity.
        * destruct b as [|y b]; [destruct Hd|]. injection E as <- E. destruct Hd as [Hd|Hd]; [discriminate|]. eapply IH; eauto.
      + injection E as _ E. exact (IH rest a b c HR E Hd). }
  eapply X; [|exact E|exact Hd]. intros g Hg. rewrite !in_app_iff, !in_map_iff in Hg. destruct Hg as [(? & ? & _)|[(? & ? & _)|(? & ? & _)]]; discriminate.
Qed.

Lemma shipped_fits : fits_tables (map decl_of registry).
Proof. unfold fits_tables. repeat split; apply Nat.leb_le; vm_compute; reflexivity. Qed.

(** the shipped types satisfy the hypotheses of C14, so the registry used everywhere
    else is what the library exposes, with ids in registration order *)
Theorem C15_shipped_ids_and_members : forall k t, nth_error registry k = Some t ->
  exists m, get_from_id shipped (Z.of_nat k) = Ok (Some m) /\
  view_of shipped m = Ok {| vw_id := Z.of_nat k; vw_name := t_name t; vw_groups := t_groups t;
      vw_vars := map (fun d => (d, enum_names d)) (t_vars t); vw_lookups := t_lookups t; vw_hybrids := t_hybrids t |}.
Proof.
  intros k t Hk. destruct (C14_metadata_lists (map decl_of registry)) with (k := k) (d := decl_of t) as (m & H1 & H2).
  - apply Forall_forall. intros d Hd. apply in_map_iff in Hd. destruct Hd as (t' & <- & _). apply decl_together.
  - apply shipped_fits.
  - rewrite nth_error_map, Hk. reflexivity.
  - exists m. split; auto. destruct (decl_parts t) as (A & B & C & D). rewrite A, B, C, D in H2. exact H2.
Qed.
Print Assumptions C15_shipped_ids_and_members.

(** ids outside 0..46 are not registered; table sizes are the reserved ones
    (Metadata.cpp:22-31) *)
Theorem C15_shipped_sizes :
  length registry = 47%nat /\ length (tb_ptrs shipped) = 47%nat /\ length (tb_str shipped) = 93%nat /\ length (tb_var shipped) = 93%nat /\
  length (tb_lk shipped) = 32%nat /\ length (tb_hy shipped) = 59%nat /\
  (forall id, 47 <= id < 256 -> get_from_id shipped id = Ok None).
Proof.
  do 6 (split; [vm_compute; reflexivity|]). intros id Hid. unfold get_from_id.
  assert (E : vsize (tb_all shipped) = 47) by (vm_compute; reflexivity). rewrite E. destruct (Z.ltb_spec id 47); [lia|reflexivity].
Qed.
Print Assumptions C15_shipped_sizes.

(** every member position fits the 5-bit field of the encoding, every id differs from
    the reserved 255 *)
Theorem C15_shipped_fits_encoding : registry_fits registry /\ forall k t, nth_error registry k = Some t -> Z.of_nat k < 255.
Proof.
  split; [apply registry_fits_shipped|]. intros k t H. assert (k < length registry)%nat by (apply nth_error_Some; congruence).
  assert (E : length registry = 47%nat) by reflexivity. rewrite E in *. lia.
Qed.
Print Assumptions C15_shipped_fits_encoding.

(** creation defaults equal metadata defaults, except for member 0 of type 5
    (Distance To Point, Distance Function) *)
Theorem C15_defaults_partial : forall k t, nth_error registry k = Some t ->
  (forall i d, nth_error (t_vars t) i = Some d -> (k, i) <> (5, 0)%nat -> v_class d = v_default d) /\
  (forall i d, nth_error (t_hybrids t) i = Some d -> h_class d = h_default d).
Proof.
  intros k t Hk. destruct (Nat.eq_dec k 5) as [->|Hne].
  - destruct (shipped_defaults_5 t Hk) as (A & B). split; auto. intros i d Hi Hne. destruct (A i d Hi) as (-> & _). congruence.
  - destruct (shipped_defaults k t Hk Hne) as (A & B). split; eauto.
Qed.
Print Assumptions C15_defaults_partial.
Theorem C15_defaults_refuted : exists t d, nth_error registry 5 = Some t /\ nth_error (t_vars t) 0 = Some d /\ v_default d = 0 /\ v_class d = 1.
Proof. do 2 eexists. repeat split. Qed.
Print Assumptions C15_defaults_refuted.

(** non-vacuity of C14 beyond the shipped registry: two types sharing the string table *)
Example C14_demo : exists m, get_from_id (register_all [decl_of (nth 40 registry (nth 0 registry (Build_node_type "" [] [] [] [] false))); decl_of (nth 19 registry (Build_node_type "" [] [] [] [] false))]) 1 = Ok (Some m) /\
  m_groups m <> vec0.
Proof. eexists. split; [vm_compute; reflexivity|]. intros E. vm_compute in E. discriminate. Qed.
