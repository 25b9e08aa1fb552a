(** Decoding what the writer wrote (reader registry possibly different from the
    writer's). *)
From Coq Require Import ZArith List Bool Lia ZifyBool ZifyNat.
From Verif Require Import Prelude Registry_Model Base64_Model NodeTree_Model NodeTree_Spec NodeTree_Tokens NodeTree_Ser NodeTree_Des.
Import ListNotations.
Open Scope Z_scope.
Ltac Zify.zify_post_hook ::= Z.div_mod_to_equations.

(** ** Reading member lookups *)
Definition RM (d : list Z) (m : Z * nat) (r : rstream) (ts : list tok) : Prop :=
  (exists ty i ts', ts = mtok ty i :: ts' /\ 0 <= ty < 4 /\ (i < 32)%nat /\ m = (ty, i) /\ RS d r ts') \/
  (exists ts', ts = TEnd :: ts' /\ fst m = NodeEnd /\ RS d r ts').

Definition starts_member (ts : list tok) : Prop :=
  (exists ty i ts', ts = mtok ty i :: ts' /\ 0 <= ty < 4 /\ (i < 32)%nat) \/ (exists ts', ts = TEnd :: ts').

Lemma member_byte_val : forall ty i, 0 <= ty < 4 -> (i < 32)%nat ->
  le_bytes 1 (member_byte ty (u8 (Z.of_nat i))) = [ty + 8 * Z.of_nat i].
Proof.
  intros ty i Ht Hi. unfold member_byte, u8. rewrite !Z.mod_small by lia. apply le_bytes_1. lia.
Qed.

Lemma get_member_RM : forall d r ts, RS d r ts -> starts_member ts ->
  exists m r', get_member d r = Ok (Some m, r') /\ RM d m r' ts /\ (r_pos r <= r_pos r')%nat /\
    (r_pos r' = S (r_pos r) \/ fst m = NodeEnd).
Proof.
  intros d r ts HR [(ty & i & ts' & -> & Ht & Hi)|(ts' & ->)].
  - unfold mtok in HR. rewrite member_byte_val in HR by auto.
    destruct (RS_member d r _ ts' HR) as (r' & E & HR' & Hp).
    { lia. }
    rewrite E. do 2 eexists. split; [reflexivity|]. split; [|split; [lia|left; lia]].
    left. exists ty, i, ts'. repeat split; auto; try lia. f_equal; unfold member_type, member_index; [lia|].
    replace ((ty + 8 * Z.of_nat i) / 8) with (Z.of_nat i) by lia. lia.
  - destruct (RS_end d r ts' HR) as (ix & r' & E & HR' & Hp). rewrite E. do 2 eexists. split; [reflexivity|].
    split; [|split; [lia|right; reflexivity]]. right. exists ts'. auto.
Qed.

Lemma RS_pos : forall d r ts, RS d r ts -> (r_pos r <= length d)%nat.
Proof. intros d r ts (e & ts' & _ & _ & H & _). exact H. Qed.

Lemma RM_pos : forall d m r ts, RM d m r ts -> (r_pos r <= length d)%nat.
Proof. intros d m r ts [(ty & i & ts' & _ & _ & _ & _ & H)|(ts' & _ & _ & H)]; eapply RS_pos; eauto. Qed.

Lemma mtok_inj : forall ty i ty' i' ts ts', 0 <= ty < 4 -> 0 <= ty' < 4 -> (i < 32)%nat -> (i' < 32)%nat ->
  mtok ty i :: ts = mtok ty' i' :: ts' -> ty = ty' /\ i = i' /\ ts = ts'.
Proof.
  intros ty i ty' i' ts ts' Ht Ht' Hi Hi' H. unfold mtok in H. rewrite !member_byte_val in H by auto.
  injection H as H H'. split; [lia|]. split; [lia|auto].
Qed.

(** ** What the reader stores *)
Fixpoint apply_vars (t : node_type) (i : nat) (vs : list Z) (ds : list var_decl) (nd : node_data) : node_data :=
  match vs, ds with
  | v :: vs', dd :: ds' =>
      apply_vars t (S i) vs' ds'
        (if v =? v_default dd then nd else if (i <? length (t_vars t))%nat then set_var nd i v else nd)
  | _, _ => nd
  end.

Fixpoint apply_lookups (t : node_type) (i : nat) (qs : list (option nat)) (nd : node_data) : node_data :=
  match qs with
  | [] => nd
  | q :: qs' => apply_lookups t (S i) qs' (if (i <? length (t_lookups t))%nat then set_lookup nd i q else nd)
  end.

(** [qs]: for each hybrid the index of the loaded node connected to it *)
Definition hyb_new (p : option nat * Z) (q : option nat) (dd : hybrid_decl) (old : option nat * Z) : option nat * Z :=
  match fst p with
  | None => if f32_neq (snd p) (h_default dd) then (fst old, snd p) else old
  | Some _ => (q, snd old)
  end.
Fixpoint apply_hybrids (t : node_type) (i : nat) (ps : list (option nat * Z)) (qs : list (option nat)) (ds : list hybrid_decl) (nd : node_data) : node_data :=
  match ps, qs, ds with
  | p :: ps', q :: qs', dd :: ds' =>
      apply_hybrids t (S i) ps' qs' ds'
        (match nth_error (nd_hybrids nd) i with
         | Some old => set_hybrid nd i (hyb_new p q dd old) | None => nd end)
  | _, _, _ => nd
  end.

Lemma nth_error_upd : forall A (l : list A) i j x,
  nth_error (upd l i x) j = match nth_error l j with None => None | Some old => Some (if Nat.eqb i j then x else old) end.
Proof.
  induction l; intros [|i] [|j] x; simpl; auto. destruct (nth_error l j); auto.
Qed.

Lemma apply_vars_frame : forall vs ds t i nd,
  nd_meta (apply_vars t i vs ds nd) = nd_meta nd /\ nd_lookups (apply_vars t i vs ds nd) = nd_lookups nd /\
  nd_hybrids (apply_vars t i vs ds nd) = nd_hybrids nd /\ length (nd_vars (apply_vars t i vs ds nd)) = length (nd_vars nd).
Proof.
  induction vs as [|v vs IH]; intros ds t i nd; simpl; auto. destruct ds as [|dd ds]; simpl; auto.
  destruct (IH ds t (S i) (if v =? v_default dd then nd else if (i <? length (t_vars t))%nat then set_var nd i v else nd)) as (A & B & C & D).
  rewrite A, B, C, D. destruct (v =? v_default dd); auto. destruct (i <? length (t_vars t))%nat; simpl; rewrite ?upd_length; auto.
Qed.

Lemma apply_vars_nth : forall vs ds t i nd j, length (nd_vars nd) = length (t_vars t) ->
  nth_error (nd_vars (apply_vars t i vs ds nd)) j =
  match nth_error (nd_vars nd) j with
  | None => None
  | Some old => Some (if (j <? i)%nat then old else
      match nth_error vs (j - i), nth_error ds (j - i) with
      | Some v, Some dd => if v =? v_default dd then old else v
      | _, _ => old end)
  end.
Proof.
  induction vs as [|v vs IH]; intros ds t i nd j HL; cbn [apply_vars].
  - destruct (nth_error (nd_vars nd) j); auto. destruct (j <? i)%nat; auto. destruct (j - i)%nat; auto.
  - destruct ds as [|dd ds].
    { destruct (nth_error (nd_vars nd) j); auto. destruct (j <? i)%nat; auto. destruct (j - i)%nat; simpl; auto. destruct (nth_error vs n); auto. }
    set (nd1 := if v =? v_default dd then nd else _).
    assert (L1 : length (nd_vars nd1) = length (t_vars t)).
    { subst nd1. destruct (v =? v_default dd); auto. destruct (i <? length (t_vars t))%nat; simpl; rewrite ?upd_length; auto. }
    rewrite IH by auto.
    assert (N1 : nth_error (nd_vars nd1) j = match nth_error (nd_vars nd) j with None => None | Some old => Some (if Nat.eqb i j then (if v =? v_default dd then old else v) else old) end).
    { subst nd1. destruct (v =? v_default dd).
      - destruct (nth_error (nd_vars nd) j); auto. destruct (Nat.eqb i j); auto.
      - destruct (i <? length (t_vars t))%nat eqn:E.
        + simpl. apply nth_error_upd.
        + destruct (nth_error (nd_vars nd) j) eqn:Ej; auto. destruct (Nat.eqb_spec i j); auto. subst j.
          assert (i < length (nd_vars nd))%nat by (apply nth_error_Some; congruence). lia. }
    rewrite N1. destruct (nth_error (nd_vars nd) j) as [old|]; auto.
    destruct (Nat.eqb_spec i j).
    + subst j. replace (i <? S i)%nat with true by lia. replace (i <? i)%nat with false by lia. rewrite Nat.sub_diag. simpl. reflexivity.
    + destruct (j <? i)%nat eqn:E.
      * replace (j <? S i)%nat with true by lia. auto.
      * replace (j <? S i)%nat with false by lia. replace (j - i)%nat with (S (j - S i)) by lia. simpl. reflexivity.
Qed.

Lemma apply_lookups_frame : forall qs t i nd,
  nd_meta (apply_lookups t i qs nd) = nd_meta nd /\ nd_vars (apply_lookups t i qs nd) = nd_vars nd /\
  nd_hybrids (apply_lookups t i qs nd) = nd_hybrids nd /\ length (nd_lookups (apply_lookups t i qs nd)) = length (nd_lookups nd).
Proof.
  induction qs as [|q qs IH]; intros t i nd; simpl; auto.
  destruct (IH t (S i) (if (i <? length (t_lookups t))%nat then set_lookup nd i q else nd)) as (A & B & C & D).
  rewrite A, B, C, D. destruct (i <? length (t_lookups t))%nat; simpl; rewrite ?upd_length; auto.
Qed.

Lemma apply_lookups_nth : forall qs t i nd j, length (nd_lookups nd) = length (t_lookups t) ->
  nth_error (nd_lookups (apply_lookups t i qs nd)) j =
  match nth_error (nd_lookups nd) j with
  | None => None
  | Some old => Some (if (j <? i)%nat then old else match nth_error qs (j - i) with Some q => q | None => old end)
  end.
Proof.
  induction qs as [|q qs IH]; intros t i nd j HL; cbn [apply_lookups].
  - destruct (nth_error (nd_lookups nd) j); auto. destruct (j <? i)%nat; auto. destruct (j - i)%nat; auto.
  - set (nd1 := if (i <? length (t_lookups t))%nat then _ else _).
    assert (L1 : length (nd_lookups nd1) = length (t_lookups t)).
    { subst nd1. destruct (i <? length (t_lookups t))%nat; simpl; rewrite ?upd_length; auto. }
    rewrite IH by auto.
    assert (N1 : nth_error (nd_lookups nd1) j = match nth_error (nd_lookups nd) j with None => None | Some old => Some (if Nat.eqb i j then q else old) end).
    { subst nd1. destruct (i <? length (t_lookups t))%nat eqn:E.
      + simpl. apply nth_error_upd.
      + destruct (nth_error (nd_lookups nd) j) eqn:Ej; auto. destruct (Nat.eqb_spec i j); auto. subst j.
        assert (i < length (nd_lookups nd))%nat by (apply nth_error_Some; congruence). lia. }
    rewrite N1. destruct (nth_error (nd_lookups nd) j) as [old|]; auto.
    destruct (Nat.eqb_spec i j).
    + subst j. replace (i <? S i)%nat with true by lia. replace (i <? i)%nat with false by lia. rewrite Nat.sub_diag. simpl. reflexivity.
    + destruct (j <? i)%nat eqn:E.
      * replace (j <? S i)%nat with true by lia. auto.
      * replace (j <? S i)%nat with false by lia. replace (j - i)%nat with (S (j - S i)) by lia. simpl. reflexivity.
Qed.

Lemma apply_hybrids_frame : forall ps qs ds t i nd,
  nd_meta (apply_hybrids t i ps qs ds nd) = nd_meta nd /\ nd_vars (apply_hybrids t i ps qs ds nd) = nd_vars nd /\
  nd_lookups (apply_hybrids t i ps qs ds nd) = nd_lookups nd /\ length (nd_hybrids (apply_hybrids t i ps qs ds nd)) = length (nd_hybrids nd).
Proof.
  induction ps as [|p ps IH]; intros qs ds t i nd; simpl; auto. destruct qs as [|q qs]; simpl; auto. destruct ds as [|dd ds]; simpl; auto.
  match goal with |- context [apply_hybrids t (S i) ps qs ds ?N] => destruct (IH qs ds t (S i) N) as (A & B & C & D) end.
  rewrite A, B, C, D. destruct (nth_error (nd_hybrids nd) i); simpl; rewrite ?upd_length; auto.
Qed.

Lemma apply_hybrids_nth : forall ps qs ds t i nd j,
  nth_error (nd_hybrids (apply_hybrids t i ps qs ds nd)) j =
  match nth_error (nd_hybrids nd) j with
  | None => None
  | Some old => Some (if (j <? i)%nat then old else
      match nth_error ps (j - i), nth_error qs (j - i), nth_error ds (j - i) with
      | Some p, Some q, Some dd => hyb_new p q dd old
      | _, _, _ => old end)
  end.
Proof.
  induction ps as [|p ps IH]; intros qs ds t i nd j; cbn [apply_hybrids].
  - destruct (nth_error (nd_hybrids nd) j); auto. destruct (j <? i)%nat; auto. destruct (j - i)%nat; auto.
  - destruct qs as [|q qs].
    { destruct (nth_error (nd_hybrids nd) j); auto. destruct (j <? i)%nat; auto. destruct (j - i)%nat; simpl; auto. destruct (nth_error ps n); auto. }
    destruct ds as [|dd ds].
    { destruct (nth_error (nd_hybrids nd) j); auto. destruct (j <? i)%nat; auto. destruct (j - i)%nat; simpl; auto. destruct (nth_error ps n); auto. destruct (nth_error qs n); auto. }
    set (nd1 := match nth_error (nd_hybrids nd) i with Some _ => _ | None => _ end).
    rewrite IH.
    assert (N1 : nth_error (nd_hybrids nd1) j = match nth_error (nd_hybrids nd) j with None => None | Some old => Some (if Nat.eqb i j then hyb_new p q dd old else old) end).
    { subst nd1. destruct (nth_error (nd_hybrids nd) i) eqn:Ei.
      - simpl. rewrite nth_error_upd. destruct (nth_error (nd_hybrids nd) j) eqn:Ej; auto. destruct (Nat.eqb_spec i j); auto. subst. congruence.
      - destruct (nth_error (nd_hybrids nd) j) eqn:Ej; auto. destruct (Nat.eqb_spec i j); auto. subst. congruence. }
    rewrite N1. destruct (nth_error (nd_hybrids nd) j) as [old|]; auto.
    destruct (Nat.eqb_spec i j).
    + subst j. replace (i <? S i)%nat with true by lia. replace (i <? i)%nat with false by lia. rewrite Nat.sub_diag. simpl. reflexivity.
    + destruct (j <? i)%nat eqn:E.
      * replace (j <? S i)%nat with true by lia. auto.
      * replace (j <? S i)%nat with false by lia. replace (j - i)%nat with (S (j - S i)) by lia. simpl. reflexivity.
Qed.

(** ** Reading the variables of a node *)
Definition not_var (ts : list tok) : Prop :=
  (exists ty i ts', ts = mtok ty i :: ts' /\ 1 <= ty < 4 /\ (i < 32)%nat) \/ (exists ts', ts = TEnd :: ts').

Lemma not_var_starts : forall ts, not_var ts -> starts_member ts.
Proof. intros ts [(ty & i & ts' & -> & ? & ?)|(ts' & ->)]; [left|right]; eauto. exists ty, i, ts'. repeat split; auto; lia. Qed.

Lemma var_toks_starts : forall vs ds i rest, (i + length vs <= 32)%nat -> not_var rest -> starts_member (var_toks i vs ds ++ rest).
Proof.
  induction vs as [|v vs IH]; intros ds i rest Hi Hr; [apply not_var_starts; auto|]. destruct ds as [|dd ds]; [apply not_var_starts; auto|].
  cbn [var_toks]. destruct (v =? v_default dd).
  - simpl. apply IH; auto. simpl in Hi. lia.
  - left. simpl in Hi. exists TypeVariable, i. eexists. split; [reflexivity|]. unfold TypeVariable. split; lia.
Qed.

Lemma des_vars_ok : forall d t vs ds i m nd r rest fuel, (i + length vs <= 32)%nat -> Forall is_u32 vs -> not_var rest ->
  length (nd_vars nd) = length (t_vars t) ->
  RM d m r (var_toks i vs ds ++ rest) ->
  (length d - r_pos r + 2 <= fuel \/ fst m <> TypeVariable /\ 1 <= fuel)%nat ->
  exists m' r', des_vars fuel d t m nd r = Ok (Some (m', apply_vars t i vs ds nd), r') /\ RM d m' r' rest /\ (r_pos r <= r_pos r')%nat.
Proof.
  intros d t. induction vs as [|v vs IH]; intros ds i m nd r rest fuel Hi Hv Hr HL HM Hf.
  - simpl in HM. simpl. destruct fuel as [|fuel]; [lia|]. cbn [des_vars].
    assert (E : fst m <> TypeVariable).
    { destruct HM as [(ty & j & ts' & E & Ht & Hj & -> & _)|(ts' & E & Hm & _)].
      - destruct Hr as [(ty' & j' & ts'' & -> & Ht' & Hj')|(ts'' & ->)]; [|discriminate].
        destruct (mtok_inj ty' j' ty j ts'' ts') as (-> & _); auto; try lia. simpl. unfold TypeVariable. lia.
      - rewrite Hm. discriminate. }
    replace (fst m =? TypeVariable) with false by lia. do 2 eexists. split; [reflexivity|]. split; auto.
  - destruct ds as [|dd ds].
    { simpl in HM. simpl. destruct (IH [] i m nd r rest fuel) as (m' & r' & E & H); auto.
      - simpl in Hi. lia. - inversion Hv; auto. - destruct vs; auto.
      - destruct vs; simpl in E; eauto. }
    cbn [var_toks apply_vars] in *. simpl in Hi. inversion Hv; subst. destruct (v =? v_default dd) eqn:E.
    + simpl in HM. apply IH; auto. lia.
    + simpl in HM. destruct HM as [(ty & j & ts' & E' & Ht & Hj & -> & HR)|(ts' & E' & _)]; [|discriminate].
      apply mtok_inj in E'; [|unfold TypeVariable; lia|lia|lia|lia]. destruct E' as (<- & <- & <-).
      destruct Hf as [Hf|(Hf & _)]; [|simpl in Hf; tauto].
      destruct fuel as [|fuel]; [lia|]. cbn [des_vars fst snd]. change (TypeVariable =? TypeVariable) with true. cbv iota.
      destruct (RS_value d r (le_bytes 4 v) _ ltac:(discriminate) HR) as (r1 & E1 & HR1 & Hp1).
      rewrite le_bytes_length in *. rewrite E1. cbn [bind]. rewrite le_val_bytes by (unfold is_u32 in *; simpl; lia).
      set (nd1 := if (i <? length (t_vars t))%nat then set_var nd i v else nd).
      assert (X : (if (i <? length (t_vars t))%nat then _ <- rd (nd_vars nd) i ; Ok (set_var nd i v) else Ok nd) = Ok nd1).
      { subst nd1. destruct (i <? length (t_vars t))%nat eqn:L; auto. destruct (rd_lt _ (nd_vars nd) i) as (x & -> & _); [lia|]. reflexivity. }
      rewrite X. cbn [bind].
      destruct (get_member_RM d r1 (var_toks (S i) vs ds ++ rest) HR1) as (m' & r2 & E2 & HM2 & Hp2 & Hc2).
      { apply var_toks_starts; auto. lia. }
      rewrite E2. cbn [bind]. pose proof (RM_pos _ _ _ _ HM2).
      destruct (IH ds (S i) m' nd1 r2 rest fuel) as (m3 & r3 & E3 & HM3 & Hp3); auto; [lia| |left; lia|].
      { subst nd1. destruct (i <? length (t_vars t))%nat; simpl; rewrite ?upd_length; auto. }
      rewrite E3. do 2 eexists. split; [reflexivity|]. split; auto. lia.
Qed.
