(** Decoding what the writer wrote: the main induction, for both readers. *)
From Coq Require Import ZArith List Bool Lia ZifyBool ZifyNat.
From Verif Require Import Prelude Registry_Model Base64_Model NodeTree_Model NodeTree_Spec NodeTree_Tokens NodeTree_Ser NodeTree_Des NodeTree_Round.
Import ListNotations.
Open Scope Z_scope.

(** index [q] of a loaded node corresponds to the written node [p] *)
Definition prel (R : list nat) (p q : option nat) : Prop :=
  match p with Some c => exists k, q = Some k /\ nth_error R k = Some c | None => q = None end.

Lemma prel_app : forall R N p q, prel R p q -> prel (R ++ N) p q.
Proof.
  intros R N [c|] q H; simpl in *; auto. destruct H as (k & -> & Hk). exists k. split; auto.
  rewrite nth_error_app1; auto. apply nth_error_Some. congruence.
Qed.

Section Match.
  (** default values of the reader: metadata defaults for NodeData, class
      initialisers for generators *)
  Variable dv : var_decl -> Z.
  Variable dh : hybrid_decl -> Z.

  Definition loaded_var (v : option Z) (d1 : option var_decl) (d2 : var_decl) : Z :=
    match v, d1 with
    | Some v, Some d1 => if v =? v_default d1 then dv d2 else v
    | _, _ => dv d2
    end.

  Definition loaded_hybrid (R : list nat) (p : option (option nat * Z)) (d1 : option hybrid_decl) (d2 : hybrid_decl) (q : option nat * Z) : Prop :=
    match p, d1 with
    | Some (None, v), Some d1 => q = (None, if f32_neq v (h_default d1) then v else dh d2)
    | Some (Some c, _), Some _ => snd q = dh d2 /\ prel R (Some c) (fst q)
    | _, _ => q = (None, dh d2)
    end.

  (** [b] (of reader type [t2]) is the loaded copy of [a] (of writer type [t1]) *)
  Record node_match (R : list nat) (t1 t2 : node_type) (a b : node_data) : Prop := {
    nm_meta : nd_meta b = nd_meta a;
    nm_vlen : length (nd_vars b) = length (t_vars t2);
    nm_vars : forall i d2, nth_error (t_vars t2) i = Some d2 ->
      nth_error (nd_vars b) i = Some (loaded_var (nth_error (nd_vars a) i) (nth_error (t_vars t1) i) d2);
    nm_llen : length (nd_lookups b) = length (t_lookups t2);
    nm_lookups : forall i, (i < length (t_lookups t2))%nat -> exists q, nth_error (nd_lookups b) i = Some q /\
      match nth_error (nd_lookups a) i with Some p => prel R p q | None => q = None end;
    nm_hlen : length (nd_hybrids b) = length (t_hybrids t2);
    nm_hybrids : forall i d2, nth_error (t_hybrids t2) i = Some d2 -> exists q, nth_error (nd_hybrids b) i = Some q /\
      loaded_hybrid R (nth_error (nd_hybrids a) i) (nth_error (t_hybrids t1) i) d2 q
  }.

  Lemma node_match_app : forall R N t1 t2 a b, node_match R t1 t2 a b -> node_match (R ++ N) t1 t2 a b.
  Proof.
    intros R N t1 t2 a b []. constructor; auto.
    - intros i Hi. destruct (nm_lookups0 i Hi) as (q & Hq & H). exists q. split; auto.
      destruct (nth_error (nd_lookups a) i); auto. apply prel_app; auto.
    - intros i d2 Hi. destruct (nm_hybrids0 i d2 Hi) as (q & Hq & H). exists q. split; auto.
      unfold loaded_hybrid in *. destruct (nth_error (nd_hybrids a) i) as [[[c|] v]|]; auto.
      destruct (nth_error (t_hybrids t1) i); auto. destruct H. split; auto. apply prel_app; auto.
  Qed.

  Definition init_node (id : nat) (t : node_type) : node_data :=
    {| nd_meta := Some id; nd_vars := map dv (t_vars t); nd_lookups := map (fun _ => None) (t_lookups t);
       nd_hybrids := map (fun x => (None, dh x)) (t_hybrids t) |}.

  Lemma built_match : forall R t1 t2 id a ql qh,
    nd_meta a = Some id ->
    length (nd_vars a) = length (t_vars t1) ->
    length (nd_hybrids a) = length (t_hybrids t1) ->
    Forall2 (prel R) (nd_lookups a) ql ->
    Forall2 (prel R) (map fst (nd_hybrids a)) qh ->
    node_match R t1 t2 a
      (apply_hybrids t2 0 (nd_hybrids a) qh (t_hybrids t1)
        (apply_lookups t2 0 ql (apply_vars t2 0 (nd_vars a) (t_vars t1) (init_node id t2)))).
  Proof.
    intros R t1 t2 id a ql qh Hm LV LH FL FH.
    destruct (apply_vars_frame (nd_vars a) (t_vars t1) t2 0 (init_node id t2)) as (V1 & V2 & V3 & V4).
    set (n1 := apply_vars t2 0 (nd_vars a) (t_vars t1) (init_node id t2)) in *.
    destruct (apply_lookups_frame ql t2 0 n1) as (L1 & L2 & L3 & L4).
    set (n2 := apply_lookups t2 0 ql n1) in *.
    destruct (apply_hybrids_frame (nd_hybrids a) qh (t_hybrids t1) t2 0 n2) as (H1 & H2 & H3 & H4).
    constructor.
    - rewrite H1, L1, V1. simpl. auto.
    - rewrite H2, L2, V4. simpl. apply map_length.
    - intros i d2 Hi. rewrite H2, L2. subst n1. rewrite apply_vars_nth by (simpl; apply map_length).
      simpl nd_vars at 1. rewrite nth_error_map, Hi. cbn [option_map]. rewrite Nat.sub_0_r. simpl (i <? 0)%nat. cbv iota.
      unfold loaded_var. destruct (nth_error (nd_vars a) i); auto.
    - rewrite H3, L4, V2. simpl. apply map_length.
    - intros i Hi. rewrite H3. subst n2. rewrite apply_lookups_nth by (rewrite V2; simpl; apply map_length).
      rewrite V2. simpl nd_lookups at 1. rewrite nth_error_map. destruct (nth_error (t_lookups t2) i) eqn:E; [|apply nth_error_None in E; lia].
      cbn [option_map]. rewrite Nat.sub_0_r. simpl (i <? 0)%nat. cbv iota. eexists. split; [reflexivity|].
      clear - FL. revert i. induction FL; intros [|i]; simpl; auto. apply IHFL.
    - rewrite H4, L3, V3. simpl. apply map_length.
    - intros i d2 Hi. rewrite apply_hybrids_nth. rewrite L3, V3. simpl nd_hybrids at 1. rewrite nth_error_map, Hi. cbn [option_map].
      rewrite Nat.sub_0_r. simpl (i <? 0)%nat. cbv iota. eexists. split; [reflexivity|].
      unfold loaded_hybrid. destruct (nth_error (nd_hybrids a) i) as [[c v]|] eqn:E; auto.
      assert (exists q, nth_error qh i = Some q /\ prel R c q) as (q & Eq & Pq).
      { clear - FH E. revert i E. remember (map fst (nd_hybrids a)) as ps. revert Heqps. generalize (nd_hybrids a). 
        induction FH; intros l0 Hl i E; destruct l0 as [|[c0 v0] l0]; try discriminate; [destruct i; discriminate|].
        simpl in Hl. injection Hl as -> ->. destruct i as [|i]; simpl in *; [|eauto]. injection E as -> ->. eauto. }
      rewrite Eq. destruct (nth_error (t_hybrids t1) i) as [d1|] eqn:Ed.
      2: { apply nth_error_None in Ed. assert (i < length (nd_hybrids a))%nat by (apply nth_error_Some; congruence). lia. }
      unfold hyb_new. destruct c as [c|]; simpl.
      + split; auto.
      + destruct (f32_neq v (h_default d1)); auto.
  Qed.
End Match.

Lemma Forall2_prel_app : forall R N l q, Forall2 (prel R) l q -> Forall2 (prel (R ++ N)) l q.
Proof. intros R N l q H. induction H; constructor; auto. apply prel_app; auto. Qed.

Lemma ref_tok_val : forall i, Z.of_nat i < 65536 -> le_val (le_bytes 2 (u16 (Z.of_nat i))) = Z.of_nat i.
Proof. intros. unfold u16. rewrite Z.mod_small by lia. apply le_val_bytes. simpl. lia. Qed.

Section Decode.
  Variables reg1 reg2 : list node_type.
  Variable h : heap.
  Variable d : list Z.
  Hypothesis Hfit : registry_fits reg1.
  (** the reader knows every type the writer knows *)
  Hypothesis Hreg : forall id t1, nth_error reg1 id = Some t1 -> exists t2, nth_error reg2 id = Some t2.

  Definition types_of (id : nat) (t1 t2 : node_type) : Prop := nth_error reg1 id = Some t1 /\ nth_error reg2 id = Some t2.

  (** the loaded nodes [out] are the copies of [R], position by position *)
  Definition outmatch (dv : var_decl -> Z) (dh : hybrid_decl -> Z) (R : list nat) (out : heap) : Prop :=
    length out = length R /\
    forall k n, nth_error R k = Some n -> exists nd nd' id t1 t2,
      nth_error h n = Some nd /\ nd_meta nd = Some id /\ types_of id t1 t2 /\
      nth_error out k = Some nd' /\ node_match dv dh R t1 t2 nd nd'.

  Lemma outmatch_snoc : forall dv dh R out n nd nd' id t1 t2,
    outmatch dv dh R out -> nth_error h n = Some nd -> nd_meta nd = Some id -> types_of id t1 t2 ->
    node_match dv dh R t1 t2 nd nd' -> outmatch dv dh (R ++ [n]) (out ++ [nd']).
  Proof.
    intros dv dh R out n nd nd' id t1 t2 (HL & H) Hn Hm Ht HM. split; [rewrite !app_length; simpl; lia|].
    intros k x Hk. destruct (Nat.lt_ge_cases k (length R)) as [L|L].
    - rewrite nth_error_app1 in Hk by auto. destruct (H k x Hk) as (a & b & id' & t1' & t2' & A & B & C & D & E).
      exists a, b, id', t1', t2'. split; auto. split; auto. split; auto. split.
      + rewrite nth_error_app1 by lia. auto.
      + apply node_match_app; auto.
    - rewrite nth_error_app2 in Hk by auto. destruct (k - length R)%nat as [|j] eqn:E; [|destruct j; discriminate].
      simpl in Hk. injection Hk as <-. exists nd, nd', id, t1, t2. split; auto. split; auto. split; auto. split.
      + rewrite nth_error_app2 by lia. replace (k - length out)%nat with 0%nat by lia. auto.
      + apply node_match_app; auto.
  Qed.

  Definition vals (R : list nat) : Prop := forall x nd, In x R -> nth_error h x = Some nd -> values_ok nd.

  Lemma vals_app_l : forall R N, vals (R ++ N) -> vals R.
  Proof. intros R N H x nd Hx. apply H. rewrite in_app_iff. auto. Qed.

  Definition hyb_starts (ts : list tok) : Prop :=
    (exists ty i ts', ts = mtok ty i :: ts' /\ 2 <= ty < 4 /\ (i < 32)%nat) \/ (exists ts', ts = TEnd :: ts').
  Lemma hyb_starts_not_var : forall ts, hyb_starts ts -> not_var ts.
  Proof. intros ts [(ty & i & ts' & -> & ? & ?)|(ts' & ->)]; [left|right]; eauto. exists ty, i, ts'. repeat split; auto; lia. Qed.

  Lemma EncH_starts : forall R i ps ds th R2 rest, EncH reg1 h R i ps ds th R2 -> (i + length ps <= 32)%nat ->
    hyb_starts (th ++ TEnd :: rest).
  Proof.
    intros R i ps ds th R2 rest H. induction H; intros Hi; simpl in Hi.
    - right. simpl. eauto.
    - rewrite <- app_assoc. destruct (f32_neq v (h_default d0)).
      + left. simpl. exists TypeHybridVariable, i. eexists. split; [reflexivity|]. unfold TypeHybridVariable. split; lia.
      + simpl. apply IHEncH. lia.
    - left. simpl. exists TypeHybridLookup, i. eexists. split; [reflexivity|]. unfold TypeHybridLookup. split; lia.
  Qed.

  Lemma fits : forall id t, nth_error reg1 id = Some t ->
    (id < 255)%nat /\ (length (t_vars t) <= 32)%nat /\ (length (t_lookups t) <= 31)%nat /\ (length (t_hybrids t) <= 32)%nat.
  Proof.
    intros id t H. destruct Hfit as (A & B). split.
    - assert (id < length reg1)%nat by (apply nth_error_Some; congruence). lia.
    - rewrite Forall_forall in B. apply B. eapply nth_error_In; eauto.
  Qed.

  Lemma des_round :
    (forall R n ts R', Enc reg1 h R n ts R' -> Z.of_nat (length R') <= 65536 -> vals R' ->
       forall fuel r out rest, RS d r (ts ++ rest) -> outmatch v_default h_default R out -> (length d - r_pos r < fuel)%nat ->
       exists k r' out', des fuel reg2 d r out = Ok (Some k, r', out') /\ RS d r' rest /\ outmatch v_default h_default R' out' /\
         nth_error R' k = Some n /\ (r_pos r < r_pos r')%nat) /\
    (forall R ps ts R', EncL reg1 h R ps ts R' -> Z.of_nat (length R') <= 65536 -> vals R' ->
       forall f t2 i nd r out rest, RS d r (ts ++ rest) -> outmatch v_default h_default R out -> (length d - r_pos r < f)%nat ->
       length (nd_lookups nd) = length (t_lookups t2) ->
       exists qs r' out', des_lookups (des f reg2 d) t2 (length ps) i nd r out = Ok (apply_lookups t2 i qs nd, r', out') /\
         RS d r' rest /\ outmatch v_default h_default R' out' /\ Forall2 (prel R') ps qs /\ (r_pos r <= r_pos r')%nat) /\
    (forall R i ps ds ts R', EncH reg1 h R i ps ds ts R' -> Z.of_nat (length R') <= 65536 -> vals R' ->
       Forall (fun p => is_u32 (snd p)) ps -> (i + length ps <= 32)%nat ->
       forall f fuel t2 m nd r out rest, RM d m r (ts ++ TEnd :: rest) -> outmatch v_default h_default R out -> (length d - r_pos r < f)%nat ->
       (length d - r_pos r + 2 <= fuel \/ fst m = NodeEnd /\ 1 <= fuel)%nat ->
       length (nd_hybrids nd) = length (t_hybrids t2) ->
       exists qs r' out', des_hybrids (des f reg2 d) d t2 fuel m nd r out = Ok (Some (apply_hybrids t2 i ps qs ds nd), r', out') /\
         RS d r' rest /\ outmatch v_default h_default R' out' /\ Forall2 (prel R') (map fst ps) qs /\ (r_pos r <= r_pos r')%nat).
  Proof.
    pose proof (Enc_new reg1 h) as (N1 & N2 & N3). apply Enc_mutind.
    - (* reference *)
      intros R n i Hi HL _ fuel r out rest HR HO Hf. destruct fuel as [|f]; [lia|]. cbn [des].
      change ([TB (le_bytes 1 255); ref_tok i] ++ rest) with (TB [255] :: ref_tok i :: rest) in HR.
      destruct (RS_value d r [255] _ ltac:(discriminate) HR) as (r1 & E1 & HR1 & Hp1). simpl length in E1, Hp1. rewrite E1. cbn [bind].
      change (le_val [255] =? 255) with true. cbv iota.
      assert (Hlt : (i < length R)%nat) by (apply nth_error_Some; congruence).
      destruct (RS_value d r1 (le_bytes 2 (u16 (Z.of_nat i))) rest ltac:(discriminate) HR1) as (r2 & E2 & HR2 & Hp2).
      rewrite le_bytes_length in E2, Hp2. rewrite E2. cbn [bind]. rewrite ref_tok_val by lia. rewrite Nat2Z.id.
      destruct HO as (HO1 & HO2). replace (length out <=? i)%nat with false by lia.
      destruct (rd_lt _ out i) as (x & -> & _); [lia|]. cbn [bind].
      do 3 eexists. split; [reflexivity|]. split; auto. split; [split; auto|]. split; [auto|lia].
    - (* node *)
      intros R n nd id t tl R1 th R2 Hn Hm Ht Lv Ll Lh HnR EL IHL EH IHH HnR2 HL HV fuel r out rest HR HO Hf.
      destruct fuel as [|f]; [lia|]. cbn [des].
      destruct (fits id t Ht) as (Fid & Fv & Fl & Fh).
      destruct (N3 _ _ _ _ _ _ EH) as (NH & EqR2 & _).
      destruct (Hreg id t Ht) as (t2 & Ht2).
      rewrite le_bytes_1 in HR by lia. simpl app in HR.
      destruct (RS_value d r [Z.of_nat id] _ ltac:(discriminate) HR) as (r1 & E1 & HR1 & Hp1). simpl length in E1, Hp1. rewrite E1. cbn [bind].
      replace (le_val [Z.of_nat id]) with (Z.of_nat id) by (simpl; lia).
      replace (Z.of_nat id =? 255) with false by lia. rewrite Nat2Z.id.
      assert (Hid2 : (id < length reg2)%nat) by (apply nth_error_Some; congruence).
      replace (length reg2 <=? id)%nat with false by lia.
      unfold rd at 1. rewrite Ht2. cbn [bind].
      assert (VN : values_ok nd) by (apply (HV n); auto; rewrite in_app_iff; right; left; auto).
      destruct VN as (VN1 & VN2).
      assert (HS : hyb_starts (th ++ TEnd :: rest)) by (eapply EncH_starts; eauto; lia).
      pose proof (hyb_starts_not_var _ HS) as NV2.
      assert (NV : not_var (count_toks (length (t_lookups t)) ++ tl ++ th ++ TEnd :: rest)).
      { unfold count_toks. destruct (Nat.eqb_spec (length (t_lookups t)) 0) as [E0|E0].
        - simpl. assert (nd_lookups nd = []) by (destruct (nd_lookups nd); auto; simpl in Ll; lia).
          rewrite H in EL. inversion EL; subst. simpl. auto.
        - left. simpl. exists TypeLookup, (length (t_lookups t)). eexists. split; [reflexivity|]. unfold TypeLookup. split; lia. }
      rewrite <- !app_assoc in HR1. simpl app in HR1.
      destruct (get_member_RM d r1 _ HR1) as (m & r2 & E2 & HM2 & Hp2 & Hc2).
      { apply var_toks_starts; auto. lia. }
      rewrite E2. cbn [bind]. pose proof (RM_pos _ _ _ _ HM2) as P2.
      assert (Hq2 : (r_pos r2 = S (r_pos r1))%nat).
      { destruct (get_member_total d r1 (RS_pos _ _ _ HR1)) as (m' & r2' & E2' & _ & X). rewrite E2 in E2'. injection E2' as <- <-. simpl in X.
        destruct X as [X|(_ & X)]; auto. exfalso. pose proof (get_value_total d 1 r (RS_pos _ _ _ HR)) as (v & r1' & E1' & _ & Y).
        rewrite E1 in E1'. injection E1' as <- <-. simpl in Y. lia. }
      destruct (des_vars_ok d t2 (nd_vars nd) (t_vars t) 0 m (new_node_data id t2) r2 _ f ltac:(lia) VN1 NV) as (m3 & r3 & E3 & HM3 & Hp3); auto.
      { simpl. apply map_length. } { left. lia. }
      rewrite E3. cbn [bind]. pose proof (RM_pos _ _ _ _ HM3) as P3.
      destruct (apply_vars_frame (nd_vars nd) (t_vars t) t2 0 (new_node_data id t2)) as (AV1 & AV2 & AV3 & AV4).
      set (nd3 := apply_vars t2 0 (nd_vars nd) (t_vars t) (new_node_data id t2)) in *.
      (* lookups *)
      assert (Y : exists ql m4 r4 out4,
        (if fst m3 =? TypeLookup then
           ' (nd, r, out) <- des_lookups (des f reg2 d) t2 (snd m3) 0 nd3 r3 out ;
           ' (m', r) <- get_member d r ;
           Ok (match m' with None => None | Some m' => Some (m', nd) end, r, out)
         else Ok (Some (m3, nd3), r3, out)) = Ok (Some (m4, apply_lookups t2 0 ql nd3), r4, out4) /\
        RM d m4 r4 (th ++ TEnd :: rest) /\ outmatch v_default h_default R1 out4 /\ Forall2 (prel R1) (nd_lookups nd) ql /\ (r_pos r3 <= r_pos r4)%nat).
      { unfold count_toks in HM3. destruct (Nat.eqb_spec (length (t_lookups t)) 0) as [E0|E0].
        - simpl in HM3. assert (Enil : nd_lookups nd = []) by (destruct (nd_lookups nd); auto; simpl in Ll; lia).
          rewrite Enil in EL. inversion EL; subst. simpl in HM3.
          assert (fst m3 <> TypeLookup).
          { destruct HM3 as [(ty & j & ts' & E & Hty & Hj & -> & _)|(ts' & E & Hm3 & _)]; [|rewrite Hm3; discriminate].
            destruct HS as [(ty' & j' & ts'' & E' & Hty' & Hj')|(ts'' & E')]; rewrite E' in E; [|discriminate].
            apply mtok_inj in E; try lia. destruct E as (<- & _). simpl. unfold TypeLookup. lia. }
          replace (fst m3 =? TypeLookup) with false by lia.
          exists [], m3, r3, out. simpl. rewrite Enil. repeat split; auto; try apply HO. 
        - simpl in HM3. destruct HM3 as [(ty & j & ts' & E & Hty & Hj & -> & HR3)|(ts' & E & _)]; [|discriminate].
          apply mtok_inj in E; [|unfold TypeLookup; lia|lia|lia|lia]. destruct E as (<- & <- & <-).
          cbn [fst snd]. change (TypeLookup =? TypeLookup) with true. cbv iota.
          destruct (IHL ltac:(rewrite EqR2, !app_length in HL; lia)) with (f := f) (t2 := t2) (i := 0%nat) (nd := nd3) (r := r3) (out := out) (rest := th ++ TEnd :: rest)
            as (ql & r4 & out4 & E4 & HR4 & HO4 & F4 & Hp4); auto.
          { rewrite EqR2 in HV. apply vals_app_l in HV. apply vals_app_l in HV. exact HV. }
          { lia. } { rewrite AV2. simpl. apply map_length. }
          rewrite <- Ll. rewrite E4. cbn [bind].
          destruct (get_member_RM d r4 _ HR4) as (m5 & r5 & E5 & HM5 & Hp5 & _); [apply not_var_starts; auto|].
          rewrite E5. cbn [bind]. exists ql, m5, r5, out4. repeat split; auto; try apply HO4. lia. }
      destruct Y as (ql & m4 & r4 & out4 & E4 & HM4 & HO4 & F4 & Hp4). rewrite E4. cbn [bind].
      pose proof (RM_pos _ _ _ _ HM4) as P4.
      destruct (apply_lookups_frame ql t2 0 nd3) as (AL1 & AL2 & AL3 & AL4).
      destruct (IHH ltac:(rewrite app_length in HL; simpl in HL; lia) (vals_app_l _ _ HV) VN2 ltac:(lia)) with (f := f) (fuel := f) (t2 := t2) (m := m4)
        (nd := apply_lookups t2 0 ql nd3) (r := r4) (out := out4) (rest := rest) as (qh & r5 & out5 & E5 & HR5 & HO5 & F5 & Hp5); auto.
      { lia. } { left. lia. } { rewrite AL3, AV3. simpl. apply map_length. }
      rewrite E5. cbn [bind]. do 3 eexists. split; [reflexivity|]. split; auto. split; [|split].
      + eapply outmatch_snoc; eauto; [split; eauto|]. apply built_match; auto.
        rewrite EqR2. apply Forall2_prel_app. auto.
      + destruct HO5 as (-> & _). rewrite nth_error_app2 by lia. rewrite Nat.sub_diag. reflexivity.
      + lia.
    - (* EncL nil *)
      intros R HL HV f t2 i nd r out rest HR HO Hf HLn. simpl. exists [], r, out. simpl. repeat split; auto; apply HO.
    - (* EncL cons *)
      intros R c ps t1 R1 t2' R2 E IH1 EL IH2 HL HV f t2 i nd r out rest HR HO Hf HLn.
      destruct (N2 _ _ _ _ EL) as (N & EqR2 & _). cbn [des_lookups length].
      rewrite <- app_assoc in HR.
      destruct (IH1 ltac:(rewrite EqR2, app_length in HL; lia) ltac:(rewrite EqR2 in HV; eapply vals_app_l; eauto) f r out _ HR HO Hf) as (k & r1 & out1 & E1 & HR1 & HO1 & Hk & Hp1).
      rewrite E1. cbn [bind].
      assert (X : (if (i <? length (t_lookups t2))%nat then _ <- rd (nd_lookups nd) i ; Ok (set_lookup nd i (Some k)) else Ok nd)
         = Ok (if (i <? length (t_lookups t2))%nat then set_lookup nd i (Some k) else nd)).
      { destruct (i <? length (t_lookups t2))%nat eqn:L; auto. destruct (rd_lt _ (nd_lookups nd) i) as (x & -> & _); [lia|]. reflexivity. }
      rewrite X. cbn [bind].
      pose proof (RS_pos _ _ _ HR1).
      destruct (IH2 HL HV f t2 (S i) (if (i <? length (t_lookups t2))%nat then set_lookup nd i (Some k) else nd) r1 out1 rest HR1 HO1)
        as (qs & r2 & out2 & E2 & HR2 & HO2 & F2 & Hp2); [lia| |].
      { destruct (i <? length (t_lookups t2))%nat; simpl; rewrite ?upd_length; auto. }
      rewrite E2. exists (Some k :: qs), r2, out2. simpl apply_lookups. split; [reflexivity|]. split; auto. split; auto. split; [|lia].
      constructor; auto. exists k. split; auto. rewrite EqR2. rewrite nth_error_app1; auto. apply nth_error_Some. congruence.
    - (* EncH nil *)
      intros R i HL HV _ Hi f fuel t2 m nd r out rest HM HO Hf Hfu HLn.
      simpl in HM. destruct HM as [(ty & j & ts' & E & _)|(ts' & E & Hm & HR)]; [discriminate|]. injection E as <-.
      destruct fuel as [|fuel]; [lia|]. cbn [des_hybrids]. rewrite Hm. change (NodeEnd =? NodeEnd) with true. cbv iota.
      exists [], r, out. simpl. repeat split; auto; apply HO.
    - (* EncH value *)
      intros R i v ps dd ds t2' R2 EH IH HL HV HU Hi f fuel t2 m nd r out rest HM HO Hf Hfu HLn.
      inversion HU as [|p ps' Hv HU']; subst. simpl in Hi. cbn [apply_hybrids map fst].
      rewrite <- app_assoc in HM.
      assert (Done : forall fuel m nd1 r1, RM d m r1 (t2' ++ TEnd :: rest) -> (r_pos r <= r_pos r1)%nat ->
         (length d - r_pos r1 + 2 <= fuel \/ fst m = NodeEnd /\ 1 <= fuel)%nat ->
         nd1 = match nth_error (nd_hybrids nd) i with Some old => set_hybrid nd i (hyb_new (None, v) None dd old) | None => nd end ->
         exists qs r' out', des_hybrids (des f reg2 d) d t2 fuel m nd1 r1 out = Ok (Some (apply_hybrids t2 i ((None, v) :: ps) qs (dd :: ds) nd), r', out') /\
           RS d r' rest /\ outmatch v_default h_default R2 out' /\ Forall2 (prel R2) (None :: map fst ps) qs /\ (r_pos r <= r_pos r')%nat).
      { intros fuel0 m0 nd1 r1 HM1 Hp1 Hf1 ->. pose proof (RM_pos _ _ _ _ HM1).
        destruct (IH HL HV HU' ltac:(lia) f fuel0 t2 m0
          (match nth_error (nd_hybrids nd) i with Some old => set_hybrid nd i (hyb_new (None, v) None dd old) | None => nd end) r1 out rest HM1 HO)
          as (qs & r2 & out2 & E2 & HR2 & HO2 & F2 & Hp2); auto; [lia| |].
        { destruct (nth_error (nd_hybrids nd) i); simpl; rewrite ?upd_length; auto. }
        exists (None :: qs), r2, out2. cbn [apply_hybrids]. split; [exact E2|]. split; auto. split; auto. split; [|lia]. constructor; auto. reflexivity. }
      destruct (f32_neq v (h_default dd)) eqn:Ev.
      + simpl in HM. destruct HM as [(ty & j & ts' & E & Hty & Hj & -> & HR)|(ts' & E & _)]; [|discriminate].
        apply mtok_inj in E; [|unfold TypeHybridVariable; lia|lia|lia|lia]. destruct E as (<- & <- & <-).
        destruct Hfu as [Hfu|(Hfu & _)]; [|discriminate]. destruct fuel as [|fuel]; [lia|]. cbn [des_hybrids fst snd].
        change (TypeHybridVariable =? NodeEnd) with false. change (TypeHybridVariable =? TypeHybridLookup) with false.
        change (TypeHybridVariable =? TypeHybridVariable) with true. cbv iota.
        destruct (RS_value d r (le_bytes 4 v) _ ltac:(discriminate) HR) as (r1 & E1 & HR1 & Hp1).
        rewrite le_bytes_length in *. rewrite E1. cbn [bind]. rewrite le_val_bytes by (unfold is_u32 in *; simpl in *; lia).
        set (nd1 := match nth_error (nd_hybrids nd) i with Some old => set_hybrid nd i (hyb_new (None, v) None dd old) | None => nd end).
        assert (X : (if (i <? length (t_hybrids t2))%nat then old <- rd (nd_hybrids nd) i ; Ok (set_hybrid nd i (fst old, v)) else Ok nd) = Ok nd1).
        { subst nd1. destruct (i <? length (t_hybrids t2))%nat eqn:L.
          - destruct (rd_lt _ (nd_hybrids nd) i) as (x & -> & ->); [lia|]. cbn [bind]. unfold hyb_new. simpl. rewrite Ev. reflexivity.
          - destruct (nth_error (nd_hybrids nd) i) eqn:En; auto. assert (i < length (nd_hybrids nd))%nat by (apply nth_error_Some; congruence). lia. }
        rewrite X. cbn [bind].
        destruct (get_member_RM d r1 _ HR1) as (m' & r2 & E2 & HM2 & Hp2 & Hc2).
        { apply not_var_starts, hyb_starts_not_var. eapply EncH_starts; eauto. lia. }
        rewrite E2. cbn [bind]. pose proof (RM_pos _ _ _ _ HM2).
        apply Done; auto; [lia|]. left. lia.
      + simpl in HM. apply Done; auto.
        destruct (nth_error (nd_hybrids nd) i) as [old|] eqn:En; auto. unfold hyb_new. simpl. rewrite Ev.
        unfold set_hybrid. destruct nd as [a b c e]. simpl in *. f_equal. clear - En. revert i En. induction e; intros [|i] En; simpl in *; try discriminate.
        * injection En as ->. auto. * f_equal. auto.
    - (* EncH node *)
      intros R i c v ps dd ds t1 R1 t2' R2 E IH1 EH IH2 HL HV HU Hi f fuel t2 m nd r out rest HM HO Hf Hfu HLn.
      inversion HU as [|p ps' Hv HU']; subst. simpl in Hi. cbn [apply_hybrids map fst].
      destruct (N3 _ _ _ _ _ _ EH) as (N & EqR2 & _).
      simpl in HM. destruct HM as [(ty & j & ts' & E0 & Hty & Hj & -> & HR)|(ts' & E0 & _)]; [|discriminate].
      apply mtok_inj in E0; [|unfold TypeHybridLookup; lia|lia|lia|lia]. destruct E0 as (<- & <- & <-).
      destruct Hfu as [Hfu|(Hfu & _)]; [|discriminate]. destruct fuel as [|fuel]; [lia|]. cbn [des_hybrids fst snd].
      change (TypeHybridLookup =? NodeEnd) with false. change (TypeHybridLookup =? TypeHybridLookup) with true. cbv iota.
      rewrite <- app_assoc in HR.
      destruct (IH1 ltac:(rewrite EqR2, app_length in HL; lia) ltac:(rewrite EqR2 in HV; eapply vals_app_l; eauto) f r out _ HR HO Hf) as (k & r1 & out1 & E1 & HR1 & HO1 & Hk & Hp1).
      rewrite E1. cbn [bind].
      set (nd1 := match nth_error (nd_hybrids nd) i with Some old => set_hybrid nd i (hyb_new (Some c, v) (Some k) dd old) | None => nd end).
      assert (X : (if (i <? length (t_hybrids t2))%nat then old <- rd (nd_hybrids nd) i ; Ok (set_hybrid nd i (Some k, snd old)) else Ok nd) = Ok nd1).
      { subst nd1. destruct (i <? length (t_hybrids t2))%nat eqn:L.
        - destruct (rd_lt _ (nd_hybrids nd) i) as (x & -> & ->); [lia|]. reflexivity.
        - destruct (nth_error (nd_hybrids nd) i) eqn:En; auto. assert (i < length (nd_hybrids nd))%nat by (apply nth_error_Some; congruence). lia. }
      rewrite X. cbn [bind].
      destruct (get_member_RM d r1 _ HR1) as (m' & r2 & E2 & HM2 & Hp2 & Hc2).
      { apply not_var_starts, hyb_starts_not_var. eapply EncH_starts; eauto. lia. }
      rewrite E2. cbn [bind]. pose proof (RM_pos _ _ _ _ HM2).
      destruct (IH2 HL HV HU' ltac:(lia) f fuel t2 m' nd1 r2 out1 rest HM2 HO1)
        as (qs & r3 & out3 & E3 & HR3 & HO3 & F3 & Hp3); auto; [lia|left; lia| |].
      { subst nd1. destruct (nth_error (nd_hybrids nd) i); simpl; rewrite ?upd_length; auto. }
      rewrite E3. exists (Some k :: qs), r3, out3. cbn [apply_hybrids]. split; [reflexivity|]. split; auto. split; auto. split; [|lia].
      constructor; auto. exists k. split; auto. rewrite EqR2. rewrite nth_error_app1; auto. apply nth_error_Some. congruence.
  Qed.
End Decode.
