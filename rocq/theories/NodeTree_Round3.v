(** Decoding what the writer wrote into generators (NewFromEncodedNodeTree). *)
From Coq Require Import ZArith List Bool Lia ZifyBool ZifyNat.
From Verif Require Import Prelude Registry_Model Base64_Model NodeTree_Model NodeTree_Spec NodeTree_Tokens NodeTree_Ser NodeTree_Des NodeTree_Round NodeTree_Round2.
Import ListNotations.
Open Scope Z_scope.

Section DecodeGen.
  Variables reg1 reg2 : list node_type.
  Variable h : heap.
  Variable d : list Z.
  Hypothesis Hfit : registry_fits reg1.
  Hypothesis Hreg : forall id t1, nth_error reg1 id = Some t1 -> exists t2, nth_error reg2 id = Some t2.
  (** the reader's types have no more sources than the writer's *)
  Hypothesis Hsub : forall id t1 t2, types_of reg1 reg2 id t1 t2 -> (length (t_lookups t2) <= length (t_lookups t1))%nat.

  Definition gmatch (R : list nat) (g : gen_state) : Prop :=
    g_refs g = seq 0 (length (g_heap g)) /\ outmatch reg1 reg2 h v_class h_class R (g_heap g).

  (** the reader's members accept the connected sources *)
  Definition acc_at (t2 : node_type) (i : nat) (p : option nat) : Prop :=
    forall l c cd cid ct2, nth_error (t_lookups t2) i = Some l -> p = Some c -> nth_error h c = Some cd -> nd_meta cd = Some cid ->
      nth_error reg2 cid = Some ct2 -> accepts l ct2 = true.
  Definition gtyped (R : list nat) : Prop :=
    forall x nd id t2, In x R -> nth_error h x = Some nd -> nd_meta nd = Some id -> nth_error reg2 id = Some t2 ->
      forall j p, nth_error (nd_lookups nd) j = Some p -> acc_at t2 j p.

  Lemma gtyped_app_l : forall R N, gtyped (R ++ N) -> gtyped R.
  Proof. intros R N H x nd id t2 Hx. apply H. rewrite in_app_iff. auto. Qed.

  Lemma gen_round :
    (forall R n ts R', Enc reg1 h R n ts R' -> Z.of_nat (length R') <= 65536 -> vals h R' -> gtyped R' ->
       forall fuel r g rest, RS d r (ts ++ rest) -> gmatch R g -> (length d - r_pos r < fuel)%nat ->
       exists k r' g', gen fuel reg2 d r g = Ok (Some k, r', g') /\ RS d r' rest /\ gmatch R' g' /\
         nth_error R' k = Some n /\ (r_pos r < r_pos r')%nat) /\
    (forall R ps ts R', EncL reg1 h R ps ts R' -> Z.of_nat (length R') <= 65536 -> vals h R' -> gtyped R' ->
       forall f t2 i nd r g rest, RS d r (ts ++ rest) -> gmatch R g -> (length d - r_pos r < f)%nat ->
       length (nd_lookups nd) = length (t_lookups t2) ->
       (forall j p, nth_error ps j = Some p -> acc_at t2 (i + j) p) ->
       exists qs r' g', gen_lookups (gen f reg2 d) reg2 t2 (length ps) i nd r g = Ok (Some (apply_lookups t2 i qs nd), r', g') /\
         RS d r' rest /\ gmatch R' g' /\ Forall2 (prel R') ps qs /\ (r_pos r <= r_pos r')%nat) /\
    (forall R i ps ds ts R', EncH reg1 h R i ps ds ts R' -> Z.of_nat (length R') <= 65536 -> vals h R' -> gtyped R' ->
       Forall (fun p => is_u32 (snd p)) ps -> (i + length ps <= 32)%nat ->
       forall f fuel t2 m nd r g rest, RM d m r (ts ++ TEnd :: rest) -> gmatch R g -> (length d - r_pos r < f)%nat ->
       (length d - r_pos r + 2 <= fuel \/ fst m = NodeEnd /\ 1 <= fuel)%nat ->
       length (nd_hybrids nd) = length (t_hybrids t2) ->
       (forall j old, (i <= j)%nat -> nth_error (nd_hybrids nd) j = Some old -> fst old = None) ->
       exists qs r' g', gen_hybrids (gen f reg2 d) d t2 fuel m nd r g = Ok (Some (apply_hybrids t2 i ps qs ds nd), r', g') /\
         RS d r' rest /\ gmatch R' g' /\ Forall2 (prel R') (map fst ps) qs /\ (r_pos r <= r_pos r')%nat).
  Proof.
    pose proof (Enc_new reg1 h) as (N1 & N2 & N3). apply Enc_mutind.
    - (* reference *)
      intros R n i Hi HL _ _ fuel r g rest HR (HG & HO) Hf. destruct fuel as [|f]; [lia|]. cbn [gen].
      change ([TB (le_bytes 1 255); ref_tok i] ++ rest) with (TB [255] :: ref_tok i :: rest) in HR.
      destruct (RS_value d r [255] _ ltac:(discriminate) HR) as (r1 & E1 & HR1 & Hp1). simpl length in E1, Hp1. rewrite E1. cbn [bind].
      change (le_val [255] =? 255) with true. cbv iota.
      assert (Hlt : (i < length R)%nat) by (apply nth_error_Some; congruence).
      destruct (RS_value d r1 (le_bytes 2 (u16 (Z.of_nat i))) rest ltac:(discriminate) HR1) as (r2 & E2 & HR2 & Hp2).
      rewrite le_bytes_length in E2, Hp2. rewrite E2. cbn [bind]. rewrite ref_tok_val by lia. rewrite Nat2Z.id.
      pose proof HO as (HO1 & HO2). rewrite HG. rewrite seq_length. replace (length (g_heap g) <=? i)%nat with false by lia.
      unfold rd. rewrite (nth_error_nth' _ 0%nat) by (rewrite seq_length; lia). rewrite seq_nth by lia. cbn [bind].
      do 3 eexists. split; [reflexivity|]. split; auto. split; [split; auto|]. split; [auto|lia].
    - (* node *)
      intros R n nd id t tl R1 th R2 Hn Hm Ht Lv Ll Lh HnR EL IHL EH IHH HnR2 HL HV HT fuel r g rest HR HO Hf.
      destruct fuel as [|f]; [lia|]. cbn [gen].
      destruct (fits reg1 reg2 Hfit Hreg id t Ht) as (Fid & Fv & Fl & Fh).
      destruct (N3 _ _ _ _ _ _ EH) as (NH & EqR2 & _).
      destruct (Hreg id t Ht) as (t2 & Ht2).
      assert (Hsub2 := Hsub id t t2 (conj Ht Ht2)).
      rewrite le_bytes_1 in HR by lia. simpl app in HR.
      destruct (RS_value d r [Z.of_nat id] _ ltac:(discriminate) HR) as (r1 & E1 & HR1 & Hp1). simpl length in E1, Hp1. rewrite E1. cbn [bind].
      replace (le_val [Z.of_nat id]) with (Z.of_nat id) by (simpl; lia).
      replace (Z.of_nat id =? 255) with false by lia. rewrite Nat2Z.id.
      assert (Hid2 : (id < length reg2)%nat) by (apply nth_error_Some; congruence).
      replace (length reg2 <=? id)%nat with false by lia.
      unfold rd at 1. rewrite Ht2. cbn [bind].
      assert (HnIn : In n (R2 ++ [n])) by (rewrite in_app_iff; right; left; auto).
      assert (VN : values_ok nd) by (apply (HV n); auto).
      destruct VN as (VN1 & VN2).
      assert (HS : hyb_starts (th ++ TEnd :: rest)) by (eapply EncH_starts; eauto; lia).
      pose proof (hyb_starts_not_var reg1 reg2 Hreg _ HS) as NV2.
      assert (NV : not_var (count_toks (length (t_lookups t)) ++ tl ++ th ++ TEnd :: rest)).
      { unfold count_toks. destruct (Nat.eqb_spec (length (t_lookups t)) 0) as [E0|E0].
        - simpl. assert (nd_lookups nd = []) by (destruct (nd_lookups nd); auto; simpl in Ll; lia).
          rewrite H in EL. inversion EL; subst. simpl. auto.
        - left. simpl. exists TypeLookup, (length (t_lookups t)). eexists. split; [reflexivity|]. unfold TypeLookup. split; lia. }
      rewrite <- !app_assoc in HR1. simpl app in HR1.
      destruct (get_member_RM d r1 _ HR1) as (m & r2 & E2 & HM2 & Hp2 & Hc2).
      { apply var_toks_starts; auto. lia. }
      rewrite E2. cbn [bind]. pose proof (RM_pos _ _ _ _ HM2) as P2.
      assert (Hq2 : (r_pos r2 = S (r_pos r1))%nat).
      { destruct (get_member_total d r1 (RS_pos _ _ _ HR1)) as (m' & r2' & E2' & _ & X). rewrite E2 in E2'. injection E2' as <- <-. simpl in X.
        destruct X as [X|(_ & X)]; auto. exfalso. pose proof (get_value_total d 1 r (RS_pos _ _ _ HR)) as (v & r1' & E1' & _ & Y).
        rewrite E1 in E1'. injection E1' as <- <-. simpl in Y. lia. }
      destruct (des_vars_ok d t2 (nd_vars nd) (t_vars t) 0 m (new_generator id t2) r2 _ f ltac:(lia) VN1 NV) as (m3 & r3 & E3 & HM3 & Hp3); auto.
      { simpl. apply map_length. } { left. lia. }
      rewrite E3. cbn [bind]. pose proof (RM_pos _ _ _ _ HM3) as P3.
      destruct (apply_vars_frame (nd_vars nd) (t_vars t) t2 0 (new_generator id t2)) as (AV1 & AV2 & AV3 & AV4).
      set (nd3 := apply_vars t2 0 (nd_vars nd) (t_vars t) (new_generator id t2)) in *.
      assert (Y : exists ql m4 r4 g4,
        (if fst m3 =? TypeLookup then
           ' (nd, r, g) <- gen_lookups (gen f reg2 d) reg2 t2 (snd m3) 0 nd3 r3 g ;
           match nd with
           | None => Ok (None, r, g)
           | Some nd =>
             ' (nd, g) <- gen_fill reg2 (snd m3) (skipn (snd m3) (t_lookups t2)) nd g ;
             match nd with
             | None => Ok (None, r, g)
             | Some nd =>
               ' (m', r) <- get_member d r ;
               Ok (match m' with None => None | Some m' => Some (m', nd) end, r, g)
             end
           end
         else Ok (Some (m3, nd3), r3, g)) = Ok (Some (m4, apply_lookups t2 0 ql nd3), r4, g4) /\
        RM d m4 r4 (th ++ TEnd :: rest) /\ gmatch R1 g4 /\ Forall2 (prel R1) (nd_lookups nd) ql /\ (r_pos r3 <= r_pos r4)%nat).
      { unfold count_toks in HM3. destruct (Nat.eqb_spec (length (t_lookups t)) 0) as [E0|E0].
        - simpl in HM3. assert (Enil : nd_lookups nd = []) by (destruct (nd_lookups nd); auto; simpl in Ll; lia).
          rewrite Enil in EL. inversion EL; subst. simpl in HM3.
          assert (fst m3 <> TypeLookup).
          { destruct HM3 as [(ty & j & ts' & E & Hty & Hj & -> & _)|(ts' & E & Hm3 & _)]; [|rewrite Hm3; discriminate].
            destruct HS as [(ty' & j' & ts'' & E' & Hty' & Hj')|(ts'' & E')]; rewrite E' in E; [|discriminate].
            apply mtok_inj in E; try lia. destruct E as (<- & _). simpl. unfold TypeLookup. lia. }
          replace (fst m3 =? TypeLookup) with false by lia.
          exists [], m3, r3, g. simpl. rewrite Enil. repeat split; auto; apply HO.
        - simpl in HM3. destruct HM3 as [(ty & j & ts' & E & Hty & Hj & -> & HR3)|(ts' & E & _)]; [|discriminate].
          apply mtok_inj in E; [|unfold TypeLookup; lia|lia|lia|lia]. destruct E as (<- & <- & <-).
          cbn [fst snd]. change (TypeLookup =? TypeLookup) with true. cbv iota.
          destruct (IHL ltac:(rewrite EqR2, !app_length in HL; lia)) with (f := f) (t2 := t2) (i := 0%nat) (nd := nd3) (r := r3) (g := g) (rest := th ++ TEnd :: rest)
            as (ql & r4 & out4 & E4 & HR4 & HO4 & F4 & Hp4); auto.
          { rewrite EqR2 in HV. apply vals_app_l in HV. apply vals_app_l in HV. exact HV. }
          { rewrite EqR2 in HT. apply gtyped_app_l in HT. apply gtyped_app_l in HT. exact HT. }
          { lia. } { rewrite AV2. simpl. apply map_length. }
          { intros j p Hj'. apply (HT n nd id t2 HnIn Hn Hm Ht2). exact Hj'. }
          rewrite <- Ll. rewrite E4. cbn [bind].
          rewrite skipn_all2 by lia. cbn [gen_fill bind].
          destruct (get_member_RM d r4 _ HR4) as (m5 & r5 & E5 & HM5 & Hp5 & _); [apply not_var_starts; auto|].
          rewrite E5. cbn [bind]. exists ql, m5, r5, out4. repeat split; auto; try apply HO4. lia. }
      destruct Y as (ql & m4 & r4 & g4 & E4 & HM4 & HO4 & F4 & Hp4). rewrite E4. cbn [bind].
      pose proof (RM_pos _ _ _ _ HM4) as P4.
      destruct (apply_lookups_frame ql t2 0 nd3) as (AL1 & AL2 & AL3 & AL4).
      destruct (IHH ltac:(rewrite app_length in HL; simpl in HL; lia) (vals_app_l _ _ _ HV) (gtyped_app_l _ _ HT) VN2 ltac:(lia)) with (f := f) (fuel := f) (t2 := t2) (m := m4)
        (nd := apply_lookups t2 0 ql nd3) (r := r4) (g := g4) (rest := rest) as (qh & r5 & g5 & E5 & HR5 & HO5 & F5 & Hp5); auto.
      { lia. } { left. lia. } { rewrite AL3, AV3. simpl. apply map_length. }
      { intros j old _ Hj. rewrite AL3, AV3 in Hj. simpl in Hj. rewrite nth_error_map in Hj. destruct (nth_error (t_hybrids t2) j); [|discriminate].
        injection Hj as <-. reflexivity. }
      rewrite E5. cbn [bind]. do 3 eexists. split; [reflexivity|]. split; auto. destruct HO5 as (HG5 & HO5). split; [|split].
      + split.
        * simpl. rewrite HG5, app_length. simpl length. rewrite seq_app. reflexivity.
        * simpl. eapply outmatch_snoc; eauto; [split; eauto|]. apply built_match; auto.
          rewrite EqR2. apply Forall2_prel_app. auto.
      + destruct HO5 as (-> & _). rewrite nth_error_app2 by lia. rewrite Nat.sub_diag. reflexivity.
      + lia.
    - (* EncL nil *)
      intros R HL HV HT f t2 i nd r g rest HR HO Hf HLn _. simpl. exists [], r, g. simpl. repeat split; auto; apply HO.
    - (* EncL cons *)
      intros R c ps t1 R1 t2' R2 E IH1 EL IH2 HL HV HT f t2 i nd r g rest HR HO Hf HLn HA.
      destruct (N2 _ _ _ _ EL) as (N & EqR2 & _). cbn [gen_lookups length].
      rewrite <- app_assoc in HR.
      destruct (IH1 ltac:(rewrite EqR2, app_length in HL; lia) ltac:(rewrite EqR2 in HV; eapply vals_app_l; eauto) ltac:(rewrite EqR2 in HT; eapply gtyped_app_l; eauto) f r g _ HR HO Hf) as (k & r1 & g1 & E1 & HR1 & HO1 & Hk & Hp1).
      rewrite E1. cbn [bind].
      assert (X : (match nth_error (t_lookups t2) i with
                   | Some l => ct <- node_type_of reg2 (g_heap g1) k ;
                               if accepts l ct then _ <- rd (nd_lookups nd) i ; Ok (Some (set_lookup nd i (Some k)))
                               else Ok None
                   | None => Ok (Some nd)
                   end) = Ok (Some (if (i <? length (t_lookups t2))%nat then set_lookup nd i (Some k) else nd))).
      { destruct (nth_error (t_lookups t2) i) as [l|] eqn:El.
        - assert (Hi : (i < length (t_lookups t2))%nat) by (apply nth_error_Some; congruence).
          destruct HO1 as (_ & _ & HO1). destruct (HO1 k c Hk) as (cd & cd' & cid & ct1 & ct2 & Hc1 & Hc2 & (Hc3 & Hc4) & Hc5 & Hc6).
          unfold node_type_of. unfold rd at 1. rewrite Hc5. cbn [bind]. rewrite (nm_meta _ _ _ _ _ _ _ Hc6), Hc2.
          unfold rd at 1. rewrite Hc4. cbn [bind].
          assert (Ha : accepts l ct2 = true).
          { apply (HA 0%nat (Some c) eq_refl l c cd cid ct2); auto. rewrite Nat.add_0_r. auto. }
          rewrite Ha. destruct (rd_lt _ (nd_lookups nd) i) as (x & -> & _); [lia|]. cbn [bind].
          replace (i <? length (t_lookups t2))%nat with true by lia. reflexivity.
        - apply nth_error_None in El. replace (i <? length (t_lookups t2))%nat with false by lia. reflexivity. }
      rewrite X. cbn [bind].
      pose proof (RS_pos _ _ _ HR1).
      destruct (IH2 HL HV HT f t2 (S i) (if (i <? length (t_lookups t2))%nat then set_lookup nd i (Some k) else nd) r1 g1 rest HR1 HO1)
        as (qs & r2 & g2 & E2 & HR2 & HO2 & F2 & Hp2); [lia| | |].
      { destruct (i <? length (t_lookups t2))%nat; simpl; rewrite ?upd_length; auto. }
      { intros j p Hj. specialize (HA (S j) p Hj). replace (S i + j)%nat with (i + S j)%nat by lia. exact HA. }
      rewrite E2. exists (Some k :: qs), r2, g2. simpl apply_lookups. split; [reflexivity|]. split; auto. split; auto. split; [|lia].
      constructor; auto. exists k. split; auto. rewrite EqR2. rewrite nth_error_app1; auto. apply nth_error_Some. congruence.
    - (* EncH nil *)
      intros R i HL HV HT _ Hi f fuel t2 m nd r g rest HM HO Hf Hfu HLn _.
      simpl in HM. destruct HM as [(ty & j & ts' & E & _)|(ts' & E & Hm & HR)]; [discriminate|]. injection E as <-.
      destruct fuel as [|fuel]; [lia|]. cbn [gen_hybrids]. rewrite Hm. change (NodeEnd =? NodeEnd) with true. cbv iota.
      exists [], r, g. simpl. repeat split; auto; apply HO.
    - (* EncH value *)
      intros R i v ps dd ds t2' R2 EH IH HL HV HT HU Hi f fuel t2 m nd r g rest HM HO Hf Hfu HLn HN.
      inversion HU as [|p ps' Hv HU']; subst. simpl in Hi. cbn [apply_hybrids map fst].
      rewrite <- app_assoc in HM.
      assert (Done : forall fuel m nd1 r1, RM d m r1 (t2' ++ TEnd :: rest) -> (r_pos r <= r_pos r1)%nat ->
         (length d - r_pos r1 + 2 <= fuel \/ fst m = NodeEnd /\ 1 <= fuel)%nat ->
         nd1 = match nth_error (nd_hybrids nd) i with Some old => set_hybrid nd i (hyb_new (None, v) None dd old) | None => nd end ->
         exists qs r' g', gen_hybrids (gen f reg2 d) d t2 fuel m nd1 r1 g = Ok (Some (apply_hybrids t2 i ((None, v) :: ps) qs (dd :: ds) nd), r', g') /\
           RS d r' rest /\ gmatch R2 g' /\ Forall2 (prel R2) (None :: map fst ps) qs /\ (r_pos r <= r_pos r')%nat).
      { intros fuel0 m0 nd1 r1 HM1 Hp1 Hf1 ->. pose proof (RM_pos _ _ _ _ HM1).
        destruct (IH HL HV HT HU' ltac:(lia) f fuel0 t2 m0
          (match nth_error (nd_hybrids nd) i with Some old => set_hybrid nd i (hyb_new (None, v) None dd old) | None => nd end) r1 g rest HM1 HO)
          as (qs & r2 & g2 & E2 & HR2 & HO2 & F2 & Hp2); auto; [lia| | |].
        { destruct (nth_error (nd_hybrids nd) i); simpl; rewrite ?upd_length; auto. }
        { intros j old Hj Ho. apply (HN j); [lia|]. destruct (nth_error (nd_hybrids nd) i); auto. simpl in Ho.
          rewrite nth_error_upd_neq in Ho by lia. exact Ho. }
        exists (None :: qs), r2, g2. cbn [apply_hybrids]. split; [exact E2|]. split; auto. split; auto. split; [|lia]. constructor; auto. reflexivity. }
      destruct (f32_neq v (h_default dd)) eqn:Ev.
      + simpl in HM. destruct HM as [(ty & j & ts' & E & Hty & Hj & -> & HR)|(ts' & E & _)]; [|discriminate].
        apply mtok_inj in E; [|unfold TypeHybridVariable; lia|lia|lia|lia]. destruct E as (<- & <- & <-).
        destruct Hfu as [Hfu|(Hfu & _)]; [|discriminate]. destruct fuel as [|fuel]; [lia|]. cbn [gen_hybrids fst snd].
        change (TypeHybridVariable =? NodeEnd) with false. change (TypeHybridVariable =? TypeHybridLookup) with false.
        change (TypeHybridVariable =? TypeHybridVariable) with true. cbv iota.
        destruct (RS_value d r (le_bytes 4 v) _ ltac:(discriminate) HR) as (r1 & E1 & HR1 & Hp1).
        rewrite le_bytes_length in *. rewrite E1. cbn [bind]. rewrite le_val_bytes by (unfold is_u32 in *; simpl in *; lia).
        set (nd1 := match nth_error (nd_hybrids nd) i with Some old => set_hybrid nd i (hyb_new (None, v) None dd old) | None => nd end).
        assert (X : (if (i <? length (t_hybrids t2))%nat then old <- rd (nd_hybrids nd) i ; Ok (set_hybrid nd i (None, v)) else Ok nd) = Ok nd1).
        { subst nd1. destruct (i <? length (t_hybrids t2))%nat eqn:L.
          - destruct (rd_lt _ (nd_hybrids nd) i) as (x & -> & Hx); [lia|]. rewrite Hx. cbn [bind]. unfold hyb_new. simpl. rewrite Ev.
            rewrite (HN i x ltac:(lia) Hx). reflexivity.
          - destruct (nth_error (nd_hybrids nd) i) eqn:En; auto. assert (i < length (nd_hybrids nd))%nat by (apply nth_error_Some; congruence). lia. }
        rewrite X. cbn [bind].
        destruct (get_member_RM d r1 _ HR1) as (m' & r2 & E2 & HM2 & Hp2 & Hc2).
        { apply not_var_starts, (hyb_starts_not_var reg1 reg2 Hreg). eapply EncH_starts; eauto. lia. }
        rewrite E2. cbn [bind]. pose proof (RM_pos _ _ _ _ HM2).
        apply Done; auto; [lia|]. left. lia.
      + simpl in HM. apply Done; auto.
        destruct (nth_error (nd_hybrids nd) i) as [old|] eqn:En; auto. unfold hyb_new. simpl. rewrite Ev.
        unfold set_hybrid. destruct nd as [a b c e]. simpl in *. f_equal. clear - En. revert i En. induction e; intros [|i] En; simpl in *; try discriminate.
        * injection En as ->. auto. * f_equal. auto.
    - (* EncH node *)
      intros R i c v ps dd ds t1 R1 t2' R2 E IH1 EH IH2 HL HV HT HU Hi f fuel t2 m nd r g rest HM HO Hf Hfu HLn HN.
      inversion HU as [|p ps' Hv HU']; subst. simpl in Hi. cbn [apply_hybrids map fst].
      destruct (N3 _ _ _ _ _ _ EH) as (N & EqR2 & _).
      simpl in HM. destruct HM as [(ty & j & ts' & E0 & Hty & Hj & -> & HR)|(ts' & E0 & _)]; [|discriminate].
      apply mtok_inj in E0; [|unfold TypeHybridLookup; lia|lia|lia|lia]. destruct E0 as (<- & <- & <-).
      destruct Hfu as [Hfu|(Hfu & _)]; [|discriminate]. destruct fuel as [|fuel]; [lia|]. cbn [gen_hybrids fst snd].
      change (TypeHybridLookup =? NodeEnd) with false. change (TypeHybridLookup =? TypeHybridLookup) with true. cbv iota.
      rewrite <- app_assoc in HR.
      destruct (IH1 ltac:(rewrite EqR2, app_length in HL; lia) ltac:(rewrite EqR2 in HV; eapply vals_app_l; eauto) ltac:(rewrite EqR2 in HT; eapply gtyped_app_l; eauto) f r g _ HR HO Hf) as (k & r1 & g1 & E1 & HR1 & HO1 & Hk & Hp1).
      rewrite E1. cbn [bind].
      set (nd1 := match nth_error (nd_hybrids nd) i with Some old => set_hybrid nd i (hyb_new (Some c, v) (Some k) dd old) | None => nd end).
      assert (X : (if (i <? length (t_hybrids t2))%nat then old <- rd (nd_hybrids nd) i ; Ok (Some (set_hybrid nd i (Some k, snd old)), r1, g1) else Ok (Some nd, r1, g1)) = Ok (Some nd1, r1, g1)).
      { subst nd1. destruct (i <? length (t_hybrids t2))%nat eqn:L.
        - destruct (rd_lt _ (nd_hybrids nd) i) as (x & -> & ->); [lia|]. reflexivity.
        - destruct (nth_error (nd_hybrids nd) i) eqn:En; auto. assert (i < length (nd_hybrids nd))%nat by (apply nth_error_Some; congruence). lia. }
      rewrite X. cbn [bind].
      destruct (get_member_RM d r1 _ HR1) as (m' & r2 & E2 & HM2 & Hp2 & Hc2).
      { apply not_var_starts, (hyb_starts_not_var reg1 reg2 Hreg). eapply EncH_starts; eauto. lia. }
      rewrite E2. cbn [bind]. pose proof (RM_pos _ _ _ _ HM2).
      destruct (IH2 HL HV HT HU' ltac:(lia) f fuel t2 m' nd1 r2 g1 rest HM2 HO1)
        as (qs & r3 & g3 & E3 & HR3 & HO3 & F3 & Hp3); auto; [lia|left; lia| | |].
      { subst nd1. destruct (nth_error (nd_hybrids nd) i); simpl; rewrite ?upd_length; auto. }
      { subst nd1. intros j old Hj1 Ho. apply (HN j); [lia|]. destruct (nth_error (nd_hybrids nd) i); auto. simpl in Ho.
          rewrite nth_error_upd_neq in Ho by lia. exact Ho. }
      rewrite E3. exists (Some k :: qs), r3, g3. cbn [apply_hybrids]. split; [reflexivity|]. split; auto. split; auto. split; [|lia].
      constructor; auto. exists k. split; auto. rewrite EqR2. rewrite nth_error_app1; auto. apply nth_error_Some. congruence.
  Qed.
End DecodeGen.
