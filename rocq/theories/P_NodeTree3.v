(** Properties C09-C13: fix-up, failure, canonicity, size, version skew. *)
From Coq Require Import String.
From Coq Require Import ZArith List Bool Lia ZifyBool ZifyNat Permutation.
From Verif Require Import Prelude Registry_Model Base64_Model Base64_Spec Base64_Proofs NodeTree_Model NodeTree_Spec NodeTree_Tokens NodeTree_Ser NodeTree_Des
  NodeTree_Round NodeTree_Round2 NodeTree_Round3 NodeTree_Bytes NodeTree_Main NodeTree_Gen NodeTree_Fix P_NodeTree.
Import ListNotations.
Open Scope Z_scope.

(** ** C09: fix-up *)

(** every node reachable from [root] exists and has a registered type; cycles, missing
    sources, wrong member counts and wrong source types are all allowed *)
Definition registered_from (reg : list node_type) (h : heap) (root : nat) : Prop :=
  forall m, reach h root m -> exists nd id t, nth_error h m = Some nd /\ nd_meta nd = Some id /\ nth_error reg id = Some t.

Lemma shrinks_only_disconnects : forall h h', shrinks h h' -> only_disconnects h h'.
Proof.
  intros h h' HS. split; [apply shrinks_length; auto|]. intros m a Ha.
  destruct (Forall2_nth_l _ _ _ _ _ _ _ HS Ha) as (b & Hb & [M V L Y]). exists b.
  assert (LL : forall A B (P : A -> B -> Prop) x y, Forall2 P x y -> length y = length x) by (induction 1; simpl; congruence).
  split; auto. split; auto. split; auto. split; [eapply LL; eauto|]. split; [eapply LL; eauto|]. split.
  - intros i p Hp. destruct (Forall2_nth_l _ _ _ _ _ _ _ L Hp) as (q & Hq & [->| ->]); auto.
  - intros i p v Hp. destruct (Forall2_nth_l _ _ _ _ _ _ _ Y Hp) as ([q w] & Hq & [E|E] & E2); simpl in *; subst; auto.
Qed.

Theorem C09_fixup : forall reg h root fuel, registry_fits reg -> registered_from reg h root ->
  Z.of_nat (length h) < 2^50 -> (length h < fuel)%nat ->
  exists s h', serialise fuel reg h root true = Ok (s, h') /\ only_disconnects h h' /\
    (s <> [] ->
       acyclic_from h' root /\
       (forall m, reach h' root m -> exists nd, nth_error h' m = Some nd /\ complete_node reg nd) /\
       typed_from reg h' root /\
       serialise fuel reg h' root false = Ok (s, h')).
Proof.
  intros reg h root fuel Hf HR HL Hfu.
  assert (H0 : FInv reg h [] (init_ser h) []).
  { split; [apply shrinks_refl|]. split; [reflexivity|]. split; [|intros x []]. split; [constructor|]. split; [intros [|i]; discriminate|intros x nd []]. }
  destruct (ser_fix reg h root HR fuel [] (NoDup_nil _) ltac:(intros x []) ltac:(simpl; lia) (init_ser h) [] root H0 ltac:(auto) (reach_refl _ _))
    as (b & s' & E & HS & _ & P).
  unfold serialise. fold (init_ser h). rewrite E. cbn [bind]. destruct b.
  - destruct P as (ts & R' & (_ & _ & HD & _) & W & En & _). pose proof (WS_final _ _ (W [] WS_init)) as Hw. simpl in Hw. rewrite Hw.
    assert (HL' : length (s_heap s') = length h) by (apply shrinks_length; auto).
    pose proof (Enc_indices _ _ _ _ _ En) as Hi.
    destruct (Enc_text reg (s_heap s') root ts R' Hf En ltac:(lia)) as (s & E1 & E2 & E3 & E4). rewrite E1. cbn [bind].
    exists s, (s_heap s'). split; auto. split; [apply shrinks_only_disconnects; auto|]. intros _.
    destruct (Enc_acyclic _ _ _ _ _ En) as (A1 & A2). destruct (Enc_reachable _ _ _ _ _ En) as (_ & HRR).
    split; auto. split; [|split].
    + intros m Hm. destruct (proj1 (Enc_complete reg (s_heap s')) _ _ _ _ En m (proj2 (HRR m) Hm)) as [[]|H]; auto.
    + intros m nd Hm Hn. destruct HD as (_ & _ & HD). apply (HD m nd); auto. apply HRR; auto.
    + destruct (serialise_Enc reg (s_heap s') root ts R' fuel Hf En ltac:(lia) ltac:(lia)) as (s2 & F1 & F2).
      rewrite E1 in F2. injection F2 as ->. exact F1.
  - exists [], (s_heap s'). split; auto. split; [apply shrinks_only_disconnects; auto|]. intros X. congruence.
Qed.
Print Assumptions C09_fixup.

Theorem C09_valid_graph_untouched : forall reg h root fuel, registry_fits reg -> valid_graph reg h root -> typed_from reg h root ->
  Z.of_nat (length h) < 2^50 -> (length h < fuel)%nat ->
  exists s, s <> [] /\ serialise fuel reg h root true = Ok (s, h) /\ serialise fuel reg h root false = Ok (s, h).
Proof.
  intros reg h root fuel Hf HV HT HL Hfu.
  destruct (serialise_valid reg h root fuel Hf HV HL Hfu) as (s & ts & R' & E1 & _ & _ & _ & E5 & _).
  exists s. split; auto. split; auto. rewrite <- E1. unfold serialise. fold (init_ser h).
  destruct (ser_fix_valid reg h root (proj1 HV)) with (fuel := fuel) (deps := @nil nat) (deps2 := @nil nat) (s := init_ser h) (n := root) as (E & _); auto.
  - intros m Hm. destruct (proj2 HV m Hm) as (nd & Hn & (id & t & A & B & _) & _). exists nd, id, t. auto.
  - constructor.
  - intros p [].
  - rewrite E. reflexivity.
Qed.
Print Assumptions C09_valid_graph_untouched.
Example C09_demo : exists s, s <> [] /\ serialise 10 registry demo_graph 2 true = Ok (s, demo_graph) /\ serialise 10 registry demo_graph 2 false = Ok (s, demo_graph).
Proof. apply C09_valid_graph_untouched; auto using registry_fits_shipped, demo_valid, demo_typed; simpl; lia. Qed.
(** a cyclic graph whose cycle goes through a hybrid is repaired *)
Definition cyclic_graph : heap := [ mknode 6 [] [] []; mknode 21 [] [Some 0%nat] [(0%nat, (Some 1%nat, 0))] ].
Example cyclic_registered : registered_from registry cyclic_graph 1.
Proof.
  intros m Hm. assert (L : (m < 2)%nat).
  { assert (X : forall a b, reach cyclic_graph a b -> (a < 2)%nat -> (b < 2)%nat).
    { intros a b H. induction H as [|a c x Hl Hr IH]; auto. intros Ha. apply IH. destruct Hl as (nd & Hn & Hl).
      destruct a as [|[|a]]; [injection Hn as <-|injection Hn as <-|lia].
      - destruct Hl as [[]|(v & [])].
      - destruct Hl as [[[= <-]|[]]|(v & [[= <- _]|[]])]; lia. }
    eapply X; eauto. }
  do 2 (destruct m as [|m]; [do 3 eexists; repeat split; reflexivity|]). lia.
Qed.
Example C09_repairs_cycle : exists s h', serialise 10 registry cyclic_graph 1 true = Ok (s, h') /\ s <> [] /\
  nth_error h' 1 = Some (mknode 21 [] [Some 0%nat] []).
Proof. do 2 eexists. split; [vm_compute; reflexivity|]. split; [discriminate|]. vm_compute. reflexivity. Qed.

(** Without fix-up a cyclic graph makes the serialiser recurse for ever. *)
Definition self_loop : heap := [mknode 25 [] [Some 0%nat] []].
Theorem C09_plain_diverges_on_cycle : forall fuel, serialise fuel registry self_loop 0 false = NoFuel.
Proof.
  assert (X : forall fuel deps s, s_heap s = self_loop -> assoc 0%nat (s_refs s) = None -> ser fuel registry false deps s 0 = NoFuel).
  { induction fuel as [|f IH]; intros deps s Hs Hr; [reflexivity|].
    cbn [ser]. rewrite Hs. unfold rd at 1. change (nth_error self_loop 0) with (Some (mknode 25 [] [Some 0%nat] [])). cbn [bind].
    change (nd_meta (mknode 25 [] [Some 0%nat] [])) with (Some 25%nat).
    unfold rd at 1. destruct (nth_error registry 25) as [t|] eqn:Et; [|discriminate]. cbn [bind]. cbv iota.
    injection Et as <-. simpl negb. cbv iota. rewrite Hr.
    cbn [t_lookups modifier mk length Nat.eqb ser_lookups with_out s_heap]. rewrite Hs. unfold rd at 1.
    change (nth_error self_loop 0) with (Some (mknode 25 [] [Some 0%nat] [])). cbn [bind].
    change (rd (nd_lookups (mknode 25 [] [Some 0%nat] [])) 0) with (Ok (Some 0%nat)). cbn [bind].
    change (node_type_of registry self_loop 0) with (Ok (modifier "Abs" "Modifiers" [] [])). cbn [bind].
    rewrite IH; auto. }
  intros fuel. unfold serialise. rewrite X; auto.
Qed.
Print Assumptions C09_plain_diverges_on_cycle.

(** The hypothesis on metadata is needed: a connected node without a type (a state the
    editor can create) is dereferenced. *)
Theorem C09_null_metadata_refuted : exists h, forall fuel, (2 < fuel)%nat ->
  serialise fuel registry h 1 true = UB /\ serialise fuel registry h 1 false = Ok ([], h).
Proof.
  exists [ {| nd_meta := None; nd_vars := []; nd_lookups := []; nd_hybrids := [] |}; mknode 25 [] [Some 0%nat] [] ].
  intros fuel Hf. do 3 (destruct fuel as [|fuel]; [lia|]). split; vm_compute; reflexivity.
Qed.
Print Assumptions C09_null_metadata_refuted.

(** ** C10: without fix-up, the empty string means an incomplete reachable node *)
Theorem C10_fails_iff_incomplete : forall reg h root fuel, registry_fits reg -> acyclic_from h root -> closed_from reg h root ->
  Z.of_nat (length h) < 2^50 -> (length h < fuel)%nat ->
  exists s, serialise fuel reg h root false = Ok (s, h) /\ (s = [] <-> exists m nd, reach h root m /\ nth_error h m = Some nd /\ ~ complete_node reg nd).
Proof.
  intros reg h root fuel Hf HA HC HL Hfu.
  destruct (serialise_plain reg h root fuel Hf HA HC HL Hfu) as [((x & nd & Hx & Hn & Hc) & E)|(s & ts & R' & E1 & E & _ & _ & E5 & _)].
  - exists []. split; auto. split; auto. intros _. exists x, nd. auto.
  - exists s. split; auto. split; [intros; congruence|]. intros (m & nd & Hm & Hn & Hc). exfalso. apply Hc.
    destruct (Enc_reachable _ _ _ _ _ E) as (_ & HR).
    destruct (proj1 (Enc_complete reg h) _ _ _ _ E m (proj2 (HR m) Hm)) as [[]|(nd' & Hn' & H')]. congruence.
Qed.
Print Assumptions C10_fails_iff_incomplete.
Example C10_missing_source : serialise 3 registry [mknode 25 [] [None] []] 0 false = Ok ([], [mknode 25 [] [None] []]).
Proof. vm_compute. reflexivity. Qed.
Example C10_complete : exists s, serialise 10 registry demo_graph 2 false = Ok (s, demo_graph) /\ s <> [].
Proof. eexists. split; [vm_compute; reflexivity|]. discriminate. Qed.

(** ** C11: the encoding is canonical *)

Lemma hsame_loaded : forall R ps ds qs f, (forall c k, nth_error R k = Some c -> f c = k) ->
  length ps = length ds -> length qs = length ds ->
  (forall i d, nth_error ds i = Some d -> exists q, nth_error qs i = Some q /\ loaded_hybrid h_default R (nth_error ps i) (Some d) d q) ->
  hsame f ps ds qs.
Proof.
  intros R ps ds qs f Hf. revert ds qs. induction ps as [|[p v] ps IH]; intros [|d ds] [|q qs] L1 L2 H; try discriminate; [constructor|].
  assert (HT : hsame f ps ds qs).
  { apply IH; simpl in *; try lia. intros i d' Hd. apply (H (S i) d' Hd). }
  destruct (H 0%nat d eq_refl) as (q' & Hq & HL). simpl in Hq. injection Hq as <-. simpl in HL. destruct p as [c|].
  - destruct HL as (_ & (k & E & Hk)). destruct q as [q w]. simpl in E. subst q. rewrite <- (Hf c k Hk). constructor; auto.
  - subst q. destruct (f32_neq v (h_default d)) eqn:E; constructor; auto; try congruence.
    rewrite E. unfold f32_neq in *. apply orb_false_elim in E. destruct E as (E1 & E2). apply orb_false_elim in E1. destruct E1 as (E0 & E1).
    rewrite E1. rewrite Z.eqb_refl. reflexivity.
Qed.

(** loading a saved graph and saving it again gives the same text *)
Theorem C11_save_load_save : forall reg h root l fuel,
  registry_fits reg -> valid_graph reg h root ->
  reachable_nodes h root l -> Z.of_nat (length l) <= 65536 ->
  Z.of_nat (length h) < 2^50 -> (length h < fuel)%nat ->
  exists s root' h', serialise fuel reg h root false = Ok (s, h) /\ deserialise reg s = Ok (Some root', h') /\ serialise fuel reg h' root' false = Ok (s, h').
Proof.
  intros reg h root l fuel Hf HV Hl HN HL Hfu.
  destruct (serialise_valid reg h root fuel Hf HV HL Hfu) as (s & ts & R' & E1 & E & E3 & E4 & E5 & _).
  rewrite (reachable_length _ _ _ _ _ _ E Hl) in *.
  destruct (load_enc reg reg h root ts R' s Hf) as (k & out & D & (OL & OM) & Hk); eauto using vals_of_valid.
  exists s, k, out. split; auto. split; auto.
  destruct (Enc_reachable _ _ _ _ _ E) as (ND & HRe).
  assert (OK : okmap reg h out (fun n => index_of n R') R').
  { split.
    - intros x a Hx Ha. destruct (OM (index_of x R') x (index_of_nth _ _ Hx)) as (a' & b & id & t1 & t2 & A1 & A2 & (A3 & A3') & A4 & A5).
      rewrite Ha in A1. injection A1 as <-. rewrite A3 in A3'. injection A3' as <-. exists b. split; auto.
      destruct (proj1 (Enc_complete reg h) _ _ _ _ E x Hx) as [[]|(a' & Ha' & (id' & t' & B1 & B2 & B3 & B4 & B5 & _))].
      rewrite Ha in Ha'. injection Ha' as <-. rewrite A2 in B1. injection B1 as <-. rewrite A3 in B2. injection B2 as <-.
      pose proof A5 as A5'. apply node_match_same in A5'; auto using defaults_used_meta. destruct A5' as (S1 & S2 & S3 & S4).
      split; auto. split; auto. split; auto. intros id' t' Hid' Ht'. rewrite A2 in Hid'. injection Hid' as <-. rewrite A3 in Ht'. injection Ht' as <-.
      apply (hsame_loaded R'); [intros; apply index_of_unique; auto|lia|apply A5|].
      intros i d Hi. destruct (nm_hybrids _ _ _ _ _ _ _ A5 i d Hi) as (q & Hq & Hlq). exists q. split; auto. rewrite Hi in Hlq. exact Hlq.
    - intros x y Hx Hy Exy. pose proof (index_of_nth _ _ Hx) as X1. pose proof (index_of_nth _ _ Hy) as Y1. rewrite Exy in X1. congruence. }
  pose proof (proj1 (Enc_transport reg h out (fun n => index_of n R')) _ _ _ _ E OK) as ET. simpl in ET.
  rewrite (index_of_unique R' root k ND Hk) in ET. pose proof (Enc_indices _ _ _ _ _ E).
  destruct (serialise_Enc reg out k ts _ fuel Hf ET ltac:(lia) ltac:(lia)) as (s2 & F1 & F2). rewrite E3 in F2. injection F2 as <-. exact F1.
Qed.
Print Assumptions C11_save_load_save.
Example C11_demo : exists s root' h', serialise 10 registry demo_graph 2 false = Ok (s, demo_graph) /\
  deserialise registry s = Ok (Some root', h') /\ serialise 10 registry h' root' false = Ok (s, h').
Proof.
  apply (C11_save_load_save registry demo_graph 2 [0; 1; 2]%nat 10); auto using registry_fits_shipped, demo_valid, demo_reachable; simpl; lia.
Qed.

(** two valid graphs with the same text are isomorphic *)
Lemma same_float_sym : forall a b, same_float a b -> same_float b a.
Proof. intros a b [->|(A & B)]; [left|right]; auto. Qed.
Lemma same_float_trans : forall a b c, same_float a b -> same_float b c -> same_float a c.
Proof. intros a b c [->|(A & B)] [->|(C & D)]; unfold same_float; auto. Qed.

Theorem C11_same_text_isomorphic : forall reg h1 r1 l1 h2 r2 l2 s fuel1 fuel2,
  registry_fits reg -> valid_graph reg h1 r1 -> valid_graph reg h2 r2 ->
  reachable_nodes h1 r1 l1 -> Z.of_nat (length l1) <= 65536 ->
  reachable_nodes h2 r2 l2 -> Z.of_nat (length l2) <= 65536 ->
  Z.of_nat (length h1) < 2^50 -> (length h1 < fuel1)%nat ->
  Z.of_nat (length h2) < 2^50 -> (length h2 < fuel2)%nat ->
  serialise fuel1 reg h1 r1 false = Ok (s, h1) -> serialise fuel2 reg h2 r2 false = Ok (s, h2) ->
  isomorphic h1 r1 h2 r2.
Proof.
  intros reg h1 r1 l1 h2 r2 l2 s fuel1 fuel2 Hf V1 V2 HR1 N1 HR2 N2 L1 F1 L2 F2 E1 E2.
  destruct (serialise_valid reg h1 r1 fuel1 Hf V1 L1 F1) as (s1 & ts1 & R1 & A1 & B1 & C1 & D1 & _).
  destruct (serialise_valid reg h2 r2 fuel2 Hf V2 L2 F2) as (s2 & ts2 & R2 & A2 & B2 & C2 & D2 & _).
  rewrite E1 in A1. injection A1 as <-. rewrite E2 in A2. injection A2 as <-.
  rewrite (reachable_length _ _ _ _ _ _ B1 HR1) in N1. rewrite (reachable_length _ _ _ _ _ _ B2 HR2) in N2.
  destruct (load_enc reg reg h1 r1 ts1 R1 s Hf) as (k1 & out1 & X1 & Y1 & Z1); eauto using vals_of_valid.
  destruct (load_enc reg reg h2 r2 ts2 R2 s Hf) as (k2 & out2 & X2 & Y2 & Z2); eauto using vals_of_valid.
  rewrite X1 in X2. injection X2 as <- <-.
  destruct (Enc_reachable _ _ _ _ _ B1) as (ND1 & Q1). destruct (Enc_reachable _ _ _ _ _ B2) as (ND2 & Q2).
  destruct Y1 as (YL1 & Y1). destruct Y2 as (YL2 & Y2).
  set (f := fun n => nth (index_of n R1) R2 0%nat).
  assert (Hf2 : forall c k, nth_error R1 k = Some c -> nth_error R2 k = Some (f c)).
  { intros c k Hk. unfold f. rewrite (index_of_unique R1 c k ND1 Hk). apply nth_error_nth'. rewrite <- YL2, YL1. apply nth_error_Some. congruence. }
  assert (NM : forall h r ts R, Enc reg h [] r ts R -> NoDup R -> (forall k n, nth_error R k = Some n -> exists nd nd' id t1 t2,
      nth_error h n = Some nd /\ nd_meta nd = Some id /\ types_of reg reg id t1 t2 /\ nth_error out1 k = Some nd' /\ node_match v_default h_default R t1 t2 nd nd') ->
    forall k n, nth_error R k = Some n -> exists a o, nth_error h n = Some a /\ nth_error out1 k = Some o /\ same_node (fun n => index_of n R) a o).
  { intros h r ts R HE HN HO k n Hk. destruct (HO k n Hk) as (a & b & id & t1 & t2 & P1 & P2 & (P3 & P3') & P4 & P5).
    rewrite P3 in P3'. injection P3' as <-. exists a, b. split; auto. split; auto.
    destruct (proj1 (Enc_complete reg h) _ _ _ _ HE n (nth_error_In _ _ Hk)) as [[]|(a' & Ha' & (id' & t' & G1 & G2 & G3 & G4 & G5 & _))].
    rewrite P1 in Ha'. injection Ha' as <-. rewrite P2 in G1. injection G1 as <-. rewrite P3 in G2. injection G2 as <-.
    apply node_match_same with (dv := v_default) (dh := h_default) (t := t1); auto using defaults_used_meta. }
  pose proof (NM h1 r1 ts1 R1 B1 ND1 Y1) as M1. pose proof (NM h2 r2 ts2 R2 B2 ND2 Y2) as M2. clear NM.
  assert (IDX : forall m c1 c2, reach h2 r2 m -> link h2 m c2 -> forall x, reach h1 r1 x -> link h1 x c1 -> index_of c1 R1 = index_of c2 R2 -> c2 = f c1).
  { intros m c1 c2 Hm Hl x Hx Hlx E.
    assert (I1 : In c1 R1) by (apply Q1; eapply reach_link; eauto).
    assert (I2 : In c2 R2) by (apply Q2; eapply reach_link; eauto).
    pose proof (index_of_nth _ _ I1) as J1. pose proof (index_of_nth _ _ I2) as J2. apply Hf2 in J1. rewrite E in J1. congruence. }
  exists f. split; [|split].
  - apply Hf2 in Z1. congruence.
  - intros m Hm. apply Q1 in Hm. pose proof (index_of_nth _ _ Hm) as Hk.
    destruct (M1 _ _ Hk) as (a & o & Ha & Ho & (S1 & S2 & S3 & S4)).
    destruct (M2 _ _ (Hf2 _ _ Hk)) as (b & o' & Hb & Ho' & (T1 & T2 & T3 & T4)). rewrite Ho in Ho'. injection Ho' as <-.
    assert (Hm2 : reach h2 r2 (f m)) by (apply Q2; eapply nth_error_In; apply Hf2; eauto).
    apply Q1 in Hm. exists a, b. split; auto. split; auto. split; [congruence|]. split; [congruence|]. split.
    + assert (G : forall la lb, (forall c, In (Some c) la -> link h1 m c) -> (forall c, In (Some c) lb -> link h2 (f m) c) ->
          map (option_map (fun n => index_of n R1)) la = map (option_map (fun n => index_of n R2)) lb -> lb = map (option_map f) la).
      { induction la as [|p la IH]; intros [|q lb] HA HB E; try discriminate; auto. simpl in E. injection E as E0 E. simpl. f_equal.
        - destruct p as [c|], q as [c'|]; try discriminate; auto. simpl in *. injection E0 as E0. f_equal. eapply IDX; [exact Hm2| |exact Hm| |exact E0]; [apply HB|apply HA]; left; auto.
        - apply IH; auto; intros c Hc; [apply HA|apply HB]; right; auto. }
      apply G; [| |congruence].
      * intros c Hc. exists a. split; auto.
      * intros c Hc. exists b. split; auto.
    + assert (G : forall la lb oo, (forall c v, In (Some c, v) la -> link h1 m c) -> (forall c v, In (Some c, v) lb -> link h2 (f m) c) ->
          Forall2 (same_hybrid (fun n => index_of n R1)) la oo -> Forall2 (same_hybrid (fun n => index_of n R2)) lb oo -> Forall2 (same_hybrid f) la lb).
      { induction la as [|[p v] la IH]; intros [|[q w] lb] oo HA HB FA FB.
        - constructor.
        - inversion FA; subst. inversion FB.
        - inversion FB; subst. inversion FA.
        - inversion FA as [|? [u z] ? ? K1 K2]; subst. inversion FB as [|? ? ? ? K3 K4]; subst. constructor.
          + unfold same_hybrid in *. cbn [fst snd] in *. destruct p as [c|], q as [c'|]; try (destruct K1; congruence); try (destruct K3; congruence).
            * f_equal. subst u. injection K3 as K3. eapply IDX; [exact Hm2| |exact Hm| |exact K3].
              -- eapply HB. left. reflexivity.
              -- eapply HA. left. reflexivity.
            * split; auto. eapply same_float_trans; [apply K1|]. apply same_float_sym. apply K3.
          + eapply IH; eauto; intros; [eapply HA|eapply HB]; right; eauto. }
      eapply G; [| |exact S4|exact T4].
      * intros c v Hc. exists a. split; eauto.
      * intros c v Hc. exists b. split; eauto.
  - intros m1 m2 Hm1 Hm2 E. apply Q1 in Hm1, Hm2. pose proof (index_of_nth _ _ Hm1) as J1. pose proof (index_of_nth _ _ Hm2) as J2.
    pose proof (Hf2 _ _ J1) as K1. pose proof (Hf2 _ _ J2) as K2. rewrite E in K1.
    assert (index_of m1 R1 = index_of m2 R1) by (eapply NoDup_nth_inj; eauto). congruence.
Qed.
Print Assumptions C11_same_text_isomorphic.

(** conversely the text depends on the graph only up to renaming of nodes (hybrid
    constants compared as bit patterns) *)
Definition isomorphic_exact (h : heap) (root : nat) (h' : heap) (root' : nat) : Prop :=
  exists f : nat -> nat, f root = root' /\
    (forall m, reach h root m -> exists a b, nth_error h m = Some a /\ nth_error h' (f m) = Some b /\
       nd_meta b = nd_meta a /\ nd_vars b = nd_vars a /\ nd_lookups b = map (option_map f) (nd_lookups a) /\
       nd_hybrids b = map (fun p => (option_map f (fst p), snd p)) (nd_hybrids a)) /\
    (forall m1 m2, reach h root m1 -> reach h root m2 -> f m1 = f m2 -> m1 = m2).

Theorem C11_isomorphic_same_text : forall reg h1 r1 h2 r2 fuel,
  registry_fits reg -> valid_graph reg h1 r1 -> isomorphic_exact h1 r1 h2 r2 ->
  Z.of_nat (length h1) < 2^50 -> (length h1 < fuel)%nat ->
  Z.of_nat (length h2) < 2^50 -> (length h2 < fuel)%nat ->
  exists s, serialise fuel reg h1 r1 false = Ok (s, h1) /\ serialise fuel reg h2 r2 false = Ok (s, h2).
Proof.
  intros reg h1 r1 h2 r2 fuel Hf V1 (f & Hr & Hn & Hi) L1 F1 L2 F2.
  destruct (serialise_valid reg h1 r1 fuel Hf V1 L1 F1) as (s1 & ts1 & R1 & A1 & B1 & C1 & D1 & _).
  exists s1. split; auto. destruct (Enc_reachable _ _ _ _ _ B1) as (ND1 & Q1).
  assert (OK : okmap reg h1 h2 f R1).
  { split.
    - intros x a Hx Ha. apply Q1 in Hx. destruct (Hn x Hx) as (a' & b & E1 & E2 & M1 & M2 & M3 & M4). rewrite Ha in E1. injection E1 as <-.
      exists b. split; auto. split; auto. split; auto. split; auto. intros id t Hid Ht. rewrite M4.
      destruct (proj2 V1 x Hx) as (a' & Ha' & (id' & t' & G1 & G2 & G3 & G4 & G5 & _) & _). rewrite Ha in Ha'. injection Ha' as <-.
      rewrite Hid in G1. injection G1 as <-. rewrite Ht in G2. injection G2 as <-. revert G5. generalize (t_hybrids t). clear. 
      induction (nd_hybrids a) as [|[[c|] v] l IH]; intros [|d ds] L; try discriminate; simpl; constructor; auto.
    - intros x y Hx Hy E. apply Hi; auto; apply Q1; auto. }
  pose proof (proj1 (Enc_transport reg h1 h2 f) _ _ _ _ B1 OK) as ET. simpl in ET. rewrite Hr in ET.
  destruct (serialise_Enc reg h2 r2 ts1 _ fuel Hf ET L2 F2) as (s2 & G1 & G2). rewrite C1 in G2. injection G2 as <-. auto.
Qed.
Print Assumptions C11_isomorphic_same_text.

(** ** C12: shared nodes are stored once. The text is linear in the number of distinct
    reachable nodes and their members, however they are shared. *)
Definition member_bytes (h : heap) (m : nat) : nat :=
  match nth_error h m with
  | Some nd => 3 + 5 * length (nd_vars nd) + 3 * length (nd_lookups nd) + 5 * length (nd_hybrids nd)
  | None => 0
  end.
Theorem C12_linear_size : forall reg h root l fuel, registry_fits reg -> valid_graph reg h root -> reachable_nodes h root l ->
  Z.of_nat (length h) < 2^50 -> (length h < fuel)%nat ->
  exists s, serialise fuel reg h root false = Ok (s, h) /\
    (length s <= 4 * ((list_sum (map (member_bytes h) l) + 2) / 3))%nat.
Proof.
  intros reg h root l fuel Hf HV (HN & Hl) HL Hfu.
  destruct (serialise_valid reg h root fuel Hf HV HL Hfu) as (s & ts & R' & E1 & E & E3 & E4 & E5 & E6).
  exists s. split; auto.
  destruct (Enc_reachable _ _ _ _ _ E) as (HN' & HR').
  assert (T : total h R' = list_sum (map (member_bytes h) l)).
  { assert (P : Permutation.Permutation R' l).
    { apply Permutation.NoDup_Permutation; auto. intros x. rewrite Hl, HR'. reflexivity. }
    assert (T0 : forall q, total h q = list_sum (map (member_bytes h) q)).
    { induction q as [|x q IH]; [reflexivity|]. cbn [total map list_sum fold_right]. rewrite IH. reflexivity. }
    rewrite T0. clear -P. induction P; simpl; lia. }
  destruct (Enc_len _ _ _ _ _ E) as (T1 & T2).
  destruct (b64_text_facts (length (enc 0 ts)) (enc 0 ts)) as (_ & T3 & _); auto.
  { apply enc_bytes; [lia|apply (proj1 (Enc_bytes reg h) _ _ _ _ E)]. }
  rewrite T3 in E6. rewrite T in T1. etransitivity; [exact E6|].
  apply Nat.mul_le_mono_l. apply Nat.div_le_mono; lia.
Qed.
Print Assumptions C12_linear_size.
(** a chain of [n] Add nodes each using the previous one twice has 2^n paths *)
Definition diamond_chain (n : nat) : heap :=
  mknode 6 [] [] [] :: map (fun i => mknode 21 [] [Some i] [(0%nat, (Some i, 0))]) (seq 0 n).
Example C12_diamonds : exists s, serialise 32 registry (diamond_chain 30) 30 false = Ok (s, diamond_chain 30) /\
  (length s <= 500)%nat /\ valid_graph registry (diamond_chain 30) 30.
Proof.
  eexists. split; [vm_compute; reflexivity|]. split; [apply Nat.leb_le; vm_compute; reflexivity|].
  apply graph_ok_spec; [vm_compute; reflexivity|apply Nat.ltb_lt; vm_compute; reflexivity].
Qed.

(** ** C13: text written with registry [reg1] is read with registry [reg2] whose types
    (same ids) have other member lists *)
Theorem C13_version_skew : forall reg1 reg2 h root l fuel,
  registry_fits reg1 -> (length reg1 <= length reg2)%nat -> valid_graph reg1 h root ->
  reachable_nodes h root l -> Z.of_nat (length l) <= 65536 ->
  Z.of_nat (length h) < 2^50 -> (length h < fuel)%nat ->
  exists s root' h' f,
    serialise fuel reg1 h root false = Ok (s, h) /\
    deserialise reg2 s = Ok (Some root', h') /\ length h' = length l /\ f root = root' /\
    (forall m1 m2, reach h root m1 -> reach h root m2 -> f m1 = f m2 -> m1 = m2) /\
    (forall m, reach h root m -> exists a b id t1 t2,
       nth_error h m = Some a /\ nd_meta a = Some id /\ nth_error reg1 id = Some t1 /\ nth_error reg2 id = Some t2 /\
       nth_error h' (f m) = Some b /\ carries f t1 t2 a b).
Proof.
  intros reg1 reg2 h root l fuel Hf Hle HV Hl HN HL Hfu.
  destruct (serialise_valid reg1 h root fuel Hf HV HL Hfu) as (s & ts & R' & E1 & E & E3 & E4 & E5 & _).
  rewrite (reachable_length _ _ _ _ _ _ E Hl) in *.
  assert (HS : forall id t1, nth_error reg1 id = Some t1 -> exists t2, nth_error reg2 id = Some t2).
  { intros id t1 H. destruct (nth_error reg2 id) eqn:X; eauto. apply nth_error_None in X. assert (id < length reg1)%nat by (apply nth_error_Some; congruence). lia. }
  destruct (load_enc reg1 reg2 h root ts R' s Hf HS) as (k & out & D & (OL & OM) & Hk); eauto using vals_of_valid.
  destruct (Enc_reachable _ _ _ _ _ E) as (ND & HR).
  exists s, k, out, (fun n => index_of n R'). split; auto. split; auto. split; auto. split; [apply index_of_unique; auto|]. split.
  { intros x y Hx Hy Exy. apply HR in Hx, Hy. pose proof (index_of_nth _ _ Hx) as X1. pose proof (index_of_nth _ _ Hy) as Y1. rewrite Exy in X1. congruence. }
  intros m Hm. apply HR in Hm. destruct (OM _ _ (index_of_nth _ _ Hm)) as (a & b & id & t1 & t2 & A1 & A2 & (A3 & A3') & A4 & A5).
  exists a, b, id, t1, t2. split; auto. split; auto. split; auto. split; auto. split; auto.
  destruct (proj1 (Enc_complete reg1 h) _ _ _ _ E m Hm) as [[]|(a' & Ha' & (id' & t' & B1 & B2 & B3 & B4 & B5 & _))].
  rewrite A1 in Ha'. injection Ha' as <-. rewrite A2 in B1. injection B1 as <-. rewrite A3 in B2. injection B2 as <-.
  assert (PR : forall c q, prel R' (Some c) q -> q = Some (index_of c R')).
  { intros c q (j & -> & Hj). rewrite (index_of_unique R' c j ND Hj). reflexivity. }
  destruct A5. constructor; auto.
  - intros i d1 d2 v H1 H2 Ed Hv. rewrite (nm_vars i d2 H2), Hv, H1. cbn [loaded_var]. destruct (Z.eqb_spec v (v_default d1)); congruence.
  - intros i d1 d2 v H1 H2 Ed Hv. rewrite (nm_vars i d2 H2), Hv, H1. cbn [loaded_var]. destruct (Z.eqb_spec v (v_default d1)); congruence.
  - intros i c Hi Hc. destruct (nm_lookups i Hi) as (q & Hq & Hp). rewrite Hc in Hp. rewrite Hq, (PR _ _ Hp). reflexivity.
  - intros i d2 c v H2 Hc. destruct (nm_hybrids i d2 H2) as (q & Hq & Hp). rewrite Hc in Hp.
    destruct (nth_error (t_hybrids t1) i) as [d1|] eqn:E1'.
    + destruct Hp as (_ & Hp). exists (snd q). rewrite Hq. destruct q as [q w]. simpl in *. rewrite (PR _ _ Hp). reflexivity.
    + exfalso. apply nth_error_None in E1'. assert (i < length (nd_hybrids a))%nat by (apply nth_error_Some; congruence). lia.
  - intros i d1 d2 v H1 H2 Ed Hv. destruct (nm_hybrids i d2 H2) as (q & Hq & Hp). rewrite Hv, H1 in Hp. cbn [loaded_hybrid] in Hp. subst q.
    eexists. split; [exact Hq|]. destruct (f32_neq v (h_default d1)) eqn:X; [left; auto|]. rewrite <- Ed. apply f32_neq_same. auto.
  - intros i d2 H1 H2. rewrite (nm_vars i d2 H2), H1. destruct (nth_error (nd_vars a) i); reflexivity.
  - intros i Hi. destruct (nm_lookups i) as (q & Hq & Hp); [lia|]. rewrite (proj2 (nth_error_None (nd_lookups a) i)) in Hp by lia. congruence.
  - intros i d2 H1 H2. destruct (nm_hybrids i d2 H2) as (q & Hq & Hp). rewrite Hq. f_equal. rewrite H1 in Hp.
    destruct (nth_error (nd_hybrids a) i) as [[[c|] v]|]; exact Hp.
Qed.
Print Assumptions C13_version_skew.
(** a reader that lost the last variable and all hybrids of every type still loads
    the demo graph *)
Definition older : list node_type :=
  map (fun t => {| t_name := t_name t; t_groups := t_groups t; t_vars := removelast (t_vars t); t_lookups := t_lookups t; t_hybrids := []; t_warp := t_warp t |}) registry.
Example C13_demo : exists s root' h' f,
    serialise 10 registry demo_graph 2 false = Ok (s, demo_graph) /\ deserialise older s = Ok (Some root', h') /\ length h' = 3%nat /\ f 2%nat = root' /\
    (forall m1 m2, reach demo_graph 2 m1 -> reach demo_graph 2 m2 -> f m1 = f m2 -> m1 = m2) /\
    (forall m, reach demo_graph 2 m -> exists a b id t1 t2,
       nth_error demo_graph m = Some a /\ nd_meta a = Some id /\ nth_error registry id = Some t1 /\ nth_error older id = Some t2 /\
       nth_error h' (f m) = Some b /\ carries f t1 t2 a b).
Proof.
  apply (C13_version_skew registry older demo_graph 2 [0; 1; 2]%nat 10); auto using registry_fits_shipped, demo_valid, demo_reachable; simpl; lia.
Qed.
