(** The bytes the writer produces: they are bytes, contain no long zero run (so the
    text encoding is lossless on them) and their number is bounded linearly. *)
From Coq Require Import ZArith List Bool Lia ZifyBool ZifyNat.
From Verif Require Import Prelude Registry_Model Base64_Model Base64_Spec NodeTree_Model NodeTree_Spec NodeTree_Tokens NodeTree_Ser.
Import ListNotations.
Open Scope Z_scope.

(** longest-run scan: current run length, or None when a run exceeds 44 *)
Fixpoint zscan (c : nat) (l : list Z) : option nat :=
  match l with
  | [] => Some c
  | b :: l' => if b =? 0 then (if (44 <? S c)%nat then None else zscan (S c) l') else zscan 0 l'
  end.

Lemma zscan_mono : forall l c c2 r, (c2 <= c)%nat -> zscan c l = Some r -> exists r2, zscan c2 l = Some r2 /\ (r2 <= r)%nat.
Proof.
  induction l as [|b l IH]; intros c c2 r H E; cbn [zscan] in *.
  - injection E as <-. eauto.
  - destruct (b =? 0); [|eauto]. destruct (44 <? S c)%nat eqn:L; [discriminate|].
    replace (44 <? S c2)%nat with false by lia. apply (IH (S c) (S c2)); auto. lia.
Qed.

Lemma zscan_app : forall a b c, zscan c (a ++ b) = match zscan c a with Some c' => zscan c' b | None => None end.
Proof.
  induction a as [|x a IH]; intros b c; cbn [zscan app]; auto. destruct (x =? 0); auto. destruct (44 <? S c)%nat; auto.
Qed.

Lemma zscan_zeros : forall n c l r, zscan c (repeat 0 n ++ l) = Some r -> (c <= 44)%nat -> (c + n <= 44)%nat.
Proof.
  induction n; intros c l r H Hc; [lia|]. cbn [repeat app zscan] in H. change (0 =? 0) with true in H. cbv iota in H.
  destruct (44 <? S c)%nat eqn:E; [discriminate|]. apply IHn in H; lia.
Qed.

Lemma zscan_le : forall l c r, zscan c l = Some r -> (c <= 44)%nat -> (r <= 44)%nat.
Proof.
  induction l as [|b l IH]; intros c r H Hc; cbn [zscan] in H.
  - injection H as <-. auto.
  - destruct (b =? 0); [|eapply IH; eauto; lia]. destruct (44 <? S c)%nat eqn:E; [discriminate|]. eapply IH; eauto. lia.
Qed.

Lemma zscan_no_run : forall l r, zscan 0 l = Some r -> ~ has_run 0 45 l.
Proof.
  intros l r H (p & q & ->). rewrite zscan_app in H. destruct (zscan 0 p) as [c|] eqn:E; [|discriminate].
  apply zscan_le in E; [|lia]. apply zscan_zeros in H; lia.
Qed.

Fixpoint tscan (c : nat) (ts : list tok) : option nat :=
  match ts with
  | [] => Some c
  | TB bs :: ts' => match zscan c bs with Some c' => tscan c' ts' | None => None end
  | TEnd :: ts' => tscan 0 ts'
  end.

Lemma tscan_mono : forall l c c2 r, (c2 <= c)%nat -> tscan c l = Some r -> exists r2, tscan c2 l = Some r2 /\ (r2 <= r)%nat.
Proof.
  induction l as [|[bs|] l IH]; intros c c2 r H E; cbn [tscan] in *.
  - injection E as <-. eauto.
  - destruct (zscan c bs) as [c'|] eqn:Ez; [|discriminate].
    destruct (zscan_mono _ _ _ _ H Ez) as (c2' & -> & H'). eauto.
  - eauto.
Qed.

Lemma tscan_app : forall a b c, tscan c (a ++ b) = match tscan c a with Some c' => tscan c' b | None => None end.
Proof.
  induction a as [|[bs|] a IH]; intros b c; cbn [tscan app]; auto. destruct (zscan c bs); auto.
Qed.

Lemma zscan_flush : forall k c l, (1 <= k)%nat -> zscan c (flush k ++ l) = zscan 0 l.
Proof. intros [|k] c l H; [lia|]. cbn [flush app zscan]. replace (4 + 8 * Z.of_nat k =? 0) with false by lia. reflexivity. Qed.

Lemma enc_scan : forall ts k c, (k < 32)%nat -> (c <= 44)%nat ->
  tscan (if Nat.eqb k 0 then c else 0%nat) ts <> None -> zscan c (enc k ts) <> None.
Proof.
  induction ts as [|[bs|] ts IH]; intros k c Hk Hc H.
  - cbn [enc]. destruct k as [|k]; [simpl; discriminate|]. rewrite <- (app_nil_r (flush (S k))). rewrite zscan_flush by lia. simpl. discriminate.
  - cbn [enc]. assert (X : forall c0, (c0 <= 44)%nat -> tscan c0 (TB bs :: ts) <> None -> zscan c0 (bs ++ enc 0 ts) <> None).
    { intros c0 Hc0 H0. rewrite zscan_app. cbn [tscan] in H0. destruct (zscan c0 bs) as [c'|] eqn:Ez; [|congruence].
      apply IH; [lia| |]. eapply zscan_le; eauto. exact H0. }
    destruct k as [|k]; [apply X; auto|]. rewrite zscan_flush by lia. apply X; [lia|auto].
  - assert (H0 : tscan 0 ts <> None) by (destruct (Nat.eqb k 0); exact H).
    change (enc k (TEnd :: ts)) with (if Nat.eqb (S k) 32 then flush 32 ++ enc 0 ts else enc (S k) ts).
    destruct (Nat.eqb_spec (S k) 32).
    + rewrite zscan_flush by lia. apply IH; [lia|lia|exact H0].
    + apply IH; [lia|lia|exact H0].
Qed.

Lemma zscan_any : forall bs c, (c + length bs <= 44)%nat -> exists r, zscan c bs = Some r /\ (r <= c + length bs)%nat.
Proof.
  induction bs as [|b bs IH]; intros c H; cbn [zscan length] in *; [exists c; split; auto; lia|].
  destruct (b =? 0).
  - replace (44 <? S c)%nat with false by lia. destruct (IH (S c)) as (r & -> & Hr); [lia|]. exists r. split; auto. lia.
  - destruct (IH 0%nat) as (r & -> & Hr); [lia|]. exists r. split; auto. lia.
Qed.

(** a member byte is zero only for variable 0 *)
Lemma mtok_nz : forall ty i, (i < 32)%nat -> 0 <= ty < 4 -> (ty <> 0 \/ i <> 0%nat) ->
  member_byte ty (u8 (Z.of_nat i)) mod 256 <> 0.
Proof. intros. unfold member_byte, u8. lia. Qed.

Lemma tscan_mtok : forall ty i c, (i < 32)%nat -> 0 <= ty < 4 -> (ty <> 0 \/ i <> 0%nat) -> tscan c [mtok ty i] = Some 0%nat.
Proof.
  intros. unfold mtok. cbn [tscan le_bytes zscan].
  pose proof (mtok_nz ty i H H0 H1). replace (_ =? 0) with false by lia. reflexivity.
Qed.

Lemma tscan_vars : forall vs ds i c, (i + length vs <= 32)%nat -> (c <= 10)%nat -> (i = 0%nat -> c <= 5)%nat ->
  exists r, tscan c (var_toks i vs ds) = Some r /\ (r <= 10)%nat.
Proof.
  induction vs as [|v vs IH]; intros ds i c Hi Hc Hc0; [simpl; exists c; split; auto; lia|].
  destruct ds as [|d ds]; [simpl; exists c; split; auto; lia|]. cbn [var_toks]. simpl length in Hi.
  destruct (v =? v_default d).
  - simpl. apply IH; lia.
  - rewrite tscan_app. change [mtok TypeVariable i; TB (le_bytes 4 v)] with ([mtok TypeVariable i] ++ [TB (le_bytes 4 v)]).
    rewrite tscan_app. destruct i as [|i].
    + unfold mtok. cbn [tscan]. destruct (zscan_any (le_bytes 1 (member_byte TypeVariable (u8 (Z.of_nat 0)))) c) as (r1 & -> & H1); [simpl; lia|].
      destruct (zscan_any (le_bytes 4 v) r1) as (r2 & -> & H2); [rewrite le_bytes_length in *; lia|].
      rewrite le_bytes_length in *. apply IH; lia.
    + rewrite tscan_mtok by (unfold TypeVariable; lia).
      cbn [tscan]. destruct (zscan_any (le_bytes 4 v) 0) as (r2 & -> & H2); [rewrite le_bytes_length in *; lia|].
      rewrite le_bytes_length in *. apply IH; lia.
Qed.

Lemma tscan_Enc : forall reg h, registry_fits reg ->
  (forall R n ts R', Enc reg h R n ts R' -> forall c, (c <= 4)%nat -> exists r, tscan c ts = Some r /\ (r <= 4)%nat) /\
  (forall R ps ts R', EncL reg h R ps ts R' -> forall c, (ps = [] -> c <= 10)%nat -> (ps <> [] -> c <= 4)%nat -> exists r, tscan c ts = Some r /\ (ps = [] -> r = c) /\ (ps <> [] -> r <= 4)%nat) /\
  (forall R i ps ds ts R', EncH reg h R i ps ds ts R' -> (i + length ps <= 32)%nat -> forall c, (c <= 10)%nat -> exists r, tscan c ts = Some r /\ (r <= 10)%nat).
Proof.
  intros reg h (_ & Hfit). rewrite Forall_forall in Hfit. apply Enc_mutind.
  - intros R n i Hi c Hc. unfold ref_tok. cbn [tscan]. change (zscan c (le_bytes 1 255)) with (Some 0%nat).
    destruct (zscan_any (le_bytes 2 (u16 (Z.of_nat i))) 0) as (r & -> & Hr); [rewrite le_bytes_length; lia|].
    rewrite le_bytes_length in Hr. exists r. split; auto; lia.
  - intros R n nd id t tl R1 th R2 Hn Hm Ht Lv Ll Lh HnR _ IH1 _ IH2 HnR2 c Hc.
    assert (Ft : In t reg) by (eapply nth_error_In; eauto). destruct (Hfit t Ft) as (F1 & F2 & F3).
    cbn [tscan]. destruct (zscan_any (le_bytes 1 (Z.of_nat id)) c) as (r0 & -> & H0); [simpl; lia|]. rewrite le_bytes_length in H0.
    rewrite tscan_app. destruct (tscan_vars (nd_vars nd) (t_vars t) 0 r0) as (r1 & -> & H1); [lia|lia|lia|].
    rewrite tscan_app. 
    assert (X : exists r2 r3, tscan r1 (count_toks (length (t_lookups t))) = Some r2 /\ tscan r2 tl = Some r3 /\ (r3 <= 10)%nat).
    { unfold count_toks. destruct (Nat.eqb_spec (length (t_lookups t)) 0) as [E0|E0].
      - destruct (nd_lookups nd) eqn:En; [|simpl in Ll; lia].
        destruct (IH1 r1) as (r & Er & Hr & _); [lia|congruence|]. exists r1, r. split; auto. split; auto. rewrite Hr; auto.
      - rewrite tscan_mtok by (unfold TypeLookup; lia). destruct (IH1 0%nat) as (r & Er & _ & Hr); [lia|lia|].
        exists 0%nat, r. split; auto. split; auto. assert (nd_lookups nd <> []) by (intros X; rewrite X in Ll; simpl in Ll; lia). specialize (Hr H). lia. }
    destruct X as (r2 & r3 & -> & E3 & H3). rewrite tscan_app, E3. rewrite tscan_app.
    destruct (IH2 ltac:(lia) r3 H3) as (r4 & -> & _). simpl. exists 0%nat. split; auto; lia.
  - intros R c H0 _. exists c. simpl. repeat split; auto. congruence.
  - intros R c ps t1 R1 t2 R2 _ IH1 _ IH2 c0 _ Hc. rewrite tscan_app. destruct (IH1 c0) as (r1 & -> & H1); [apply Hc; discriminate|].
    destruct (IH2 r1) as (r2 & -> & H2 & H3); [lia|lia|]. exists r2. split; auto. split; [discriminate|]. intros _.
    destruct ps; [rewrite H2; auto|apply H3; discriminate].
  - intros R i _ c Hc. simpl. eauto.
  - intros R i v ps d ds t2 R2 _ IH Hi c Hc. simpl length in Hi. rewrite tscan_app. destruct (f32_neq v (h_default d)).
    + change [mtok TypeHybridVariable i; TB (le_bytes 4 v)] with ([mtok TypeHybridVariable i] ++ [TB (le_bytes 4 v)]).
      rewrite tscan_app, tscan_mtok by (unfold TypeHybridVariable; lia). cbn [tscan].
      destruct (zscan_any (le_bytes 4 v) 0) as (r2 & -> & H2); [rewrite le_bytes_length in *; lia|].
      rewrite le_bytes_length in *. apply IH; lia.
    + simpl. apply IH; lia.
  - intros R i c v ps d ds t1 R1 t2 R2 _ IH1 _ IH2 Hi c0 Hc. simpl length in Hi.
    change (mtok TypeHybridLookup i :: t1 ++ t2) with ([mtok TypeHybridLookup i] ++ t1 ++ t2).
    rewrite tscan_app, tscan_mtok by (unfold TypeHybridLookup; lia). rewrite tscan_app.
    destruct (IH1 0%nat) as (r1 & -> & H1); [lia|]. apply IH2; lia.
Qed.

Lemma Enc_no_run : forall reg h R n ts R', registry_fits reg -> Enc reg h R n ts R' -> ~ has_run 0 45 (enc 0 ts).
Proof.
  intros reg h R n ts R' Hf E. destruct (proj1 (tscan_Enc reg h Hf) _ _ _ _ E 0%nat) as (r & Hr & _); [lia|].
  destruct (zscan 0 (enc 0 ts)) as [x|] eqn:Ez; [eapply zscan_no_run; eauto|].
  exfalso. apply (enc_scan ts 0 0); auto; try lia. simpl. congruence.
Qed.

(** ** All bytes *)
Definition tok_bytes (t : tok) : Prop := match t with TB bs => Forall is_byte bs | TEnd => True end.

Lemma enc_bytes : forall ts k, (k < 32)%nat -> Forall tok_bytes ts -> Forall is_byte (enc k ts).
Proof.
  assert (F : forall k, (k <= 32)%nat -> Forall is_byte (flush k)).
  { intros [|k] H; simpl; constructor; auto. unfold is_byte. lia. }
  induction ts as [|[bs|] ts IH]; intros k Hk H; cbn [enc].
  - apply F. lia.
  - inversion H; subst. apply Forall_app. split; [apply F; lia|]. apply Forall_app. split; auto. apply IH; auto. lia.
  - inversion H; subst. destruct (Nat.eqb_spec (S k) 32).
    + apply Forall_app. split; [apply F; lia|]. apply IH; auto. lia.
    + apply IH; auto. lia.
Qed.

Lemma var_toks_bytes : forall vs ds i, Forall tok_bytes (var_toks i vs ds).
Proof.
  induction vs as [|v vs IH]; intros [|d ds] i; cbn [var_toks]; auto. apply Forall_app. split; auto.
  destruct (v =? v_default d); [constructor|]. constructor; [apply le_bytes_byte|constructor; [apply le_bytes_byte|constructor]].
Qed.

Lemma Enc_bytes : forall reg h,
  (forall R n ts R', Enc reg h R n ts R' -> Forall tok_bytes ts) /\
  (forall R ps ts R', EncL reg h R ps ts R' -> Forall tok_bytes ts) /\
  (forall R i ps ds ts R', EncH reg h R i ps ds ts R' -> Forall tok_bytes ts).
Proof.
  intros reg h. apply Enc_mutind.
  - intros. constructor; [apply le_bytes_byte|]. constructor; [apply le_bytes_byte|constructor].
  - intros. constructor; [apply le_bytes_byte|]. rewrite !Forall_app. repeat split; auto.
    + apply var_toks_bytes.
    + unfold count_toks. destruct (Nat.eqb _ 0); constructor; auto. apply le_bytes_byte.
    + repeat constructor.
  - constructor.
  - intros. apply Forall_app; auto.
  - constructor.
  - intros. apply Forall_app. split; auto. destruct (f32_neq v (h_default d)); [|constructor]. constructor; [apply le_bytes_byte|constructor; [apply le_bytes_byte|constructor]].
  - intros. constructor; [apply le_bytes_byte|]. apply Forall_app; auto.
Qed.

(** ** Size *)
(** bytes of a token list, at most *)
Fixpoint tsize (ts : list tok) : nat :=
  match ts with [] => 0 | TB bs :: ts' => length bs + tsize ts' | TEnd :: ts' => 1 + tsize ts' end.

Lemma tsize_app : forall a b, tsize (a ++ b) = (tsize a + tsize b)%nat.
Proof. induction a as [|[bs|] a IH]; intros; simpl; auto; rewrite IH; lia. Qed.

Lemma flush_len : forall k, (length (flush k) <= k)%nat.
Proof. intros [|k]; simpl; lia. Qed.

Lemma enc_size : forall ts k, (length (enc k ts) <= length (flush k) + tsize ts)%nat.
Proof.
  induction ts as [|[bs|] ts IH]; intros k.
  - cbn [enc tsize]. lia.
  - cbn [enc tsize]. rewrite !app_length. specialize (IH 0%nat). simpl flush in IH. simpl (length []) in IH. lia.
  - change (enc k (TEnd :: ts)) with (if Nat.eqb (S k) 32 then flush 32 ++ enc 0 ts else enc (S k) ts). cbn [tsize].
    destruct (Nat.eqb_spec (S k) 32) as [e|e].
    + rewrite app_length. specialize (IH 0%nat). simpl flush in IH. simpl length in IH. 
      replace (length (flush 32)) with 1%nat by reflexivity. lia.
    + specialize (IH (S k)). simpl flush in IH at 1. simpl length in IH at 2. lia.
Qed.

(** bytes attributable to one node: its id, count and end, a member byte and value
    per variable, a reference per source, a member byte and a value or reference per
    hybrid *)
Definition node_size (nd : node_data) : nat :=
  (3 + 5 * length (nd_vars nd) + 3 * length (nd_lookups nd) + 5 * length (nd_hybrids nd))%nat.
Definition size_at (h : heap) (m : nat) : nat := match nth_error h m with Some nd => node_size nd | None => 0 end.
Fixpoint total (h : heap) (l : list nat) : nat := match l with [] => 0 | m :: l' => size_at h m + total h l' end.

Lemma total_app : forall h a b, total h (a ++ b) = (total h a + total h b)%nat.
Proof. induction a; intros; simpl; auto. rewrite IHa. lia. Qed.

Lemma var_toks_size : forall vs ds i, (tsize (var_toks i vs ds) <= 5 * length vs)%nat.
Proof.
  induction vs as [|v vs IH]; intros [|d ds] i; simpl; try lia. rewrite tsize_app. specialize (IH ds (S i)).
  destruct (v =? v_default d); simpl; lia.
Qed.

Lemma Enc_size : forall reg h,
  (forall R n ts R', Enc reg h R n ts R' -> exists N, R' = R ++ N /\ (tsize ts <= 3 + total h N)%nat /\ (N <> [] -> tsize ts <= total h N)%nat) /\
  (forall R ps ts R', EncL reg h R ps ts R' -> exists N, R' = R ++ N /\ (tsize ts <= 3 * length ps + total h N)%nat) /\
  (forall R i ps ds ts R', EncH reg h R i ps ds ts R' -> exists N, R' = R ++ N /\ (tsize ts <= 5 * length ps + total h N)%nat).
Proof.
  intros reg h. apply Enc_mutind.
  - intros. exists []. rewrite app_nil_r. split; auto. simpl. split; [lia|congruence].
  - intros R n nd id t tl R1 th R2 Hn Hm Ht Lv Ll Lh HnR _ (N1 & -> & H1) _ (N2 & -> & H2) HnR2.
    exists (N1 ++ N2 ++ [n]). rewrite <- !app_assoc. split; auto.
    assert (X : (tsize (TB (le_bytes 1 (Z.of_nat id)) :: var_toks 0 (nd_vars nd) (t_vars t) ++ count_toks (length (t_lookups t)) ++ tl ++ th ++ [TEnd])
       <= total h (N1 ++ N2 ++ [n]))%nat); [|split; auto; lia].
    rewrite !total_app. cbn [total]. unfold size_at. rewrite Hn. unfold node_size.
    cbn [tsize]. rewrite !tsize_app. simpl tsize at 5. simpl length at 1. pose proof (var_toks_size (nd_vars nd) (t_vars t) 0).
    assert (tsize (count_toks (length (t_lookups t))) <= 1)%nat by (unfold count_toks; destruct (Nat.eqb _ 0); simpl; lia). lia.
  - intros. exists []. rewrite app_nil_r. split; auto.
  - intros R c ps t1 R1 t2 R2 _ (N1 & -> & H1 & _) _ (N2 & -> & H2). exists (N1 ++ N2). rewrite <- app_assoc. split; auto.
    rewrite tsize_app, total_app. simpl length. lia.
  - intros. exists []. rewrite app_nil_r. split; auto.
  - intros R i v ps d ds t2 R2 _ (N & -> & H). exists N. split; auto. rewrite tsize_app. simpl length. destruct (f32_neq v (h_default d)); simpl tsize; lia.
  - intros R i c v ps d ds t1 R1 t2 R2 _ (N1 & -> & H1 & _) _ (N2 & -> & H2). exists (N1 ++ N2). rewrite <- app_assoc. split; auto.
    change (mtok TypeHybridLookup i :: t1 ++ t2) with ([mtok TypeHybridLookup i] ++ t1 ++ t2). 
    rewrite !tsize_app, total_app. simpl tsize at 1. simpl length. lia.
Qed.

Lemma Enc_len : forall reg h n ts R', Enc reg h [] n ts R' -> (length (enc 0 ts) <= total h R')%nat /\ (2 <= length (enc 0 ts))%nat.
Proof.
  intros reg h n ts R' E. split.
  - destruct (proj1 (Enc_size reg h) _ _ _ _ E) as (N & -> & _ & H). simpl app. pose proof (enc_size ts 0). simpl flush in H0. simpl (length []) in H0.
    assert (N <> []); [|specialize (H H1); lia].
    intros ->. destruct (proj1 (Enc_NoDup reg h) _ _ _ _ E) as (_ & []). constructor.
  - inversion E; subst; [destruct i; discriminate|]. cbn [enc]. rewrite !app_length, le_bytes_length.
    assert (1 <= length (enc 0 (var_toks 0 (nd_vars nd) (t_vars t) ++ count_toks (length (t_lookups t)) ++ tl ++ th ++ [TEnd])))%nat; [|lia].
    rewrite !app_assoc. generalize ((((var_toks 0 (nd_vars nd) (t_vars t) ++ count_toks (length (t_lookups t))) ++ tl) ++ th)). intros T.
    clear. assert (forall k, (k < 32)%nat -> (1 <= length (enc k (T ++ [TEnd])))%nat); [|apply H; lia].
    induction T as [|[bs|] T IH]; intros k Hk.
    + simpl app. cbn [enc]. destruct (Nat.eqb_spec (S k) 32); simpl; lia.
    + simpl app. cbn [enc]. rewrite !app_length. specialize (IH 0%nat). lia.
    + simpl app. cbn [enc]. destruct (Nat.eqb_spec (S k) 32); [rewrite app_length; simpl; lia|]. apply IH. lia.
Qed.
