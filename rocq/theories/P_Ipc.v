(** C54: the node editor IPC channel. *)
From Coq Require Import ZArith List Bool Lia.
From Coq Require Import ZifyBool ZifyNat.
From Verif Require Import Prelude Ipc_Model.
Import ListNotations.
Open Scope Z_scope.
Ltac Zify.zify_post_hook ::= Z.div_mod_to_equations.

(** ** Specification: mailboxes *)
(** A shared object is a mailbox holding the last accepted message; every context counts the
    messages of others accepted since it last sent, received or was set up. *)
Record boxes := { last_msg : list (option (Z * list Z)); current : option nat; unread : list (option (nat * Z)) }.
Definition boxes0 : boxes := {| last_msg := []; current := None; unread := [] |}.
Definition count_one (g : nat) (x : option (nat * Z)) : option (nat * Z) :=
  match x with Some (g', p) => if (g' =? g)%nat then Some (g', p + 1) else x | None => None end.
Definition valid_text (s : list Z) : Prop := Forall (fun b => 0 < b < 256) s.
Definition fits (s : list Z) : Prop := Z.of_nat (length s) + 3 < 65536.

Inductive spec_step (b : boxes) : event -> reply -> boxes -> Prop :=
  | SSetupOld : forall rp g m, current b = Some g -> nth_error (last_msg b) g = Some m ->
      spec_step b (ESetup rp) (RHandle (Some (length (unread b))))
        {| last_msg := last_msg b; current := Some g;
           unread := unread b ++ [Some (g, match m with Some (t, _) => if rp && (t =? SELECTED_NODE) then 1 else 0 | None => 0 end)] |}
  | SSetupNew : forall rp, current b = None ->
      spec_step b (ESetup rp) (RHandle (Some (length (unread b))))
        {| last_msg := last_msg b ++ [None]; current := Some (length (last_msg b)); unread := unread b ++ [Some (length (last_msg b), 0)] |}
  | SReleaseNull : spec_step b (ERelease None) RUnit b
  | SRelease : forall c x, nth_error (unread b) c = Some (Some x) ->
      spec_step b (ERelease (Some c)) RUnit {| last_msg := last_msg b; current := None; unread := upd (unread b) c None |}
  | SSendNull : forall h t s, h = None \/ s = None -> spec_step b (ESend h t s) (RBool false) b
  | SSendTooBig : forall c x t s, nth_error (unread b) c = Some (Some x) -> ~ fits s -> spec_step b (ESend (Some c) t (Some s)) (RBool false) b
  | SSend : forall c g p t s, nth_error (unread b) c = Some (Some (g, p)) -> fits s -> valid_text s -> t = SELECTED_NODE \/ t = IMPORT_REQUEST ->
      spec_step b (ESend (Some c) t (Some s)) (RBool true)
        {| last_msg := upd (last_msg b) g (Some (t, s)); current := current b; unread := upd (map (count_one g) (unread b)) c (Some (g, 0)) |}
  | SPollNull : forall buf n, spec_step b (EPoll None buf n) (RPoll NOT_INITIALISED buf) b
  | SPollNothing : forall c g p buf n, nth_error (unread b) c = Some (Some (g, p)) -> p mod 256 = 0 -> spec_step b (EPoll (Some c) buf n) (RPoll MSG_NONE buf) b
  | SPollNoBuffer : forall c g p buf n, nth_error (unread b) c = Some (Some (g, p)) -> p mod 256 <> 0 -> buf = None \/ n <= 0 ->
      spec_step b (EPoll (Some c) buf n) (RPoll TOO_SMALL buf) b
  | SPollTooSmall : forall c g p t s buf n, nth_error (unread b) c = Some (Some (g, p)) -> p mod 256 <> 0 -> nth_error (last_msg b) g = Some (Some (t, s)) ->
      0 < n -> n < Z.of_nat (length s) + 1 ->
      spec_step b (EPoll (Some c) (Some buf) n) (RPoll TOO_SMALL (Some buf)) {| last_msg := last_msg b; current := current b; unread := upd (unread b) c (Some (g, 0)) |}
  | SPoll : forall c g p t s buf n, nth_error (unread b) c = Some (Some (g, p)) -> p mod 256 <> 0 -> nth_error (last_msg b) g = Some (Some (t, s)) ->
      Z.of_nat (length s) + 1 <= n -> n <= Z.of_nat (length buf) ->
      spec_step b (EPoll (Some c) (Some buf) n) (RPoll t (Some (s ++ 0 :: skipn (S (length s)) buf)))
        {| last_msg := last_msg b; current := current b; unread := upd (unread b) c (Some (g, 0)) |}.

(** ** Simulation *)
Lemma SZ_val : Z.of_nat SZ = 65536. Proof. unfold SZ. rewrite Z2Nat.id; reflexivity || lia. Qed.
Opaque SZ.

Definition seg_ok (mem : list Z) (m : option (Z * list Z)) : Prop :=
  length mem = SZ /\ exists cnt ty rest, mem = cnt :: ty :: rest /\ 0 <= cnt < 256 /\
    match m with
    | None => cnt = 0 /\ ty = 0
    | Some (t, s) => ty = t /\ (t = SELECTED_NODE \/ t = IMPORT_REQUEST) /\ valid_text s /\ fits s /\ exists tl, rest = s ++ 0 :: tl
    end.
Definition ctx_ok (sg : list (list Z)) (ms : list (option (Z * list Z))) (c a : option (nat * Z)) : Prop :=
  match c, a with
  | None, None => True
  | Some (g, l), Some (g', p) => g = g' /\ 0 <= l < 256 /\ 0 <= p /\ exists mem cnt, nth_error sg g = Some mem /\ nth_error mem 0 = Some cnt /\ cnt = u8 (l + p) /\
      (nth_error ms g = Some None -> p = 0)
  | _, _ => False
  end.
Definition R (w : world) (b : boxes) : Prop :=
  Forall2 seg_ok (segs w) (last_msg b) /\ named w = current b /\ (forall g, current b = Some g -> (g < length (segs w))%nat) /\
  Forall2 (ctx_ok (segs w) (last_msg b)) (ctxs w) (unread b).

Lemma F2_nth : forall A B (P : A -> B -> Prop) l1 l2, Forall2 P l1 l2 -> forall i a, nth_error l1 i = Some a -> exists b, nth_error l2 i = Some b /\ P a b.
Proof. induction 1; intros i a H1; destruct i; try discriminate; cbn in *; [injection H1 as <-; eauto|eauto]. Qed.
Lemma F2_nth_r : forall A B (P : A -> B -> Prop) l1 l2, Forall2 P l1 l2 -> forall i b, nth_error l2 i = Some b -> exists a, nth_error l1 i = Some a /\ P a b.
Proof. induction 1; intros i a H1; destruct i; try discriminate; cbn in *; [injection H1 as <-; eauto|eauto]. Qed.
Lemma F2_upd : forall A B (P : A -> B -> Prop) l1 l2 i a b, Forall2 P l1 l2 -> P a b -> Forall2 P (upd l1 i a) (upd l2 i b).
Proof. intros A B P l1 l2 i a b H. revert i. induction H; intros i Q; destruct i; cbn; auto. Qed.
Lemma F2_app : forall A B (P : A -> B -> Prop) l1 l2 a b, Forall2 P l1 l2 -> P a b -> Forall2 P (l1 ++ [a]) (l2 ++ [b]).
Proof. intros A B P l1 l2 a b H Q. induction H; cbn; constructor; auto. Qed.
Lemma F2_len : forall A B (P : A -> B -> Prop) l1 l2, Forall2 P l1 l2 -> length l1 = length l2.
Proof. induction 1; cbn; auto. Qed.
Lemma F2_impl : forall A B (P Q : A -> B -> Prop) l1 l2, (forall a b, P a b -> Q a b) -> Forall2 P l1 l2 -> Forall2 Q l1 l2.
Proof. intros. induction H0; constructor; auto. Qed.

Lemma write_mid : forall bs a b, (length bs <= length b)%nat -> write (a ++ b) (length a) bs = Ok (a ++ bs ++ skipn (length bs) b).
Proof.
  induction bs as [|x bs IH]; intros a b L; [reflexivity|]. destruct b as [|y b]; [cbn in L; lia|]. cbn [write]. rewrite wr_mid by auto. cbn [bind].
  specialize (IH (a ++ [x]) b ltac:(cbn in L; lia)). rewrite app_length in IH. cbn [length] in IH. rewrite PeanoNat.Nat.add_1_r in IH. rewrite <- app_assoc in IH. cbn [app] in IH.
  rewrite IH. cbn [length skipn]. rewrite <- app_assoc. reflexivity.
Qed.
Lemma write0 : forall bs b, (length bs <= length b)%nat -> write b 0 bs = Ok (bs ++ skipn (length bs) b).
Proof. intros. apply (write_mid bs [] b H). Qed.
Lemma cstr_app : forall s tl, valid_text s -> cstr (s ++ 0 :: tl) = Some s.
Proof. induction 1; cbn; auto. replace (x =? 0) with false by lia. rewrite IHForall. reflexivity. Qed.
Lemma u8_small : forall z, 0 <= z < 256 -> u8 z = z. Proof. intros. unfold u8. apply Z.mod_small. lia. Qed.

Lemma u8_range : forall z, 0 <= u8 z < 256. Proof. intros. unfold u8. apply Z.mod_pos_bound. lia. Qed.
Lemma u8_back : forall c, 0 <= c < 256 -> c = u8 (u8 (c - 1) + 1). Proof. unfold u8. lia. Qed.
Lemma u8_next : forall l p, u8 (u8 (l + p) + 1) = u8 (l + (p + 1)). Proof. unfold u8. lia. Qed.
Lemma u8_same : forall l p, 0 <= l < 256 -> p mod 256 = 0 -> u8 (l + p) = l. Proof. unfold u8. lia. Qed.
Lemma u8_diff : forall l p, 0 <= l < 256 -> p mod 256 <> 0 -> u8 (l + p) <> l. Proof. unfold u8. lia. Qed.
Lemma s32_small : forall z, 0 <= z < 65536 -> s32 z = z. Proof. unfold s32. lia. Qed.
Lemma known_type : forall t, t = SELECTED_NODE \/ t = IMPORT_REQUEST -> negb (t =? SELECTED_NODE) && negb (t =? IMPORT_REQUEST) = false.
Proof. intros t [-> | ->]; reflexivity. Qed.
Ltac Zify.zify_post_hook ::= idtac.

Theorem simulation : forall w b e r b', R w b -> spec_step b e r b' -> exists w', do w e = Ok (r, w') /\ R w' b'.
Proof.
  intros w b e r b' (RS & RN & RG & RC) S. pose proof SZ_val as SZV. pose proof (F2_len _ _ _ _ _ RS) as LS. pose proof (F2_len _ _ _ _ _ RC) as LC. destruct S.
  - (* setup, existing object *)
    cbn [do]. unfold setup. rewrite RN, H. destruct (F2_nth_r _ _ _ _ _ RS _ _ H0) as (mem & E & (LM & cnt & ty & rest & -> & CB & M)).
    rewrite (rd_Ok _ _ _ _ E). cbn [bind rd nth_error]. rewrite LC. eexists. split; [reflexivity|]. split; [|split; [|split]]; auto.
    { cbn. intros g0 G0. apply RG. congruence. }
    cbn [ctxs unread segs last_msg]. apply F2_app; auto. cbn [ctx_ok]. split; auto.
    destruct m as [[t s]|].
    + destruct M as (-> & T & _). destruct (rp && (t =? SELECTED_NODE)) eqn:Q.
      * split; [apply u8_range|]. split; [lia|]. exists (cnt :: t :: rest), cnt. repeat split; auto; [apply u8_back; auto|]. intros X. congruence.
      * split; [auto|]. split; [lia|]. exists (cnt :: t :: rest), cnt. repeat split; auto. symmetry; rewrite Z.add_0_r; apply u8_small; auto.
    + destruct M as (-> & ->). rewrite andb_false_r. split; [lia|]. split; [lia|]. exists (0 :: 0 :: rest), 0. repeat split; auto.
  - (* setup, new object *)
    cbn [do]. unfold setup. rewrite RN, H. rewrite LS. assert (E : nth_error (segs w ++ [repeat 0 SZ]) (length (last_msg b)) = Some (repeat 0 SZ)). { rewrite nth_error_app2 by lia. rewrite LS, PeanoNat.Nat.sub_diag. reflexivity. }
    rewrite (rd_Ok _ _ _ _ E). cbn [bind]. rewrite !(rd_Ok _ _ _ 0) by (apply nth_error_repeat; lia). cbn [bind]. rewrite LC, andb_false_r. eexists. split; [reflexivity|].
    assert (X : exists rest, repeat 0 SZ = 0 :: 0 :: rest). { destruct SZ as [|[|k]]; [lia|lia|]. exists (repeat 0 k). reflexivity. }
    destruct X as (rest & X).
    split; [|split; [|split]]; cbn [segs last_msg named current ctxs unread]; auto.
    + apply F2_app; auto. split; [apply repeat_length|]. exists 0, 0, rest. split; auto. split; [lia|auto].
    + intros g G. injection G as <-. rewrite app_length. cbn. lia.
    + apply F2_app.
      * eapply F2_impl; [|exact RC]. intros [[g l]|] [[g' p]|] C; cbn in *; auto. destruct C as (-> & L & P & mem & cnt & C1 & C2 & C3 & C4). split; auto. split; auto. split; auto. exists mem, cnt.
        assert (GB : (g' < length (segs w))%nat) by (apply nth_error_Some; congruence). rewrite !nth_error_app1 by lia. auto.
      * cbn. split; auto. split; [lia|]. split; [lia|]. exists (repeat 0 SZ), 0. rewrite X in *. repeat split; auto.
  - cbn. eexists. split; [reflexivity|]. repeat split; auto.
  - cbn [do]. unfold release. destruct (F2_nth_r _ _ _ _ _ RC _ _ H) as (y & E & C). destruct y as [y|]; [|destruct C]. rewrite E. cbn [bind]. eexists. split; [reflexivity|].
    split; [|split; [|split]]; cbn; auto; [discriminate|]. apply F2_upd; cbn; auto.
  - cbn [do]. unfold send. assert (X : (match h, s with Some c, Some s => match nth_error (ctxs w) c with
      | Some (Some (g, _)) => if (SZ <=? length s + 3)%nat then Ok (false, w) else mem <- rd (segs w) g ; mem <- write mem 2 (s ++ [0]) ; mem <- wr mem 1 t ; cnt <- rd mem 0 ; mem <- wr mem 0 (u8 (cnt + 1)) ;
            Ok (true, {| segs := upd (segs w) g mem; named := named w; ctxs := upd (ctxs w) c (Some (g, u8 (cnt + 1))) |}) | _ => UB end | _, _ => Ok (false, w) end) = Ok (false, w)).
    { destruct H as [-> | ->]; auto. destruct h; auto. }
    rewrite X. cbn. eexists. split; [reflexivity|]. repeat split; auto.
  - cbn [do]. unfold send. destruct (F2_nth_r _ _ _ _ _ RC _ _ H) as (y & E & C). destruct y as [[g l]|]; [|destruct C]. rewrite E.
    replace (SZ <=? length s + 3)%nat with true by (unfold fits in H0; lia). cbn. eexists. split; [reflexivity|]. repeat split; auto.
  - (* send *)
    cbn [do]. unfold send. destruct (F2_nth_r _ _ _ _ _ RC _ _ H) as (y & E & C). destruct y as [[g0 l]|]; [|destruct C]. rewrite E.
    destruct C as (-> & L & P & mem & cnt & C1 & C2 & C3 & C4). unfold fits in H0. replace (SZ <=? length s + 3)%nat with false by lia. rewrite (rd_Ok _ _ _ _ C1). cbn [bind].
    destruct (F2_nth _ _ _ _ _ RS _ _ C1) as (m & E2 & (LM & cnt2 & ty & rest & -> & CB & M)). cbn in C2. injection C2 as ->.
    change (write (cnt :: ty :: rest) 2 (s ++ [0])) with (write ([cnt; ty] ++ rest) (length [cnt; ty]) (s ++ [0])). rewrite write_mid by (rewrite app_length; cbn in *; lia). cbn [bind].
    set (rest' := (s ++ [0]) ++ skipn (length (s ++ [0])) rest). change ([cnt; ty] ++ rest') with (cnt :: ty :: rest').
    unfold wr at 1. cbn [length]. replace (Nat.ltb 1 (S (S (length rest')))) with true by (symmetry; apply PeanoNat.Nat.ltb_lt; lia). cbn [bind upd]. unfold rd at 1. cbn [nth_error bind].
    unfold wr. cbn [length]. replace (Nat.ltb 0 (S (S (length rest')))) with true by (symmetry; apply PeanoNat.Nat.ltb_lt; lia). cbn [bind upd]. eexists. split; [reflexivity|].
    assert (LR : length rest' = length rest). { unfold rest'. rewrite app_length, skipn_length, app_length. cbn [length] in *. lia. }
    assert (UB8 : 0 <= u8 (cnt + 1) < 256) by apply u8_range.
    assert (GB : (g < length (segs w))%nat) by (apply nth_error_Some; congruence).
    split; [|split; [|split]]; cbn [segs last_msg named current ctxs unread]; auto.
    + apply F2_upd; auto. split; [cbn [length] in *; lia|]. exists (u8 (cnt + 1)), t, rest'. split; auto. split; auto. repeat split; auto. exists (skipn (length (s ++ [0])) rest). unfold rest'. rewrite <- app_assoc. reflexivity.
    + intros g1 G1. rewrite upd_length. auto.
    + assert (FM : Forall2 (fun c a => ctx_ok (upd (segs w) g (u8 (cnt + 1) :: t :: rest')) (upd (last_msg b) g (Some (t, s))) c (count_one g a)) (ctxs w) (unread b)).
      { eapply F2_impl; [|exact RC]. intros [[g' l']|] [[g'' p']|] CC; cbn in *; try contradiction; auto. destruct CC as (-> & L' & P' & mem' & cnt' & D1 & D2 & D3 & D4).
        destruct (PeanoNat.Nat.eqb_spec g'' g) as [->|NE].
        - rewrite C1 in D1. injection D1 as <-. cbn in D2. injection D2 as <-. split; auto. split; auto. split; [lia|]. exists (u8 (cnt + 1) :: t :: rest'), (u8 (cnt + 1)).
          rewrite nth_error_upd_eq by auto. repeat split; auto; [rewrite D3; apply u8_next|]. rewrite nth_error_upd_eq by lia. discriminate.
        - split; auto. split; auto. split; auto. exists mem', cnt'. rewrite !nth_error_upd_neq by auto. auto. }
      assert (FM2 : Forall2 (ctx_ok (upd (segs w) g (u8 (cnt + 1) :: t :: rest')) (upd (last_msg b) g (Some (t, s)))) (ctxs w) (map (count_one g) (unread b))).
      { clear - FM. induction FM; cbn; constructor; auto. }
      apply F2_upd; auto. cbn. split; auto. split; auto. split; [lia|]. exists (u8 (cnt + 1) :: t :: rest'), (u8 (cnt + 1)). rewrite nth_error_upd_eq by auto. repeat split; auto. symmetry; rewrite Z.add_0_r; apply u8_small; auto.
  - cbn. eexists. split; [reflexivity|]. repeat split; auto.
  - (* nothing new *)
    cbn [do]. unfold poll. destruct (F2_nth_r _ _ _ _ _ RC _ _ H) as (y & E & C). destruct y as [[g0 l]|]; [|destruct C]. rewrite E.
    destruct C as (-> & L & P & mem & cnt & C1 & C2 & C3 & C4). rewrite (rd_Ok _ _ _ _ C1). cbn [bind]. destruct (F2_nth _ _ _ _ _ RS _ _ C1) as (m & E2 & (LM & cnt2 & ty & rest & -> & CB & M)). cbn in C2. injection C2 as ->.
    unfold rd. cbn [nth_error bind]. rewrite u8_same in C3 by auto; replace (cnt =? l) with true by lia. eexists. split; [reflexivity|]. repeat split; auto.
  - (* no buffer *)
    cbn [do]. unfold poll. destruct (F2_nth_r _ _ _ _ _ RC _ _ H) as (y & E & C). destruct y as [[g0 l]|]; [|destruct C]. rewrite E.
    destruct C as (-> & L & P & mem & cnt & C1 & C2 & C3 & C4). rewrite (rd_Ok _ _ _ _ C1). cbn [bind]. destruct (F2_nth _ _ _ _ _ RS _ _ C1) as (m & E2 & (LM & cnt2 & ty & rest & -> & CB & M)). cbn in C2. injection C2 as ->.
    unfold rd. cbn [nth_error bind]. assert (CL : cnt <> l) by (rewrite C3; apply u8_diff; auto); replace (cnt =? l) with false by lia. destruct m as [[t s]|]; [|rewrite C4 in H0 by auto; cbn in H0; lia].
    destruct M as (-> & T & _). rewrite (known_type t T).
    assert (RR : R w b) by (split; [exact RS|split; [exact RN|split; [exact RG|exact RC]]]).
    destruct buf as [buf|].
    + destruct H1 as [H1|H1]; [discriminate H1|]. apply Z.leb_le in H1. rewrite H1. exists w. split; [reflexivity|exact RR].
    + exists w. split; [reflexivity|exact RR].
  - (* too small *)
    cbn [do]. unfold poll. destruct (F2_nth_r _ _ _ _ _ RC _ _ H) as (y & E & C). destruct y as [[g0 l]|]; [|destruct C]. rewrite E.
    destruct C as (-> & L & P & mem & cnt & C1 & C2 & C3 & C4). rewrite (rd_Ok _ _ _ _ C1). cbn [bind]. destruct (F2_nth _ _ _ _ _ RS _ _ C1) as (m & E2 & (LM & cnt2 & ty & rest & -> & CB & M)). cbn in C2. injection C2 as ->.
    unfold rd. cbn [nth_error bind]. assert (CL : cnt <> l) by (rewrite C3; apply u8_diff; auto); replace (cnt =? l) with false by lia. rewrite H1 in E2. injection E2 as <-.
    destruct M as (-> & T & VT & FT & tl & ->). rewrite (known_type t T).
    replace (n <=? 0) with false by lia. cbn [skipn]. rewrite cstr_app by auto. unfold fits in FT. replace (n <? s32 (Z.of_nat (length s) + 1)) with true by (rewrite s32_small; lia).
    eexists. split; [reflexivity|]. split; [|split; [|split]]; cbn [segs last_msg named current ctxs unread]; auto. apply F2_upd; auto. cbn. split; auto. split; auto. split; [lia|]. exists (cnt :: t :: s ++ 0 :: tl), cnt. repeat split; auto. symmetry; rewrite Z.add_0_r; apply u8_small; auto.
  - (* delivery *)
    cbn [do]. unfold poll. destruct (F2_nth_r _ _ _ _ _ RC _ _ H) as (y & E & C). destruct y as [[g0 l]|]; [|destruct C]. rewrite E.
    destruct C as (-> & L & P & mem & cnt & C1 & C2 & C3 & C4). rewrite (rd_Ok _ _ _ _ C1). cbn [bind]. destruct (F2_nth _ _ _ _ _ RS _ _ C1) as (m & E2 & (LM & cnt2 & ty & rest & -> & CB & M)). cbn in C2. injection C2 as ->.
    unfold rd. cbn [nth_error bind]. assert (CL : cnt <> l) by (rewrite C3; apply u8_diff; auto); replace (cnt =? l) with false by lia. rewrite H1 in E2. injection E2 as <-.
    destruct M as (-> & T & VT & FT & tl & ->). rewrite (known_type t T).
    replace (n <=? 0) with false by lia. cbn [skipn]. rewrite cstr_app by auto. unfold fits in FT. replace (n <? s32 (Z.of_nat (length s) + 1)) with false by (rewrite s32_small; lia).
    rewrite write0 by (rewrite app_length; cbn; lia). cbn [bind]. rewrite app_length. cbn [length]. rewrite PeanoNat.Nat.add_1_r, <- app_assoc. cbn [app].
    eexists. split; [reflexivity|]. split; [|split; [|split]]; cbn [segs last_msg named current ctxs unread]; auto. apply F2_upd; auto. cbn. split; auto. split; auto. split; [lia|]. exists (cnt :: t :: s ++ 0 :: tl), cnt. repeat split; auto. symmetry; rewrite Z.add_0_r; apply u8_small; auto.
Qed.

(** ** C54: every history of the channel *)
Inductive spec_runs (b : boxes) : list event -> list reply -> boxes -> Prop :=
  | SNil : spec_runs b [] [] b
  | SCons : forall e r b1 es rs b2, spec_step b e r b1 -> spec_runs b1 es rs b2 -> spec_runs b (e :: es) (r :: rs) b2.

Lemma R0 : R world0 boxes0.
Proof. repeat split; cbn; auto. discriminate. Qed.
Lemma runs_cons : forall w e r, runs w (e :: r) = (' (a, w) <- do w e ; ' (l, w) <- runs w r ; Ok (a :: l, w)). Proof. reflexivity. Qed.
Lemma sim_runs : forall es w b rs b', R w b -> spec_runs b es rs b' -> exists w', runs w es = Ok (rs, w') /\ R w' b'.
Proof.
  intros es w b rs b' HR S. revert w HR. induction S; intros w HR; [eexists; split; [reflexivity|auto]|].
  destruct (simulation _ _ _ _ _ HR H) as (w1 & E1 & HR1). destruct (IHS _ HR1) as (w2 & E2 & HR2). exists w2. split; auto. rewrite runs_cons, E1. cbn [bind]. rewrite E2. reflexivity.
Qed.
(** Any legal history of any number of processes behaves as the mailboxes do, reply by reply *)
Theorem C54_refines_mailboxes : forall es rs b', spec_runs boxes0 es rs b' -> exists w', runs world0 es = Ok (rs, w').
Proof. intros es rs b' S. destruct (sim_runs _ _ _ _ _ R0 S) as (w' & E & _). eauto. Qed.
Print Assumptions C54_refines_mailboxes.

(** ** Delivery, stated on the program alone *)
Definition reachable (w : world) : Prop := exists es rs b, spec_runs boxes0 es rs b /\ runs world0 es = Ok (rs, w).
Definition on_object (w : world) (c g : nat) : Prop := exists l, nth_error (ctxs w) c = Some (Some (g, l)).
Definition nothing_to_read (w : world) (c : nat) : Prop := forall buf n, poll w (Some c) buf n = Ok (MSG_NONE, buf, w).
(** what interferes with the delivery of the message of object [g] to [b]: a further accepted send on it, or b polling or leaving *)
Definition disturbs (w : world) (b g : nat) (e : event) : Prop :=
  match e with
  | ESetup _ => False
  | ERelease h => h = Some b
  | EPoll h _ _ => h = Some b
  | ESend (Some c) _ (Some s) => on_object w c g /\ fits s
  | ESend _ _ _ => False
  end.
Inductive undisturbed (b g : nat) : world -> list event -> world -> Prop :=
  | UNil : forall w, undisturbed b g w [] w
  | UCons : forall w e r w1 es w2, do w e = Ok (r, w1) -> ~ disturbs w b g e -> undisturbed b g w1 es w2 -> undisturbed b g w (e :: es) w2.

Lemma reachable_R : forall w, reachable w -> exists b, R w b.
Proof. intros w (es & rs & b & S & E). destruct (sim_runs _ _ _ _ _ R0 S) as (w' & E' & HR). rewrite E in E'. injection E' as <-. eauto. Qed.

Lemma undisturbed_keeps : forall b g w es w2, undisturbed b g w es w2 -> forall mem l, nth_error (segs w) g = Some mem -> nth_error (ctxs w) b = Some (Some (g, l)) ->
  nth_error (segs w2) g = Some mem /\ nth_error (ctxs w2) b = Some (Some (g, l)).
Proof.
  induction 1; intros mem l S C; auto. apply IHundisturbed.
  - destruct e as [rp|h|h t s|h buf n]; cbn [do disturbs] in *.
    + apply bind_Ok_inv in H. destruct H as ([h w'] & H & E). injection E as _ <-. unfold setup in H. destruct (named w) as [g'|]; cbn in H.
      * apply bind_Ok_inv in H. destruct H as (m1 & _ & H). apply bind_Ok_inv in H. destruct H as (c1 & _ & H). apply bind_Ok_inv in H. destruct H as (t1 & _ & H). injection H as _ <-. exact S.
      * apply bind_Ok_inv in H. destruct H as (m1 & _ & H). apply bind_Ok_inv in H. destruct H as (c1 & _ & H). apply bind_Ok_inv in H. destruct H as (t1 & _ & H). injection H as _ <-. cbn.
        rewrite nth_error_app1; auto. apply nth_error_Some. congruence.
    + apply bind_Ok_inv in H. destruct H as (w' & H & E). injection E as _ <-. unfold release in H. destruct h as [c|]; [|injection H as <-; auto].
      destruct (nth_error (ctxs w) c) as [[x|]|]; try discriminate H. injection H as <-. exact S.
    + apply bind_Ok_inv in H. destruct H as ([x w'] & H & E). injection E as _ <-. unfold send in H. destruct h as [c|]; [|injection H as _ <-; auto]. destruct s as [s|]; [|injection H as _ <-; auto].
      destruct (nth_error (ctxs w) c) as [[[g' l']|]|] eqn:EC; try discriminate H. destruct (SZ <=? length s + 3)%nat eqn:F; [injection H as _ <-; auto|].
      repeat (apply bind_Ok_inv in H; destruct H as (? & _ & H)). injection H as _ <-. cbn. rewrite nth_error_upd_neq; auto. intros <-. apply H0. split; [exists l'; auto|].
      unfold fits. pose proof SZ_val. lia.
    + apply bind_Ok_inv in H. destruct H as ([[x y] w'] & H & E). injection E as _ <-. unfold poll in H. destruct h as [c|]; [|injection H as _ _ <-; auto].
      destruct (nth_error (ctxs w) c) as [[[g' l']|]|] eqn:EC; try discriminate H. do 3 (apply bind_Ok_inv in H; destruct H as (? & _ & H)). 
      destruct (_ =? l'); [injection H as _ _ <-; auto|]. destruct (_ && _); [injection H as _ _ <-; auto|]. destruct buf; [|injection H as _ _ <-; auto]. destruct (n <=? 0); [injection H as _ _ <-; auto|].
      destruct (cstr _); [|discriminate H]. destruct (n <? _); [injection H as _ _ <-; auto|]. apply bind_Ok_inv in H; destruct H as (? & _ & H). injection H as _ _ <-. auto.
  - destruct e as [rp|h|h t s|h buf n]; cbn [do disturbs] in *.
    + apply bind_Ok_inv in H. destruct H as ([h w'] & H & E). injection E as _ <-. unfold setup in H. destruct (match named w with Some g => (g, segs w, named w) | None => (length (segs w), segs w ++ [repeat 0 SZ], Some (length (segs w))) end) as [[g' s'] n'].
      repeat (apply bind_Ok_inv in H; destruct H as (? & _ & H)). injection H as _ <-. cbn. rewrite nth_error_app1; auto. apply nth_error_Some. congruence.
    + apply bind_Ok_inv in H. destruct H as (w' & H & E). injection E as _ <-. unfold release in H. destruct h as [c|]; [|injection H as <-; auto].
      destruct (nth_error (ctxs w) c) as [[x|]|]; try discriminate H. injection H as <-. cbn. rewrite nth_error_upd_neq; auto; congruence.
    + apply bind_Ok_inv in H. destruct H as ([x w'] & H & E). injection E as _ <-. unfold send in H. destruct h as [c|]; [|injection H as _ <-; auto]. destruct s as [s|]; [|injection H as _ <-; auto].
      destruct (nth_error (ctxs w) c) as [[[g' l']|]|] eqn:EC; try discriminate H. destruct (SZ <=? length s + 3)%nat eqn:F; [injection H as _ <-; auto|].
      repeat (apply bind_Ok_inv in H; destruct H as (? & _ & H)). injection H as _ <-. cbn. rewrite nth_error_upd_neq; auto. intros <-. rewrite C in EC. injection EC as <- <-. apply H0. split; [exists l; auto|].
      unfold fits. pose proof SZ_val. lia.
    + apply bind_Ok_inv in H. destruct H as ([[x y] w'] & H & E). injection E as _ <-. unfold poll in H. destruct h as [c|]; [|injection H as _ _ <-; auto].
      assert (NB : c <> b) by congruence.
      destruct (nth_error (ctxs w) c) as [[[g' l']|]|] eqn:EC; try discriminate H. do 3 (apply bind_Ok_inv in H; destruct H as (? & _ & H)). 
      destruct (_ =? l'); [injection H as _ _ <-; auto|]. destruct (_ && _); [injection H as _ _ <-; cbn; rewrite nth_error_upd_neq; auto|]. destruct buf; [|injection H as _ _ <-; auto]. destruct (n <=? 0); [injection H as _ _ <-; auto|].
      destruct (cstr _); [|discriminate H]. destruct (n <? _); [injection H as _ _ <-; cbn; rewrite nth_error_upd_neq; auto|]. apply bind_Ok_inv in H; destruct H as (? & _ & H). injection H as _ _ <-. cbn; rewrite nth_error_upd_neq; auto.
Qed.

Lemma reach_seg : forall w c g, reachable w -> on_object w c g -> exists cnt ty rest, nth_error (segs w) g = Some (cnt :: ty :: rest) /\ length (cnt :: ty :: rest) = SZ /\ 0 <= cnt < 256.
Proof.
  intros w c g RW (l & C). destruct (reachable_R _ RW) as (b & RS & _ & _ & RC). destruct (F2_nth _ _ _ _ _ RC _ _ C) as ([[g' p]|] & _ & K); [|destruct K].
  destruct K as (_ & _ & _ & mem & cnt & M & _). destruct (F2_nth _ _ _ _ _ RS _ _ M) as (m & _ & LM & c0 & ty & rest & -> & CB & _). exists c0, ty, rest. auto.
Qed.
Lemma up_to_date : forall w b g cnt ty rest, on_object w b g -> nothing_to_read w b -> nth_error (segs w) g = Some (cnt :: ty :: rest) -> nth_error (ctxs w) b = Some (Some (g, cnt)).
Proof.
  intros w b g cnt ty rest (l & C) N S. specialize (N None 0). unfold poll in N. rewrite C, (rd_Ok _ _ _ _ S) in N. cbn [bind] in N. unfold rd in N. cbn [nth_error bind] in N.
  destruct (cnt =? l) eqn:Q; [apply Z.eqb_eq in Q; subst l; auto|]. destruct (_ && _).
  - injection N as N. apply (f_equal ctxs) in N. cbn in N. rewrite <- N. apply nth_error_upd_eq. apply nth_error_Some. congruence.
  - discriminate N.
Qed.
Lemma send_eq : forall w a g l cnt ty rest t s, nth_error (ctxs w) a = Some (Some (g, l)) -> nth_error (segs w) g = Some (cnt :: ty :: rest) -> length (cnt :: ty :: rest) = SZ -> fits s ->
  send w (Some a) t (Some s) = Ok (true, {| segs := upd (segs w) g (u8 (cnt + 1) :: t :: (s ++ [0]) ++ skipn (length (s ++ [0])) rest); named := named w; ctxs := upd (ctxs w) a (Some (g, u8 (cnt + 1))) |}).
Proof.
  intros w a g l cnt ty rest t s C S L F. unfold send. rewrite C. pose proof SZ_val as SZV. unfold fits in F. replace (SZ <=? length s + 3)%nat with false by (symmetry; apply PeanoNat.Nat.leb_gt; lia).
  rewrite (rd_Ok _ _ _ _ S). cbn [bind].
  change (write (cnt :: ty :: rest) 2 (s ++ [0])) with (write ([cnt; ty] ++ rest) (length [cnt; ty]) (s ++ [0])). rewrite write_mid by (rewrite app_length; cbn [length] in *; lia). cbn [bind].
  set (rest' := (s ++ [0]) ++ skipn (length (s ++ [0])) rest). reflexivity.
Qed.

(** A message accepted from [a] while [b], on the same channel, has nothing to read, is what the
    next poll of [b] returns, byte for byte and with its type, and it is returned only once;
    whatever happens in between as long as no other message is accepted on the channel. *)
Theorem C54_delivered_once_intact : forall w a b g t s w1 mid w2 buf n,
  reachable w -> a <> b -> on_object w a g -> on_object w b g -> nothing_to_read w b ->
  t = SELECTED_NODE \/ t = IMPORT_REQUEST -> valid_text s ->
  send w (Some a) t (Some s) = Ok (true, w1) -> undisturbed b g w1 mid w2 ->
  Z.of_nat (length s) < n <= Z.of_nat (length buf) ->
  exists w3, poll w2 (Some b) (Some buf) n = Ok (t, Some (s ++ 0 :: skipn (S (length s)) buf), w3) /\ nothing_to_read w3 b.
Proof.
  intros w a b g t s w1 mid w2 buf n RW NAB OA OB N T V S U HN. pose proof SZ_val as SZV.
  destruct (reach_seg _ _ _ RW OB) as (cnt & ty & rest & E & L & CB). pose proof (up_to_date _ _ _ _ _ _ OB N E) as CBX. destruct OA as (la & CA).
  assert (F : fits s). { unfold send in S. rewrite CA in S. destruct (SZ <=? length s + 3)%nat eqn:Q; [discriminate S|]. apply PeanoNat.Nat.leb_gt in Q. unfold fits. lia. }
  rewrite (send_eq _ _ _ _ _ _ _ _ _ CA E L F) in S. injection S as <-.
  assert (GB : (g < length (segs w))%nat) by (apply nth_error_Some; congruence).
  destruct (undisturbed_keeps _ _ _ _ _ U (u8 (cnt + 1) :: t :: (s ++ [0]) ++ skipn (length (s ++ [0])) rest) cnt) as (E2 & C2).
  { cbn [segs]. apply nth_error_upd_eq. auto. } { cbn [ctxs]. rewrite nth_error_upd_neq; auto. }
  unfold poll. rewrite C2, (rd_Ok _ _ _ _ E2). cbn [bind]. unfold rd. cbn [nth_error bind].
  replace (u8 (cnt + 1) =? cnt) with false by (symmetry; apply Z.eqb_neq; apply u8_diff; [auto|discriminate]). rewrite (known_type _ T). replace (n <=? 0) with false by lia. cbn [skipn].
  rewrite <- app_assoc. cbn [app]. rewrite cstr_app by auto. unfold fits in F. replace (n <? s32 (Z.of_nat (length s) + 1)) with false by (rewrite s32_small; lia).
  rewrite write0 by (rewrite app_length; cbn; lia). cbn [bind]. rewrite !app_length. cbn [length]. rewrite PeanoNat.Nat.add_1_r, <- app_assoc. cbn [app].
  eexists. split; [reflexivity|]. intros buf' n'. unfold poll. cbn [ctxs segs]. rewrite nth_error_upd_eq by (apply nth_error_Some; congruence). rewrite (rd_Ok _ _ _ _ E2). cbn [bind]. unfold rd. cbn [nth_error bind].
  rewrite Z.eqb_refl. reflexivity.
Qed.
Print Assumptions C54_delivered_once_intact.

(** An oversized message is refused and nothing changes; so is a null handle or text. *)
Theorem C54_oversized_rejected : forall w a g t s, on_object w a g -> 65536 <= Z.of_nat (length s) + 3 -> send w (Some a) t (Some s) = Ok (false, w).
Proof. intros w a g t s (l & C) L. unfold send. rewrite C. pose proof SZ_val. replace (SZ <=? length s + 3)%nat with true by (symmetry; apply PeanoNat.Nat.leb_le; lia). reflexivity. Qed.
Print Assumptions C54_oversized_rejected.
(** Polling without a buffer never consumes a message: the world is unchanged. *)
Theorem C54_no_buffer_keeps_message : forall w b g buf n, reachable w -> on_object w b g -> buf = None \/ n <= 0 ->
  exists c, poll w (Some b) buf n = Ok (c, buf, w) /\ (c = MSG_NONE \/ c = TOO_SMALL).
Proof.
  intros w b g buf n RW (l & C) B. destruct (reachable_R _ RW) as (bx & HR). pose proof HR as (RS & _ & _ & RC). destruct (F2_nth _ _ _ _ _ RC _ _ C) as ([[g' p]|] & U & K); [|destruct K].
  pose proof K as (<- & L & P & _). destruct (Z.eq_dec (p mod 256) 0) as [Z|NZ].
  - exists MSG_NONE. split; auto. destruct (simulation _ _ _ _ _ HR (SPollNothing bx b g p buf n U Z)) as (w' & D & _). cbn [do] in D. apply bind_Ok_inv in D. destruct D as ([[c b'] w''] & D & E). injection E as -> -> ->.
    rewrite D. destruct K as (_ & _ & _ & mem & cnt & M1 & M2 & M3 & _). unfold poll in D. rewrite C, (rd_Ok _ _ _ _ M1) in D. cbn [bind] in D. rewrite (rd_Ok _ _ _ _ M2) in D. cbn [bind] in D.
    apply bind_Ok_inv in D. destruct D as (ty & _ & D). replace (cnt =? l) with true in D by (symmetry; apply Z.eqb_eq; rewrite M3; apply u8_same; auto). injection D as <-. reflexivity.
  - exists TOO_SMALL. split; auto. destruct (simulation _ _ _ _ _ HR (SPollNoBuffer bx b g p buf n U NZ B)) as (w' & D & _). cbn [do] in D. apply bind_Ok_inv in D. destruct D as ([[c b'] w''] & D & E). injection E as -> -> ->.
    rewrite D. destruct K as (_ & _ & _ & mem & cnt & M1 & M2 & M3 & _). unfold poll in D. rewrite C, (rd_Ok _ _ _ _ M1) in D. cbn [bind] in D. rewrite (rd_Ok _ _ _ _ M2) in D. cbn [bind] in D.
    apply bind_Ok_inv in D. destruct D as (ty & _ & D). destruct (cnt =? l); [discriminate D|]. destruct (negb _ && negb _); [discriminate D|]. destruct buf as [buf|]; [|injection D as <-; reflexivity].
    destruct B as [B|B]; [discriminate B|]. apply Z.leb_le in B. rewrite B in D. injection D as <-. reflexivity.
Qed.
Print Assumptions C54_no_buffer_keeps_message.

(** ** Crash points: a sender that dies before its last write is not noticed by a reader with nothing to read *)
Definition with_memory (w : world) (g : nat) (mem : list Z) : world := {| segs := upd (segs w) g mem; named := named w; ctxs := ctxs w |}.
Lemma apply_keeps_head : forall ws c rest, Forall (fun x => fst x <> 0%nat) ws -> exists rest', apply_writes (c :: rest) ws = c :: rest' /\ length rest' = length rest.
Proof.
  induction ws as [|[i v] ws IH]; intros c rest F; [exists rest; auto|]. inversion F; subst. cbn in H1. destruct i; [contradiction|]. cbn. destruct (IH c (upd rest i v) H2) as (r & E & L). exists r. split; auto.
  rewrite L. apply upd_length.
Qed.
Lemma send_writes_head : forall t cnt s k, (k < length (send_writes t cnt s))%nat -> Forall (fun x => fst x <> 0%nat) (firstn k (send_writes t cnt s)).
Proof.
  intros t cnt s k K. unfold send_writes in *. change [(1%nat, t); (0%nat, u8 (cnt + 1))] with ([(1%nat, t)] ++ [(0%nat, u8 (cnt + 1))]) in *. rewrite app_assoc in *. rewrite app_length in K. cbn [length] in K.
  rewrite firstn_app. replace (k - _)%nat with 0%nat by lia. cbn [firstn]. rewrite app_nil_r. apply Forall_forall. intros x I.
  assert (I2 : In x (combine (seq 2 (S (length s))) (s ++ [0]) ++ [(1%nat, t)])). { rewrite <- (firstn_skipn k). apply in_or_app. auto. }
  apply in_app_or in I2. destruct I2 as [I2|[<-|[]]]; [|cbn; lia]. destruct x as [i v]. apply in_combine_l in I2. apply in_seq in I2. cbn. lia.
Qed.
Theorem C54_crashed_send_invisible : forall w b g t s k mem cnt, reachable w -> on_object w b g -> nothing_to_read w b ->
  nth_error (segs w) g = Some mem -> nth_error mem 0 = Some cnt -> (k < length (send_writes t cnt s))%nat ->
  nothing_to_read (with_memory w g (apply_writes mem (firstn k (send_writes t cnt s)))) b.
Proof.
  intros w b g t s k mem cnt RW OB N E EC K. destruct (reach_seg _ _ _ RW OB) as (cnt' & ty & rest & E' & L & CB). rewrite E in E'. injection E' as ->. cbn in EC. injection EC as ->.
  pose proof (up_to_date _ _ _ _ _ _ OB N E) as C. destruct (apply_keeps_head _ cnt (ty :: rest) (send_writes_head t cnt s k K)) as (rest' & A & L'). rewrite A. destruct rest' as [|ty' rest']; [discriminate L'|].
  intros buf n. unfold poll, with_memory. cbn [ctxs segs]. rewrite C. assert (GB : (g < length (segs w))%nat) by (apply nth_error_Some; congruence).
  erewrite (rd_Ok _ (upd _ _ _)) by (apply nth_error_upd_eq; auto). cbn [bind]. unfold rd. cbn [nth_error bind]. rewrite Z.eqb_refl. reflexivity.
Qed.
Print Assumptions C54_crashed_send_invisible.
(** and the whole list of writes is what a completed send leaves *)
Lemma apply_text : forall bs i pre rest, length pre = i -> (length bs <= length rest)%nat -> apply_writes (pre ++ rest) (combine (seq i (length bs)) bs) = pre ++ bs ++ skipn (length bs) rest.
Proof.
  induction bs as [|x bs IH]; intros i pre rest L B; [reflexivity|]. destruct rest as [|y rest]; [cbn in B; lia|]. unfold apply_writes. cbn [length seq combine fold_left fst snd]. subst i. rewrite upd_mid by reflexivity.
  change (pre ++ x :: rest) with (pre ++ [x] ++ rest). rewrite app_assoc. fold (apply_writes ((pre ++ [x]) ++ rest) (combine (seq (S (length pre)) (length bs)) bs)). rewrite IH by (try rewrite app_length; cbn in *; lia). rewrite <- app_assoc. reflexivity.
Qed.
Theorem C54_send_is_its_writes : forall w a g t s mem cnt w1, reachable w -> on_object w a g -> fits s -> nth_error (segs w) g = Some mem -> nth_error mem 0 = Some cnt ->
  send w (Some a) t (Some s) = Ok (true, w1) -> nth_error (segs w1) g = Some (apply_writes mem (send_writes t cnt s)).
Proof.
  intros w a g t s mem cnt w1 RW OA F E EC S. destruct (reach_seg _ _ _ RW OA) as (cnt' & ty & rest & E' & L & CB). rewrite E in E'. injection E' as ->. cbn in EC. injection EC as ->. destruct OA as (l & CA). pose proof SZ_val as SZV. unfold fits in F.
  rewrite (send_eq _ _ _ _ _ _ _ _ _ CA E L F) in S. injection S as <-. cbn [segs]. rewrite nth_error_upd_eq by (apply nth_error_Some; congruence). f_equal.
  unfold send_writes, apply_writes. rewrite fold_left_app. change (fold_left _ (combine (seq 2 (S (length s))) (s ++ [0])) (cnt :: ty :: rest)) with (apply_writes ([cnt; ty] ++ rest) (combine (seq 2 (S (length s))) (s ++ [0]))).
  replace (S (length s)) with (length (s ++ [0])) by (rewrite app_length; cbn; lia). rewrite apply_text by (try rewrite app_length; cbn [length] in *; try reflexivity; lia). reflexivity.
Qed.
Print Assumptions C54_send_is_its_writes.

(** ** A run of the editor and a host, and what goes wrong outside the claim *)
Definition hi := [104; 105].
Definition yo := [121; 111; 33].
Definition buffer := repeat 7 6.
Definition replies (r : res (list reply * world)) : option (list reply) := match r with Ok (l, _) => Some l | _ => None end.
Example C54_session :
  replies (runs world0 [ESetup false; ESetup true; ESend (Some 0%nat) SELECTED_NODE (Some hi); EPoll (Some 0%nat) (Some buffer) 6; EPoll (Some 1%nat) None 0; EPoll (Some 1%nat) (Some buffer) 6; EPoll (Some 1%nat) (Some buffer) 6;
                        ESend (Some 1%nat) IMPORT_REQUEST (Some yo); EPoll (Some 0%nat) (Some buffer) 6])
  = Some [RHandle (Some 0%nat); RHandle (Some 1%nat); RBool true; RPoll MSG_NONE (Some buffer); RPoll TOO_SMALL None; RPoll SELECTED_NODE (Some [104; 105; 0; 7; 7; 7]); RPoll MSG_NONE (Some buffer); RBool true; RPoll IMPORT_REQUEST (Some [121; 111; 33; 0; 7; 7])].
Proof. vm_compute. reflexivity. Qed.
(** a poll with a buffer that is too small loses the message *)
Theorem C54_small_buffer_refuted :
  replies (runs world0 [ESetup false; ESetup false; ESend (Some 0%nat) SELECTED_NODE (Some yo); EPoll (Some 1%nat) (Some buffer) 3; EPoll (Some 1%nat) (Some buffer) 6])
  = Some [RHandle (Some 0%nat); RHandle (Some 1%nat); RBool true; RPoll TOO_SMALL (Some buffer); RPoll MSG_NONE (Some buffer)].
Proof. vm_compute. reflexivity. Qed.
(** a message not polled before the next one is lost *)
Theorem C54_overwritten_refuted :
  replies (runs world0 [ESetup false; ESetup false; ESend (Some 0%nat) SELECTED_NODE (Some yo); ESend (Some 0%nat) SELECTED_NODE (Some hi); EPoll (Some 1%nat) (Some buffer) 6; EPoll (Some 1%nat) (Some buffer) 6])
  = Some [RHandle (Some 0%nat); RHandle (Some 1%nat); RBool true; RBool true; RPoll SELECTED_NODE (Some [104; 105; 0; 7; 7; 7]); RPoll MSG_NONE (Some buffer)].
Proof. vm_compute. reflexivity. Qed.
(** when any side releases its handle, whoever sets up later is on another channel *)
Theorem C54_release_splits_refuted :
  replies (runs world0 [ESetup false; ESetup false; ERelease (Some 1%nat); ESetup false; ESend (Some 0%nat) SELECTED_NODE (Some hi); EPoll (Some 2%nat) (Some buffer) 6])
  = Some [RHandle (Some 0%nat); RHandle (Some 1%nat); RUnit; RHandle (Some 2%nat); RBool true; RPoll MSG_NONE (Some buffer)].
Proof. vm_compute. reflexivity. Qed.
(** 256 messages look like none *)
Lemma many_sends : forall k p q m, exists m' q', spec_runs {| last_msg := [m]; current := Some 0%nat; unread := [Some (0%nat, q); Some (0%nat, p)] |}
  (repeat (ESend (Some 0%nat) SELECTED_NODE (Some hi)) k) (repeat (RBool true) k) {| last_msg := [m']; current := Some 0%nat; unread := [Some (0%nat, q'); Some (0%nat, p + Z.of_nat k)] |}.
Proof.
  induction k as [|k IH]; intros p q m. { exists m, q. rewrite Z.add_0_r. constructor. }
  destruct (IH (p + 1) 0 (Some (SELECTED_NODE, hi))) as (m' & q' & IH'). exists m', q'. cbn [repeat]. eapply SCons.
  - eapply (SSend _ 0 0 q); [reflexivity|unfold fits; cbn; lia|repeat constructor; lia|left; reflexivity].
  - replace (p + Z.of_nat (S k)) with (p + 1 + Z.of_nat k) by lia. cbn. exact IH'.
Qed.
Lemma spec_runs_app : forall es1 b rs1 b1 es2 rs2 b2, spec_runs b es1 rs1 b1 -> spec_runs b1 es2 rs2 b2 -> spec_runs b (es1 ++ es2) (rs1 ++ rs2) b2.
Proof. intros es1 b rs1 b1 es2 rs2 b2 S. induction S; intros; cbn; auto. econstructor; eauto. Qed.
Theorem C54_256_messages_refuted : exists w', runs world0 (ESetup false :: ESetup false :: repeat (ESend (Some 0%nat) SELECTED_NODE (Some hi)) 256 ++ [EPoll (Some 1%nat) (Some buffer) 6])
  = Ok (RHandle (Some 0%nat) :: RHandle (Some 1%nat) :: repeat (RBool true) 256 ++ [RPoll MSG_NONE (Some buffer)], w').
Proof.
  destruct (many_sends 256 0 0 None) as (m' & q' & S). eapply C54_refines_mailboxes. eapply SCons; [apply SSetupNew; reflexivity|]. eapply SCons; [eapply SSetupOld; reflexivity|]. eapply spec_runs_app; [exact S|].
  eapply SCons; [|constructor]. eapply (SPollNothing _ 1 0 (0 + Z.of_nat 256)); reflexivity.
Qed.
Print Assumptions C54_256_messages_refuted.
(** a poll racing with the sender's second message reads a mixture *)
Theorem C54_torn_read_refuted :
  match runs world0 [ESetup false; ESetup false; ESend (Some 0%nat) SELECTED_NODE (Some yo)] with
  | Ok (_, w) => match segs w with
      | [mem] => match poll (with_memory w 0 (apply_writes mem (firstn 2 (send_writes SELECTED_NODE 1 hi)))) (Some 1%nat) (Some buffer) 6 with
                 | Ok (SELECTED_NODE, Some b, w') => b = [104; 105; 33; 0; 7; 7]
                 | _ => False end
      | _ => False end
  | _ => False end.
Proof. vm_compute. reflexivity. Qed.
(** the hypotheses of the delivery theorem are met in that session *)
Example C54_hypotheses : exists w w1 w2, reachable w /\ on_object w 0 0 /\ on_object w 1 0 /\ nothing_to_read w 1 /\ send w (Some 0%nat) SELECTED_NODE (Some yo) = Ok (true, w1) /\
  undisturbed 1 0 w1 [ESetup true; EPoll (Some 0%nat) (Some buffer) 6] w2.
Proof.
  set (b1 := {| last_msg := [None]; current := Some 0%nat; unread := [Some (0%nat, 0); Some (0%nat, 0)] |}).
  set (b2 := {| last_msg := [Some (SELECTED_NODE, yo)]; current := Some 0%nat; unread := [Some (0%nat, 0); Some (0%nat, 1)] |}).
  set (b3 := {| last_msg := [Some (SELECTED_NODE, yo)]; current := Some 0%nat; unread := [Some (0%nat, 0); Some (0%nat, 1); Some (0%nat, 1)] |}).
  assert (S1 : spec_runs boxes0 [ESetup false; ESetup false] [RHandle (Some 0%nat); RHandle (Some 1%nat)] b1).
  { eapply SCons; [apply SSetupNew; reflexivity|]. eapply SCons; [eapply SSetupOld; reflexivity|]. constructor. }
  assert (S2 : spec_step b1 (ESend (Some 0%nat) SELECTED_NODE (Some yo)) (RBool true) b2).
  { eapply (SSend b1 0 0 0); [reflexivity|unfold fits; cbn; lia|repeat constructor; lia|left; reflexivity]. }
  assert (S3 : spec_step b2 (ESetup true) (RHandle (Some 2%nat)) b3) by (exact (SSetupOld b2 true 0 (Some (SELECTED_NODE, yo)) eq_refl eq_refl)).
  assert (S4 : spec_step b3 (EPoll (Some 0%nat) (Some buffer) 6) (RPoll MSG_NONE (Some buffer)) b3) by (exact (SPollNothing b3 0 0 0 (Some buffer) 6 eq_refl eq_refl)).
  destruct (sim_runs _ _ _ _ _ R0 S1) as (w & E1 & R1). destruct (simulation _ _ _ _ _ R1 S2) as (w1 & E2 & R2). destruct (simulation _ _ _ _ _ R2 S3) as (w2 & E3 & R3). destruct (simulation _ _ _ _ _ R3 S4) as (w3 & E4 & _).
  exists w, w1, w3. assert (RW : reachable w) by (do 3 eexists; eauto). destruct R1 as (_ & _ & _ & RC). cbn in RC.
  destruct (F2_nth_r _ _ _ _ _ RC 0%nat _ eq_refl) as ([[g l]|] & C0 & K0); [|destruct K0]. destruct K0 as (-> & _). destruct (F2_nth_r _ _ _ _ _ RC 1%nat _ eq_refl) as ([[g l']|] & C1 & K1); [|destruct K1].
  destruct K1 as (-> & L1 & _ & mem & cnt & M1 & M2 & M3 & _).
  split; [auto|]. split; [exists l; auto|]. split; [exists l'; auto|]. split; [|split].
  - intros buf n. destruct (reach_seg w 1 0 RW ltac:(exists l'; auto)) as (cnt' & ty & rest & E' & _). rewrite M1 in E'. injection E' as ->. cbn in M2. injection M2 as ->. rewrite Z.add_0_r, u8_small in M3 by auto. subst l'.
    unfold poll. rewrite C1, (rd_Ok _ _ _ _ M1). cbn [bind]. unfold rd. cbn [nth_error bind]. rewrite Z.eqb_refl. reflexivity.
  - cbn [do] in E2. apply bind_Ok_inv in E2. destruct E2 as ([x w'] & E2 & X). injection X as -> ->. exact E2.
  - eapply UCons; [exact E3|cbn; auto|]. eapply UCons; [exact E4|cbn; discriminate|]. constructor.
Qed.
