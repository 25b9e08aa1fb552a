(** C22 and the concurrent part of C23. *)
From Coq Require Import ZArith List Bool Lia Permutation.
From Coq Require Import ZifyBool ZifyNat.
From Verif Require Import Prelude Alloc_Model P_Alloc PoolThreads_Model.
Import ListNotations.
Open Scope Z_scope.
Ltac Zify.zify_post_hook ::= Z.div_mod_to_equations.

(** ** Specification *)

(** blocks (pointer, size) *)
Definition apart (b c : Z * Z) : Prop := fst b + snd b <= fst c \/ fst c + snd c <= fst b.
Definition within (data psize : Z) (b : Z * Z) : Prop := data <= fst b /\ fst b + snd b <= data + psize.

(** what the program may start: any allocation of at least 2 bytes with a power of two as
    alignment; any live block may be freed; anything in progress may continue *)
Definition permitted (st : pstate) (a : act) : Prop :=
  match a with
  | BeginAlloc size align => 2 <= size /\ exists k, 0 <= k < 32 /\ align = 2^k
  | BeginFree i => (i < length (m_live st))%nat
  | BeginMark => True
  | Go i _ => (i < length (m_calls st))%nat
  end.
Inductive preach (data psize : Z) : pstate -> Prop :=
| PR0 : preach data psize pstate0
| PRS : forall st a st', preach data psize st -> permitted st a -> pstep data psize st a = Ok st' -> preach data psize st'.

(** the payload of a pool *)
Definition payload (data psize : Z) : Prop := 0 < data /\ 0 <= psize <= 2^31 - 1 /\ data + psize + 2^32 < 2^64.

(** ** Invariant *)
Definition freeing (l : list call) : list (Z * Z) := flat_map (fun c => match c with CFree p s _ => [(p, s)] | _ => [] end) l.
Definition held (st : pstate) : list (Z * Z) := m_live st ++ freeing (m_calls st).

Definition call_inv (st : pstate) (c : call) : Prop :=
  match c with
  | CAlloc size align seen stamp => 2 <= size /\ (exists k, 0 <= k < 32 /\ align = 2^k) /\ stamp <= m_done st /\ (seen = m_word st \/ stamp < m_done st)
  | CFree _ _ found => found = true
  | CMark seen stamp => stamp <= m_done st /\ (seen = m_word st \/ stamp < m_done st)
  end.

Definition blocks_inv (data psize word : Z) (marked : bool) (hs : list (Z * Z)) : Prop :=
  if marked then hs = [] /\ word = 1 + psize * 2^32
  else exists act nxt, word = act + nxt * 2^32 /\ 0 <= act <= nxt /\ nxt <= psize /\ act = Z.of_nat (length hs) /\
         ForallOrdPairs apart hs /\ forall b, In b hs -> 2 <= snd b /\ data <= fst b /\ fst b + snd b <= data + nxt.
Definition pinv (data psize : Z) (st : pstate) : Prop :=
  blocks_inv data psize (m_word st) (m_marked st) (held st) /\ forall c, In c (m_calls st) -> call_inv st c.

Lemma apart_sym : forall b c, apart b c -> apart c b.
Proof. unfold apart. tauto. Qed.
Lemma fop_perm {A} (R : A -> A -> Prop) (sym : forall a b, R a b -> R b a) : forall l l', Permutation l l' -> ForallOrdPairs R l -> ForallOrdPairs R l'.
Proof.
  intros l l' P. induction P; intros H; auto.
  - inversion H; subst. constructor; auto. rewrite Forall_forall in *. intros y Hy. apply H2. eapply Permutation_in; [apply Permutation_sym|]; eauto.
  - inversion H as [|? ? F1 F2]; subst. inversion F2 as [|? ? F3 F4]; subst. inversion F1; subst. constructor; [constructor; auto|constructor; auto].
Qed.
Lemma blocks_perm : forall data psize w m h h', Permutation h h' -> blocks_inv data psize w m h -> blocks_inv data psize w m h'.
Proof.
  intros data psize w [|] h h' P H; cbn in *.
  - destruct H as [-> H]. split; auto. apply Permutation_nil; auto.
  - destruct H as (act & nxt & H1 & H2 & H3 & H4 & H5 & H6). exists act, nxt. rewrite <- (Permutation_length P). split; auto. split; auto. split; auto. split; auto. split.
    + eapply fop_perm; eauto using apart_sym.
    + intros b Hb. apply H6. eapply Permutation_in; [apply Permutation_sym|]; eauto.
Qed.

Lemma drop_mid {A} : forall (l : list A) i x, nth_error l i = Some x -> exists l1 l2, l = l1 ++ x :: l2 /\ drop i l = l1 ++ l2 /\ forall y, upd l i y = l1 ++ y :: l2.
Proof.
  induction l as [|a l IH]; intros [|i] x E; cbn in E; try discriminate.
  - injection E as <-. exists [], l. auto.
  - destruct (IH i x E) as (l1 & l2 & E1 & E2 & E3). exists (a :: l1), l2. split; [cbn; congruence|]. split; [cbn; congruence|]. intros y. cbn. rewrite E3. auto.
Qed.
Lemma rd_some {A} : forall (l : list A) i x, rd l i = Ok x -> nth_error l i = Some x.
Proof. intros l i x. unfold rd. destruct (nth_error l i); congruence. Qed.

Lemma freeing_app : forall a b, freeing (a ++ b) = freeing a ++ freeing b.
Proof. intros. unfold freeing. apply flat_map_app. Qed.

Lemma round_spec : forall data psize act nxt size k slot new, payload data psize -> 0 <= act <= nxt -> nxt <= psize -> 2 <= size -> 0 <= k < 32 ->
  alloc_round data psize (act + nxt * 2^32) size (2^k) = Some (slot, new) ->
  data <= slot /\ slot + size <= data + psize /\ slot mod 2^k = 0 /\ (act = 0 \/ data + nxt <= slot) /\ new = (act + 1) + (slot + size - data) * 2^32.
Proof.
  intros data psize act nxt size k slot new (D1 & D2 & D3) A N S K. unfold alloc_round. rewrite word_active, word_next by lia.
  set (s0 := if act =? 0 then data else data + nxt). set (sp := if act =? 0 then psize else u32 (psize - nxt)).
  assert (SP : sp = data + psize - s0). { subst sp s0. unfold u32. destruct (act =? 0); [lia|]. rewrite Z.mod_small; lia. }
  assert (S0 : data <= s0 <= data + psize /\ (act = 0 \/ s0 = data + nxt)) by (subst s0; destruct (act =? 0) eqn:E; lia).
  pose proof (align_spec k size s0 sp K ltac:(lia) ltac:(lia) ltac:(lia) ltac:(lia)) as AL.
  destruct (std_align (2^k) size s0 sp) as [a|]; [|discriminate]. intros E. injection E as <- <-. destruct AL as (L1 & L2 & L3).
  split; [lia|]. split; [lia|]. split; auto. split; [lia|]. unfold u32. rewrite !Z.mod_small by lia. apply word_lor; lia.
Qed.

(** a full word refuses every allocation *)
Lemma full_refuses : forall data psize size k, payload data psize -> 2 <= size -> 0 <= k < 32 -> alloc_round data psize (1 + psize * 2^32) size (2^k) = None.
Proof.
  intros data psize size k (D1 & D2 & D3) S K. unfold alloc_round. rewrite word_active, word_next by lia. cbn [Z.eqb]. rewrite Z.sub_diag. unfold std_align, u32. change (0 mod 2^32) with 0. replace (0 <? size) with true by lia. reflexivity.
Qed.

Lemma pinv_step : forall data psize st a st', payload data psize -> pinv data psize st -> permitted st a -> pstep data psize st a = Ok st' -> pinv data psize st'.
Proof.
  intros data psize st a st' PL (BI & CI) PM E.
  assert (CE : forall st2 c, m_done st <= m_done st2 -> (m_word st2 = m_word st \/ m_done st < m_done st2) -> call_inv st c -> call_inv st2 c).
  { intros st2 [size align seen stamp|p s f|seen stamp] D W; cbn; auto; intros H.
    - destruct H as (H1 & H2 & H3 & H4). split; auto. split; auto. split; [lia|]. destruct W as [->|W]; [|right; lia]. destruct H4; [auto|right; lia].
    - destruct H as (H3 & H4). split; [lia|]. destruct W as [->|W]; [|right; lia]. destruct H4; [auto|right; lia]. }
  destruct a as [size align|i| |i sp]; cbn [pstep permitted] in *.
  - injection E as <-. split.
    + eapply blocks_perm; [|exact BI]. unfold held. cbn [m_live m_calls]. rewrite freeing_app. cbn [freeing flat_map]. rewrite app_nil_r. auto.
    + cbn [m_calls]. intros c Hc. apply in_app_iff in Hc. destruct Hc as [Hc|[<-|[]]]; [apply (CE _ c); cbn; auto; lia|]. cbn. destruct PM as (P1 & P2). repeat split; auto; lia.
  - apply bind_Ok_inv in E. destruct E as (b & R & E). apply rd_some in R. injection E as <-. destruct (drop_mid _ _ _ R) as (l1 & l2 & E1 & E2 & _). rewrite E2.
    assert (HP : Permutation (held st) (l1 ++ l2 ++ freeing (m_calls st) ++ [(fst b, snd b)])).
    { unfold held. rewrite E1. rewrite <- app_assoc. cbn [app]. rewrite <- surjective_pairing. apply Permutation_app_head. rewrite app_assoc. apply Permutation_cons_append. }
    split.
    + eapply blocks_perm; [|exact BI]. unfold held at 2. cbn [m_live m_calls m_word m_marked]. rewrite freeing_app. cbn [freeing flat_map app]. rewrite <- app_assoc. exact HP.
    + cbn [m_calls]. intros c Hc. apply in_app_iff in Hc. destruct Hc as [Hc|[<-|[]]]; [apply (CE _ c); cbn; auto; lia|]. cbn.
      unfold blocks_inv in BI. assert (IB : In b (held st)) by (unfold held; rewrite E1; apply in_app_iff; left; apply in_mid; auto).
      destruct (m_marked st); [destruct BI as [BI _]; rewrite BI in IB; destruct IB|]. destruct BI as (act & nxt & W & A & N & AL & _ & BB). destruct (BB b IB) as (B1 & B2 & B3).
      destruct PL as (D1 & D2 & D3). unfold contains. rewrite W, word_next by lia. unfold u32. rewrite Z.mod_small by lia. lia.
  - injection E as <-. split.
    + eapply blocks_perm; [|exact BI]. unfold held. cbn [m_live m_calls]. rewrite freeing_app. cbn [freeing flat_map]. rewrite app_nil_r. auto.
    + cbn [m_calls]. intros c Hc. apply in_app_iff in Hc. destruct Hc as [Hc|[<-|[]]]; [apply (CE _ c); cbn; auto; lia|]. cbn. split; auto; lia.
  - apply bind_Ok_inv in E. destruct E as (c & R & E). apply rd_some in R. destruct (drop_mid _ _ _ R) as (l1 & l2 & E1 & E2 & E3).
    assert (IC : In c (m_calls st)) by (rewrite E1; apply in_mid; auto). pose proof (CI c IC) as CC.
    assert (SUB : forall x, In x (drop i (m_calls st)) -> In x (m_calls st)) by (intros x Hx; rewrite E2 in Hx; rewrite E1; apply in_mid; auto).
    assert (FM : freeing (m_calls st) = freeing l1 ++ freeing [c] ++ freeing l2) by (rewrite E1; change (c :: l2) with ([c] ++ l2); rewrite !freeing_app; auto).
    assert (FD : freeing (drop i (m_calls st)) = freeing l1 ++ freeing l2) by (rewrite E2; apply freeing_app).
    destruct c as [size align seen stamp|p s f|seen stamp].
    + destruct CC as (C1 & (k & Hk & ->) & C3 & C4). cbn [freeing flat_map app] in FM.
      assert (HE : freeing (drop i (m_calls st)) = freeing (m_calls st)) by congruence.
      destruct (alloc_round data psize seen size (2^k)) as [[slot new]|] eqn:AR.
      * destruct ((m_word st =? seen) && negb sp) eqn:CAS; injection E as <-.
        -- assert (WS : seen = m_word st) by lia. subst seen. split.
           ++ unfold blocks_inv in *. cbn [m_word m_marked]. destruct (m_marked st) eqn:MK.
              ** exfalso. destruct BI as [_ BW]. rewrite BW, full_refuses in AR by auto. discriminate.
              ** destruct BI as (act & nxt & W & A & N & AL & FO & BB). rewrite W in AR.
                 destruct (round_spec _ _ _ _ _ _ _ _ PL A N C1 Hk AR) as (R1 & R2 & R3 & R4 & R5).
                 assert (HH : held {| m_word := new; m_live := (slot, size) :: m_live st; m_calls := drop i (m_calls st); m_done := m_done st + 1; m_marked := false |} = (slot, size) :: held st).
                 { unfold held. cbn [m_live m_calls]. rewrite HE. auto. }
                 rewrite HH. exists (act + 1), (slot + size - data). split; auto. split; [|split; [lia|split; [cbn [length]; lia|split]]].
                 { destruct R4; lia. }
                 { constructor; auto. apply Forall_forall. intros b Hb. destruct (BB b Hb) as (B1 & B2 & B3). unfold apart. cbn. destruct R4 as [R4|R4]; [|lia].
                   destruct (held st); [destruct Hb|cbn [length] in AL; lia]. }
                 { intros b [<-|Hb]; [cbn; lia|]. destruct (BB b Hb) as (B1 & B2 & B3). split; auto. split; auto. destruct R4 as [R4|R4]; [|lia].
                   destruct (held st); [destruct Hb|cbn [length] in AL; lia]. }
           ++ cbn [m_calls]. intros c Hc. apply (CE _ c); cbn; auto; try lia.
        -- split.
           ++ eapply blocks_perm; [|exact BI]. unfold held. cbn [m_live m_calls]. rewrite E3. apply Permutation_app_head. rewrite FM. change (CAlloc size (2^k) (m_word st) (m_done st) :: l2) with ([CAlloc size (2^k) (m_word st) (m_done st)] ++ l2). rewrite !freeing_app. cbn [freeing flat_map app]. auto.
           ++ cbn [m_calls]. rewrite E3. intros c Hc. apply in_mid in Hc. destruct Hc as [->|Hc]; [cbn; repeat split; eauto; lia|]. apply (CE _ c); cbn; auto; try lia. apply CI. rewrite E1. apply in_mid. auto.
      * injection E as <-. split.
        -- unfold held. cbn [m_live m_calls m_word m_marked]. rewrite HE. exact BI.
        -- cbn [m_calls]. intros c Hc. apply (CE _ c); cbn; auto; lia.
    + cbn in CC. subst f. injection E as <-. split.
      * cbn [freeing flat_map app] in FM.
        assert (HP : Permutation (held st) ((p, s) :: m_live st ++ freeing l1 ++ freeing l2)).
        { unfold held. rewrite FM. symmetry. rewrite !app_assoc. rewrite Permutation_middle. reflexivity. }
        pose proof (blocks_perm _ _ _ _ _ _ HP BI) as BI2. clear BI. unfold blocks_inv in *. cbn [m_word m_marked]. unfold held. cbn [m_live m_calls]. rewrite FD.
        destruct (m_marked st); [destruct BI2 as [X _]; discriminate|]. destruct BI2 as (act & nxt & W & A & N & AL & FO & BB). cbn [length] in AL.
        destruct PL as (D1 & D2 & D3).
        exists (act - 1), nxt. rewrite W. split; [unfold u64; rewrite Z.mod_small by lia; lia|]. split; [lia|]. split; auto. split; [lia|].
        inversion FO; subst. split; auto. intros b Hb. apply BB. right. auto.
      * cbn [m_calls]. intros c Hc. apply (CE _ c); cbn; auto; lia.
    + destruct CC as (C3 & C4). cbn [freeing flat_map app] in FM. assert (HE : freeing (drop i (m_calls st)) = freeing (m_calls st)) by congruence.
      destruct (mark_for_removal psize seen) as [new|] eqn:MR.
      * destruct (m_word st =? seen) eqn:CAS; injection E as <-.
        -- assert (WS : seen = m_word st) by lia. subst seen. split.
           ++ unfold blocks_inv in *. cbn [m_word m_marked]. unfold held in *. cbn [m_live m_calls]. rewrite HE. unfold mark_for_removal in MR. destruct (u32 (m_word st) =? 0) eqn:Z0; [|discriminate]. assert (ME : new = u64 (u64 (Z.shiftl psize 32) + 1)) by congruence. subst new. clear MR.
              destruct PL as (D1 & D2 & D3).
              assert (NW : u64 (u64 (Z.shiftl psize 32) + 1) = 1 + psize * 2^32). { rewrite Z.shiftl_mul_pow2 by lia. unfold u64. rewrite (Z.mod_small (psize * 2^32)) by lia. rewrite Z.mod_small by lia. lia. }
              rewrite NW. split; auto. destruct (m_marked st); [tauto|]. destruct BI as (act & nxt & W & A & N & AL & FO & BB).
              assert (act = 0). { rewrite W in Z0. change (u32 (act + nxt * 2^32)) with (active_of (act + nxt * 2^32)) in Z0. rewrite word_active in Z0 by lia. lia. }
              destruct (m_live st ++ freeing (m_calls st)); auto. cbn [length] in AL. lia.
           ++ cbn [m_calls]. intros c Hc. apply (CE _ c); cbn; auto; lia.
        -- split.
           ++ unfold held. cbn [m_live m_calls m_word m_marked]. rewrite HE. exact BI.
           ++ cbn [m_calls]. intros c Hc. apply (CE _ c); cbn; auto; lia.
      * injection E as <-. split.
        -- unfold held. cbn [m_live m_calls m_word m_marked]. rewrite HE. exact BI.
        -- cbn [m_calls]. intros c Hc. apply (CE _ c); cbn; auto; lia.
Qed.

Lemma preach_inv : forall data psize st, payload data psize -> preach data psize st -> pinv data psize st.
Proof.
  intros data psize st PL R. induction R as [|st a st' R IH P E]; [|eapply pinv_step; eauto].
  split; [|intros c []]. cbn. exists 0, 0. destruct PL as (D1 & D2 & D3). repeat split; try lia; try contradiction. constructor.
Qed.

(** ** C22 *)

(** In every interleaving of any number of concurrent TryAlloc, Free and MarkForRemoval
    calls on one pool: live blocks (and blocks whose Free has not finished) are pairwise
    disjoint and inside the pool, Free always recognises its block, the counter is the
    number of these blocks, and a pool marked for removal holds none. *)
Theorem C22_blocks_disjoint : forall data psize st, payload data psize -> preach data psize st ->
  ForallOrdPairs apart (held st) /\ (forall b, In b (held st) -> within data psize b) /\
  (forall p s found, In (CFree p s found) (m_calls st) -> found = true) /\
  (m_marked st = false -> m_word st mod 2^32 = Z.of_nat (length (held st))) /\
  (m_marked st = true -> held st = []).
Proof.
  intros data psize st PL R. destruct (preach_inv _ _ _ PL R) as (BI & CI). unfold blocks_inv in BI.
  assert (CF : forall p s found, In (CFree p s found) (m_calls st) -> found = true) by (intros p s f H; apply (CI _ H)).
  destruct (m_marked st).
  - destruct BI as [-> W]. split; [constructor|]. split; [intros b []|]. split; auto. split; auto. discriminate.
  - destruct BI as (act & nxt & W & A & N & AL & FO & BB). split; auto. split; [|split; auto; split; [|discriminate]].
    + intros b Hb. destruct (BB b Hb). unfold within. lia.
    + intros _. destruct PL as (D1 & D2 & D3). rewrite W. change ((act + nxt * 2^32) mod 2^32) with (active_of (act + nxt * 2^32)). rewrite word_active by lia. auto.
Qed.
Print Assumptions C22_blocks_disjoint.

(** Every step of every permitted call is defined, and what a TryAlloc adds is an aligned
    block that was free. *)
Theorem C22_alloc_fresh : forall data psize st a, payload data psize -> preach data psize st -> permitted st a ->
  exists st', pstep data psize st a = Ok st' /\
    forall i sp size align seen stamp, a = Go i sp -> nth_error (m_calls st) i = Some (CAlloc size align seen stamp) ->
      (m_live st' = m_live st \/
       exists ptr, m_live st' = (ptr, size) :: m_live st /\ ptr mod align = 0 /\ within data psize (ptr, size) /\ forall b, In b (held st) -> apart (ptr, size) b).
Proof.
  intros data psize st a PL R PM.
  assert (X : exists st', pstep data psize st a = Ok st').
  { destruct a as [size align|i| |i sp]; cbn [pstep permitted] in *; eauto.
    - destruct (nth_error (m_live st) i) eqn:E; [|apply nth_error_None in E; lia]. rewrite (rd_Ok _ _ _ _ E). cbn. eauto.
    - destruct (nth_error (m_calls st) i) as [c|] eqn:E; [|apply nth_error_None in E; lia]. rewrite (rd_Ok _ _ _ _ E). cbn [bind].
      destruct c as [size align seen stamp|p s f|seen stamp]; [destruct (alloc_round _ _ _ _ _) as [[? ?]|]; [destruct (_ && _)|]|destruct f|destruct (mark_for_removal _ _); [destruct (_ =? _)|]]; eauto. }
  destruct X as (st' & E). exists st'. split; auto. intros i sp size align seen stamp -> NC.
  pose proof (PRS _ _ _ _ _ R PM E) as R'. destruct (C22_blocks_disjoint _ _ _ PL R') as (FO & WI & _).
  destruct (preach_inv _ _ _ PL R) as (BI & CI). pose proof (CI _ (nth_error_In _ _ NC)) as (C1 & (k & Hk & ->) & _).
  cbn [pstep] in E. rewrite (rd_Ok _ _ _ _ NC) in E. cbn [bind] in E.
  destruct (alloc_round data psize seen size (2^k)) as [[slot new]|] eqn:AR; [|injection E as <-; auto].
  destruct ((m_word st =? seen) && negb sp) eqn:CAS; injection E as <-; auto. right. exists slot. cbn [m_live]. split; auto.
  assert (WS : seen = m_word st) by lia. subst seen. unfold blocks_inv in BI.
  destruct (m_marked st); [destruct BI as [_ BW]; rewrite BW, full_refuses in AR by auto; discriminate|].
  destruct BI as (act & nxt & W & A & N & _). rewrite W in AR. destruct (round_spec _ _ _ _ _ _ _ _ PL A N C1 Hk AR) as (R1 & R2 & R3 & _).
  split; auto. unfold held in *. cbn [m_live m_calls app] in *. split; [apply WI; left; auto|].
  inversion FO as [|? ? F1 F2]; subst. rewrite Forall_forall in F1. intros b Hb. apply F1.
  destruct (drop_mid _ _ _ NC) as (l1 & l2 & E1 & E2 & _). rewrite E2. rewrite E1 in Hb. change (CAlloc size (2^k) (m_word st) stamp :: l2) with ([CAlloc size (2^k) (m_word st) stamp] ++ l2) in Hb.
  rewrite !freeing_app in *. exact Hb.
Qed.
Print Assumptions C22_alloc_fresh.

(** Progress: when an exchange fails for another reason than a spurious failure of the
    weak instruction, another call has completed an update since this one last looked. *)
Theorem C22_lock_free : forall data psize st i size align seen stamp, payload data psize -> preach data psize st ->
  nth_error (m_calls st) i = Some (CAlloc size align seen stamp) ->
  (m_word st <> seen -> stamp < m_done st) /\
  (m_word st = seen -> exists st', pstep data psize st (Go i false) = Ok st' /\ m_calls st' = drop i (m_calls st)).
Proof.
  intros data psize st i size align seen stamp PL R NC. destruct (preach_inv _ _ _ PL R) as (_ & CI).
  destruct (CI _ (nth_error_In _ _ NC)) as (_ & _ & _ & [H|H]); split; intros W; auto; try congruence; cbn [pstep]; rewrite (rd_Ok _ _ _ _ NC); cbn [bind];
    (destruct (alloc_round data psize seen size align) as [[slot new]|]; [rewrite W, Z.eqb_refl; cbn [andb negb]|]); eexists; split; reflexivity.
Qed.
Print Assumptions C22_lock_free.

(** two racing allocations: the second exchange fails, retries and gets the next block *)
Example C22_demo : exists st, preach 4120 176 st /\ m_live st = [(4160, 16); (4120, 40)] /\ m_calls st = [].
Proof.
  pose (s := fun st a => match pstep 4120 176 st a with Ok x => x | _ => st end).
  pose (s1 := s pstate0 (BeginAlloc 16 8)). pose (s2 := s s1 (BeginAlloc 40 8)). pose (s3 := s s2 (Go 1 false)). pose (s4 := s s3 (Go 0 false)). pose (s5 := s s4 (Go 0 false)).
  exists s5. split; [|split; vm_compute; reflexivity].
  assert (AL : forall n, n = 16 \/ n = 40 -> 2 <= n /\ exists k, 0 <= k < 32 /\ 8 = 2^k) by (intros n H; split; [lia|exists 3; split; [lia|reflexivity]]).
  apply (PRS _ _ s4 (Go 0 false)); [|vm_compute; repeat constructor|vm_compute; reflexivity].
  apply (PRS _ _ s3 (Go 0 false)); [|vm_compute; repeat constructor|vm_compute; reflexivity].
  apply (PRS _ _ s2 (Go 1 false)); [|vm_compute; repeat constructor|vm_compute; reflexivity].
  apply (PRS _ _ s1 (BeginAlloc 40 8)); [|apply AL; auto|vm_compute; reflexivity].
  apply (PRS _ _ pstate0 (BeginAlloc 16 8)); [constructor|apply AL; auto|vm_compute; reflexivity].
Qed.

(** ** C23, concurrent *)

(** Two pools: in the first one block is live, the second is empty. One thread walks the
    list for an allocation that does not fit the first pool; before it reaches the second
    pool, another thread frees the block, finds two empty pools and returns the second to
    the system. The first thread then accesses it. *)
Theorem C23_concurrent_reclaim_refuted : exists st,
  l_mem st = [Some ({| p_addr := 4096; p_state := 100 * 2^32 + 1; p_size := 176 |}, Some 1%nat);
              Some ({| p_addr := 8192; p_state := 100 * 2^32; p_size := 176 |}, None)] /\
  l_head st = Some 0%nat /\ l_calls st = [LAlloc (Some 0%nat) 100 8; LFree (Some 0%nat) 4120] /\ l_lock st = false /\
  lrun st [0%nat; 1%nat; 1%nat; 1%nat; 1%nat; 1%nat] <> UB /\
  lrun st [0%nat; 1%nat; 1%nat; 1%nat; 1%nat; 1%nat; 0%nat] = UB.
Proof.
  exists {| l_mem := [Some ({| p_addr := 4096; p_state := 100 * 2^32 + 1; p_size := 176 |}, Some 1%nat);
              Some ({| p_addr := 8192; p_state := 100 * 2^32; p_size := 176 |}, None)]; l_head := Some 0%nat;
     l_calls := [LAlloc (Some 0%nat) 100 8; LFree (Some 0%nat) 4120]; l_lock := false |}.
  repeat split. vm_compute. discriminate.
Qed.
Print Assumptions C23_concurrent_reclaim_refuted.

(** the memory of that state is the one a sequential history reaches: two allocations of
    100 bytes with 200-byte pools, the second block freed *)
Example C23_concurrent_start : a_pools (fst (free (snd (alloc (snd (alloc (set_pool_size allocator0 200) 100 8 (Some 4096))) 100 8 (Some 8192))) 8216))
  = [{| p_addr := 4096; p_state := 100 * 2^32 + 1; p_size := 176 |}; {| p_addr := 8192; p_state := 100 * 2^32; p_size := 176 |}].
Proof. vm_compute. reflexivity. Qed.
