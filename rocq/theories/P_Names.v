(** C56: display names. *)
From Coq Require Import ZArith String Ascii List Bool Lia.
From Verif Require Import Prelude Registry_Model Names_Model.
Import ListNotations.
Open Scope Z_scope.

(** ** Specification *)
Definition ascii_text (s : list Z) : Prop := Forall (fun c => 0 <= c < 128) s.
Definition lower (c : Z) : Prop := 97 <= c <= 122.
Definition starts_word (c : Z) : Prop := 48 <= c <= 57 \/ 65 <= c <= 90.
(** [spaced a s t]: t is s, which follows the character a, with one space put before each digit or capital that follows a small letter *)
Inductive spaced : Z -> list Z -> list Z -> Prop :=
  | sp_nil : forall a, spaced a [] []
  | sp_break : forall a c s t, lower a -> starts_word c -> spaced c s t -> spaced a (c :: s) (32 :: c :: t)
  | sp_keep : forall a c s t, ~ (lower a /\ starts_word c) -> spaced c s t -> spaced a (c :: s) (c :: t).
(** [cut g s t]: t is s with the first occurrence of g, and the character after it if any, taken out *)
Definition cut (g s t : list Z) : Prop :=
  exists pre post, s = pre ++ g ++ post /\ t = pre ++ skipn 1 post /\ (forall pre' post', s = pre' ++ g ++ post' -> (length pre <= length pre')%nat).
Inductive cuts : list (list Z) -> list Z -> list Z -> Prop :=
  | cuts_nil : forall s, cuts [] s s
  | cuts_hit : forall g gs s t u, cut g s t -> cuts gs t u -> cuts (g :: gs) s u
  | cuts_miss : forall g gs s u, (forall pre post, s <> pre ++ g ++ post) -> cuts gs s u -> cuts (g :: gs) s u.

(** ** Proofs *)
Lemma ctype_ok : forall p c, 0 <= c < 128 -> ctype p c = Ok (p c).
Proof. intros. unfold ctype. replace ((0 <=? c) && (c <? 128)) with true by lia. reflexivity. Qed.
Lemma loop_spec : forall s a pre fuel, ascii_text (pre ++ a :: s) -> (fuel > length s)%nat ->
  exists t, spaced a s t /\ space_loop fuel (pre ++ a :: s) (S (length pre)) = Ok (pre ++ a :: t).
Proof.
  induction s as [|c s IH]; intros a pre fuel A F; destruct fuel as [|fuel]; try (cbn in F; lia); cbn [space_loop].
  - rewrite app_length. cbn [length]. replace (S (length pre) <? length pre + 1)%nat with false by (symmetry; apply PeanoNat.Nat.ltb_ge; lia). exists []. split; [constructor|reflexivity].
  - assert (LT : (S (length pre) <? length (pre ++ a :: c :: s))%nat = true) by (apply PeanoNat.Nat.ltb_lt; rewrite app_length; cbn; lia). rewrite LT.
    assert (E1 : nth_error (pre ++ a :: c :: s) (S (length pre)) = Some c). { rewrite nth_error_app2 by lia. replace (S (length pre) - length pre)%nat with 1%nat by lia. reflexivity. }
    assert (E0 : nth_error (pre ++ a :: c :: s) (length pre) = Some a). { rewrite nth_error_app2 by lia. rewrite PeanoNat.Nat.sub_diag. reflexivity. }
    assert (AC : 0 <= a < 128 /\ 0 <= c < 128). { unfold ascii_text in A. rewrite Forall_app in A. destruct A as (_ & A). inversion A; subst. inversion H2; subst. auto. }
    rewrite (rd_Ok _ _ _ _ E1). cbn [bind]. rewrite !ctype_ok by tauto. cbn [bind].
    assert (U : (if isdigit c then Ok true else Ok (isupper c)) = Ok (isdigit c || isupper c)) by (destruct (isdigit c); reflexivity). rewrite U. cbn [bind].
    replace (S (length pre) - 1)%nat with (length pre) by lia. rewrite (rd_Ok _ _ _ _ E0). cbn [bind]. rewrite ctype_ok by tauto.
    destruct ((isdigit c || isupper c) && islower a) eqn:B.
    + apply andb_true_iff in B. destruct B as (B1 & B2). rewrite B1. cbn [bind]. rewrite B2. cbn [bind].
      destruct (IH c (pre ++ [a; 32]) fuel) as (t & S1 & S2). { unfold ascii_text in *. rewrite Forall_app in *. destruct A as (A1 & A2). inversion A2; subst. split; auto. rewrite Forall_app. split; auto. repeat constructor; lia. } { cbn in F. lia. }
      exists (32 :: c :: t). split. { constructor; auto; unfold lower, starts_word, isdigit, isupper, islower in *; lia. }
      replace (insert_at (pre ++ a :: c :: s) (S (length pre)) 32) with ((pre ++ [a; 32]) ++ c :: s).
      * replace (S (S (S (length pre)))) with (S (length (pre ++ [a; 32]))) by (rewrite app_length; cbn; lia). rewrite S2. rewrite <- app_assoc. reflexivity.
      * unfold insert_at. replace (S (length pre)) with (length (pre ++ [a])) by (rewrite app_length; cbn; lia). change (a :: c :: s) with ([a] ++ c :: s). rewrite (app_assoc pre).
        rewrite firstn_app, PeanoNat.Nat.sub_diag, firstn_all. rewrite skipn_app, PeanoNat.Nat.sub_diag, skipn_all. cbn. rewrite app_nil_r, <- !app_assoc. reflexivity.
    + assert (D : (if isdigit c || isupper c then Ok (islower a) else Ok false) = Ok false) by (destruct (isdigit c || isupper c); cbn in B; rewrite ?B; reflexivity). rewrite D. cbn [bind].
      destruct (IH c (pre ++ [a]) fuel) as (t & S1 & S2). { rewrite <- app_assoc. exact A. } { cbn in F. lia. }
      exists (c :: t). split. { constructor; auto. unfold lower, starts_word, isdigit, isupper, islower in *. intros (L1 & L2). apply Bool.andb_false_iff in B. destruct B; lia. }
      rewrite app_length in S2. cbn [length] in S2. rewrite PeanoNat.Nat.add_1_r in S2. rewrite <- !app_assoc in S2. exact S2.
Qed.
Lemma prefix_iff : forall g s, is_prefix g s = true <-> exists post, s = g ++ post.
Proof.
  induction g as [|a g IH]; intros s; cbn. { split; eauto. }
  destruct s as [|b s]. { split; [discriminate|intros (p & E); discriminate]. } rewrite andb_true_iff, IH. split.
  - intros (E & p & ->). apply Z.eqb_eq in E. subst. eauto.
  - intros (p & E). injection E as -> ->. split; [apply Z.eqb_refl|eauto].
Qed.
Lemma find_some : forall g s k, find g s = Some k -> exists pre post, s = pre ++ g ++ post /\ length pre = k /\ forall pre' post', s = pre' ++ g ++ post' -> (k <= length pre')%nat.
Proof.
  intros g. induction s as [|c s IH]; intros k E; cbn [find] in E.
  - destruct (is_prefix g []) eqn:P; [|discriminate]. injection E as <-. apply prefix_iff in P. destruct P as (p & E). exists [], p. repeat split; auto. intros. lia.
  - destruct (is_prefix g (c :: s)) eqn:P.
    + injection E as <-. apply prefix_iff in P. destruct P as (p & E). exists [], p. repeat split; auto. intros. lia.
    + destruct (find g s) as [k0|] eqn:F; [|discriminate]. injection E as <-. destruct (IH k0 eq_refl) as (pre & post & E1 & E2 & E3). exists (c :: pre), post. split; [cbn; congruence|]. split; [cbn; congruence|].
      intros pre' post' E. destruct pre' as [|x pre']. { exfalso. assert (X : is_prefix g (c :: s) = true) by (apply prefix_iff; exists post'; exact E). congruence. }
      injection E as -> E. cbn. specialize (E3 _ _ E). lia.
Qed.
Lemma find_none : forall g s, find g s = None -> forall pre post, s <> pre ++ g ++ post.
Proof.
  intros g. induction s as [|c s IH]; intros E pre post X; cbn [find] in E.
  - destruct (is_prefix g []) eqn:P; [discriminate|]. destruct pre; [|discriminate X]. assert (Y : is_prefix g [] = true) by (apply prefix_iff; exists post; exact X). congruence.
  - destruct (is_prefix g (c :: s)) eqn:P; [discriminate|]. destruct (find g s) eqn:F; [discriminate|]. destruct pre as [|x pre].
    + assert (Y : is_prefix g (c :: s) = true) by (apply prefix_iff; exists post; exact X). congruence.
    + injection X as -> X. exact (IH eq_refl _ _ X).
Qed.
Lemma groups_spec : forall gs s, cuts gs s (remove_groups s gs).
Proof.
  induction gs as [|g gs IH]; intros s; cbn [remove_groups]; [constructor|]. destruct (find g s) as [k|] eqn:F.
  - eapply cuts_hit; [|apply IH]. destruct (find_some _ _ _ F) as (pre & post & E & L & M). exists pre, post. split; auto. split.
    + subst k. unfold erase. rewrite E. rewrite firstn_app, PeanoNat.Nat.sub_diag, firstn_all. cbn [firstn]. rewrite app_nil_r. f_equal. rewrite skipn_app. rewrite (skipn_all2 pre) by lia. cbn [app].
      rewrite skipn_app. rewrite (skipn_all2 g) by lia. cbn [app]. f_equal. lia.
    + intros. rewrite L. eauto.
  - apply cuts_miss; [|apply IH]. apply find_none. exact F.
Qed.

(** Every ASCII name is formatted without undefined behaviour: it gets exactly the word breaks,
    and if asked for the groups are cut out, in order; if nothing is left the name itself is returned. *)
Theorem C56_node_name : forall a name groups (removeGroups : bool), ascii_text (a :: name) ->
  exists t u : list Z, spaced a name t /\ (if removeGroups then cuts groups (a :: t) u else u = a :: t) /\
    FormatMetadataNodeName None (a :: name) groups removeGroups = Ok (if (0 <? length u)%nat then u else a :: name).
Proof.
  intros a name groups rg A. destruct (loop_spec name a [] (S (2 * length (a :: name)))) as (t & S1 & S2); [auto|cbn [length]; lia|].
  exists t, (if rg then remove_groups (a :: t) groups else a :: t). split; auto. split. { destruct rg; auto. apply groups_spec. }
  unfold FormatMetadataNodeName. change (a :: name) with ([] ++ a :: name) at 2. cbn [length] in S2 |- *. rewrite S2. cbn [bind]. change ([] ++ a :: t) with (a :: t).
  destruct (if rg then remove_groups (a :: t) groups else a :: t); reflexivity.
Qed.
Print Assumptions C56_node_name.
Theorem C56_never_empty : forall f name groups rg out, name <> [] -> FormatMetadataNodeName f name groups rg = Ok out -> out <> [].
Proof.
  intros f name groups rg out N E. unfold FormatMetadataNodeName in E. apply bind_Ok_inv in E. destruct E as (s & _ & E). destruct (if rg then remove_groups s groups else s); injection E as <-; auto. discriminate.
Qed.
Print Assumptions C56_never_empty.
(** Word breaking keeps the characters: dropping the inserted spaces gives the name back, for a name without spaces. *)
Lemma spaced_keeps : forall a s t, spaced a s t -> filter (fun c => negb (c =? 32)) t = filter (fun c => negb (c =? 32)) s.
Proof. induction 1; cbn; auto; [|destruct (negb (c =? 32)); congruence]. destruct (negb (c =? 32)); congruence. Qed.
Theorem C56_characters_kept : forall name groups out, ascii_text name -> ~ In 32 name -> FormatMetadataNodeName None name groups false = Ok out -> filter (fun c => negb (c =? 32)) out = name.
Proof.
  intros name groups out A NS E. assert (FN : filter (fun c => negb (c =? 32)) name = name). { clear - NS. induction name as [|c l IH]; cbn; auto. replace (c =? 32) with false by (symmetry; apply Z.eqb_neq; intros ->; apply NS; left; auto). cbn. f_equal. apply IH. intros I. apply NS. right. auto. }
  destruct name as [|a name]. { cbn in E. injection E as <-. reflexivity. }
  destruct (C56_node_name a name groups false A) as (t & u & S & -> & E2). rewrite E in E2. injection E2 as ->. cbn [length Nat.ltb Nat.leb]. rewrite <- FN. cbn. rewrite (spaced_keeps _ _ _ S). reflexivity.
Qed.
Print Assumptions C56_characters_kept.

(** Members: exactly the axis letter and a space in front, or nothing *)
Theorem C56_member_name : forall name, FormatMetadataMemberName name 0 = Ok (bytes "X "%string ++ name) /\ FormatMetadataMemberName name 1 = Ok (bytes "Y "%string ++ name) /\
  FormatMetadataMemberName name 2 = Ok (bytes "Z "%string ++ name) /\ FormatMetadataMemberName name 3 = Ok (bytes "W "%string ++ name) /\ (forall d, d < 0 -> FormatMetadataMemberName name d = Ok name).
Proof. intros name. repeat split. intros d D. unfold FormatMetadataMemberName. replace (0 <=? d) with false by lia. reflexivity. Qed.
Print Assumptions C56_member_name.

(** ** The nodes of the library *)
Definition outcome {A} (r : res A) : option A := match r with Ok a => Some a | _ => None end.
Definition display (rg : bool) (t : node_type) : option (list Z) := outcome (FormatMetadataNodeName None (bytes (t_name t)) (map bytes (t_groups t)) rg).
Definition member_names (t : node_type) : list (option (list Z)) :=
  map (fun v => outcome (FormatMetadataMemberName (bytes (v_name v)) (v_dim v))) (t_vars t) ++ map (fun h => outcome (FormatMetadataMemberName (bytes (h_name h)) (h_dim h))) (t_hybrids t)
  ++ map (fun l => outcome (FormatMetadataMemberName (bytes (l_name l)) (-1))) (t_lookups t).
Fixpoint nodup_b (l : list (option (list Z))) : bool :=
  match l with [] => true | a :: r => (match a with None => false | Some x => (0 <? length x)%nat && negb (existsb (fun b => match b with Some y => if list_eq_dec Z.eq_dec x y then true else false | None => false end) r) end) && nodup_b r end.
Lemma nodup_b_ok : forall l, nodup_b l = true -> NoDup l /\ Forall (fun a => exists x, a = Some x /\ x <> []) l.
Proof.
  induction l as [|a l IH]; cbn; intros E. { split; constructor. } apply andb_true_iff in E. destruct E as (E1 & E2). destruct (IH E2) as (N & F). destruct a as [x|]; [|discriminate]. apply andb_true_iff in E1. destruct E1 as (L & X). split.
  - constructor; auto. intros I. apply negb_true_iff in X. assert (Y : existsb (fun b => match b with Some y => if list_eq_dec Z.eq_dec x y then true else false | None => false end) l = true).
    { apply existsb_exists. exists (Some x). split; auto. destruct (list_eq_dec Z.eq_dec x x); congruence. } congruence.
  - constructor; auto. exists x. split; auto. intros ->. discriminate L.
Qed.
(** For every node type of the library: the display name exists (no undefined behaviour) and is
    not empty, with or without its groups; no two types share a display name; and within a type all
    members have distinct, non-empty display names. *)
Theorem C56_library_names : NoDup (map (display false) registry) /\
  (forall t rg, In t registry -> exists x, display rg t = Some x /\ x <> []) /\
  (forall t, In t registry -> NoDup (member_names t) /\ Forall (fun a => exists x, a = Some x /\ x <> []) (member_names t)).
Proof.
  assert (E : nodup_b (map (display false) registry) = true) by (vm_compute; reflexivity). apply nodup_b_ok in E. split; [tauto|]. split.
  - assert (G : forallb (fun t => match display true t with Some (_ :: _) => true | _ => false end) registry = true) by (vm_compute; reflexivity). rewrite forallb_forall in G.
    intros t rg I. destruct rg.
    + specialize (G t I). destruct (display true t) as [[|c x]|]; try discriminate. exists (c :: x). split; auto. discriminate.
    + destruct E as (_ & E). rewrite Forall_forall in E. apply E. apply in_map. exact I.
  - assert (M : forallb (fun t => nodup_b (member_names t)) registry = true) by (vm_compute; reflexivity). rewrite forallb_forall in M. intros t I. apply nodup_b_ok. auto.
Qed.
Print Assumptions C56_library_names.
Example C56_examples :
  FormatMetadataNodeName None (bytes "DomainWarpFractalIndependent") [bytes "Domain Warp"; bytes "Fractal"] false = Ok (bytes "Domain Warp Fractal Independent") /\
  FormatMetadataNodeName None (bytes "DomainWarpFractalIndependent") [bytes "Domain Warp"; bytes "Fractal"] true = Ok (bytes "Independent") /\
  FormatMetadataNodeName None (bytes "ConvertRGBA8") [bytes "Modifiers"] false = Ok (bytes "Convert RGBA8") /\
  FormatMetadataNodeName None (bytes "Modifiers") [bytes "Modifiers"] true = Ok (bytes "Modifiers").
Proof. vm_compute. auto. Qed.
