(** Every node body is lane-wise: lane l of the result over [lanes n] is the result over [scalar]
    for lane l of the inputs. A logical relation between the two instances of the code. *)
From Coq Require Import ZArith List Bool Arith Lia.
From Verif Require Import Prelude Simd_Model Utils_Model Nodes_Model Warp_Model Cellular_Model Simplex_Model SimplexWarp_Model NodeEval_Model.
Import ListNotations.
Open Scope Z_scope.

Section Lanes.
Context {s : sops} (n l : nat) (Hl : (l < n)%nat).
Notation L := (lanes n).

Definition rel {A} (a : T L A) (b : T scalar A) : Prop := a l = b.
Definition lrel {A} (a : list (T L A)) (b : list (T scalar A)) : Prop := Forall2 rel a b.
Definition prel {A A' B B'} (R : A -> A' -> Prop) (Q : B -> B' -> Prop) (a : A * B) (b : A' * B') : Prop := R (fst a) (fst b) /\ Q (snd a) (snd b).
Definition srel (a : source s L) (b : source s scalar) : Prop :=
  forall sd sd' ps ps', rel sd sd' -> lrel ps ps' -> rel (a sd ps) (b sd' ps').
Definition hrel (a : hyb s L) (b : hyb s scalar) : Prop :=
  match a, b with HConst c, HConst d => c = d | HSrc f, HSrc g => srel f g | _, _ => False end.

Lemma rel_pure : forall A (c : A), rel (@pure L A c) (@pure scalar A c). Proof. reflexivity. Qed.
Lemma rel_map1 : forall A B (f : A -> B) a a', rel a a' -> rel (@map1 L A B f a) (@map1 scalar A B f a').
Proof. unfold rel. intros. cbn. congruence. Qed.
Lemma rel_map2 : forall A B C (f : A -> B -> C) a a' b b', rel a a' -> rel b b' -> rel (@map2 L A B C f a b) (@map2 scalar A B C f a' b').
Proof. unfold rel. intros. cbn. congruence. Qed.
Lemma rel_map3 : forall A B C D (f : A -> B -> C -> D) a a' b b' c c', rel a a' -> rel b b' -> rel c c' -> rel (@map3 L A B C D f a b c) (@map3 scalar A B C D f a' b' c').
Proof. unfold rel. intros. cbn. congruence. Qed.
Lemma rel_fun : forall A B C (f : A -> B -> C) a a' b b', rel a a' -> rel b b' -> rel (@map2 L A B C f a b) (@map2 scalar A B C f a' b').
Proof. unfold rel. intros. cbn. congruence. Qed.
Lemma slet_rel : forall A A' B B' (R : A -> A' -> Prop) (Q : B -> B' -> Prop) a a' k k', R a a' -> (forall x x', R x x' -> Q (k x) (k' x')) -> Q (slet a k) (slet a' k').
Proof. intros. unfold slet. auto. Qed.
Lemma rel_gsv : forall h h' sd sd' ps ps', hrel h h' -> rel sd sd' -> lrel ps ps' -> rel (GetSourceValue h sd ps) (GetSourceValue h' sd' ps').
Proof. intros [c|f] [c'|f'] sd sd' ps ps' H Hs Hp; cbn in *; try contradiction; [subst; reflexivity|]. apply H; assumption. Qed.
Lemma lrel_map : forall A B (f : T L A -> T L B) f' a a', (forall x x', rel x x' -> rel (f x) (f' x')) -> lrel a a' -> lrel (map f a) (map f' a').
Proof. intros A B f f' a a' H. induction 1; constructor; auto. Qed.
Lemma lrel_zipw : forall A B C D E (f : A -> B -> T L E) (f' : C -> D -> T scalar E) (R : A -> C -> Prop) (Q : B -> D -> Prop) a a' b b',
  (forall x x' y y', R x x' -> Q y y' -> rel (f x y) (f' x' y')) -> Forall2 R a a' -> Forall2 Q b b' -> lrel (zipw f a b) (zipw f' a' b').
Proof. intros A B C D E f f' R Q a a' b b' H Ha. revert b b'. induction Ha; intros b b' Hb; [constructor|]. inversion Hb; subst; [constructor|]. cbn. constructor; [auto|apply IHHa; assumption]. Qed.
Lemma Forall2_eq : forall A (a : list A), Forall2 eq a a. Proof. induction a; constructor; auto. Qed.
Lemma lrel_nth : forall A k (a : list (T L A)) a' d d', lrel a a' -> rel d d' -> rel (nth k a d) (nth k a' d').
Proof. intros A k a a' d d' H Hd. revert k. induction H; intros [|k]; cbn; auto. Qed.
Lemma lrel_app : forall A (a b : list (T L A)) a' b', lrel a a' -> lrel b b' -> lrel (a ++ b) (a' ++ b').
Proof. intros. apply Forall2_app; assumption. Qed.
Lemma lrel_nil : forall A, lrel (@nil (T L A)) []. Proof. constructor. Qed.
Lemma lrel_cons : forall A (x : T L A) x' a a', rel x x' -> lrel a a' -> lrel (x :: a) (x' :: a'). Proof. constructor; assumption. Qed.
Lemma prel_pair : forall A A' B B' (R : A -> A' -> Prop) (Q : B -> B' -> Prop) a a' b b', R a a' -> Q b b' -> prel R Q (a, b) (a', b'). Proof. split; assumption. Qed.
Lemma prel_fst : forall A A' B B' (R : A -> A' -> Prop) (Q : B -> B' -> Prop) a a', prel R Q a a' -> R (fst a) (fst a'). Proof. intros. apply H. Qed.
Lemma prel_snd : forall A A' B B' (R : A -> A' -> Prop) (Q : B -> B' -> Prop) a a', prel R Q a a' -> Q (snd a) (snd a'). Proof. intros. apply H. Qed.
Lemma rel_xor_fold : forall p p', lrel p p' -> rel (xor_fold p) (xor_fold p').
Proof. induction 1 as [|x x' p p' Hx Hp IH]; [reflexivity|]. destruct Hp; [exact Hx|]. apply rel_map2; [exact Hx|exact IH]. Qed.

(** one step of the relational proof *)
Ltac lane1 :=
  match goal with
  | |- rel _ _ => assumption
  | |- lrel _ _ => assumption
  | H : srel ?f _ |- rel (?f _ _) _ => apply H
  | |- rel (GetSourceValue _ _ _) _ => apply rel_gsv
  | |- hrel _ _ => assumption
  | |- lrel [] _ => apply lrel_nil
  | |- lrel (_ :: _) _ => apply lrel_cons
  | |- lrel (_ ++ _) _ => apply lrel_app
  | |- lrel (map _ _) _ => apply lrel_map; [intros ? ? ?|]
  | |- rel (xor_fold _) _ => apply rel_xor_fold
  | |- rel (nth _ _ _) _ => apply lrel_nth
  | |- prel _ _ (_, _) _ => apply prel_pair
  | |- ?Q (slet _ _) (slet _ _) => first [eapply (slet_rel _ _ _ _ rel Q)| eapply (slet_rel _ _ _ _ lrel Q)]; [|intros ? ? ?]
  | |- rel (if ?b then _ else _) _ => destruct b
  | |- rel _ _ => first [apply rel_pure | apply rel_map1 | apply rel_map2 | apply rel_map3]
  end.
Ltac lane := repeat lane1.

Lemma r_hash : forall sd sd' p p', rel sd sd' -> lrel p p' -> rel (HashPrimes sd p) (HashPrimes sd' p').
Proof. intros. unfold HashPrimes. lane. Qed.
Lemma r_hashhb : forall sd sd' p p', rel sd sd' -> lrel p p' -> rel (HashPrimesHB sd p) (HashPrimesHB sd' p').
Proof. intros. unfold HashPrimesHB. lane. Qed.
Lemma r_value : forall sd sd' p p', rel sd sd' -> lrel p p' -> rel (GetValueCoord (s:=s) sd p) (GetValueCoord sd' p').
Proof. intros. unfold GetValueCoord. lane. Qed.
Lemma r_lerp : forall a a' b b' t t', rel a a' -> rel b b' -> rel t t' -> rel (Lerp (s:=s) a b t) (Lerp a' b' t').
Proof. intros. unfold Lerp. lane. Qed.
Lemma r_hermite : forall t t', rel t t' -> rel (InterpHermite (s:=s) t) (InterpHermite t'). Proof. intros. unfold InterpHermite. lane. Qed.
Lemma r_quintic : forall t t', rel t t' -> rel (InterpQuintic (s:=s) t) (InterpQuintic t'). Proof. intros. unfold InterpQuintic. lane. Qed.
Lemma r_fls : forall ft t t', rel t t' -> rel (FastLengthSqrt (s:=s) ft t) (FastLengthSqrt ft t'). Proof. intros. unfold FastLengthSqrt. lane. Qed.
Lemma r_gs2 : forall ft h h' a a' b b', rel h h' -> rel a a' -> rel b b' -> rel (GetGradientDotSimplex2 (s:=s) ft h a b) (GetGradientDotSimplex2 ft h' a' b').
Proof. intros. unfold GetGradientDotSimplex2. lane. Qed.
Lemma r_gs4 : forall ft h h' a a' b b' c c' d d', rel h h' -> rel a a' -> rel b b' -> rel c c' -> rel d d' -> rel (GetGradientDotSimplex4 (s:=s) ft h a b c d) (GetGradientDotSimplex4 ft h' a' b' c' d').
Proof. intros. unfold GetGradientDotSimplex4. lane. Qed.
Lemma r_gc : forall ft h h' a a' b b' c c', rel h h' -> rel a a' -> rel b b' -> rel c c' -> rel (GetGradientDotCommon (s:=s) ft h a b c) (GetGradientDotCommon ft h' a' b' c').
Proof. intros. unfold GetGradientDotCommon. lane. Qed.
Lemma r_gp2 : forall ft h h' a a' b b', rel h h' -> rel a a' -> rel b b' -> rel (GetGradientDotPerlin2 (s:=s) ft h a b) (GetGradientDotPerlin2 ft h' a' b').
Proof. intros. unfold GetGradientDotPerlin2. lane. Qed.
Lemma r_gp4 : forall ft h h' a a' b b' c c' d d', rel h h' -> rel a a' -> rel b b' -> rel c c' -> rel d d' -> rel (GetGradientDotPerlin4 (s:=s) ft h a b c d) (GetGradientDotPerlin4 ft h' a' b' c' d').
Proof. intros. unfold GetGradientDotPerlin4. lane. Qed.

Ltac helper :=
  match goal with
  | |- rel (Lerp _ _ _) _ => apply r_lerp
  | |- rel (InterpHermite _) _ => apply r_hermite
  | |- rel (InterpQuintic _) _ => apply r_quintic
  | |- rel (FastLengthSqrt _ _) _ => apply r_fls
  | |- rel (GetValueCoord _ _) _ => apply r_value
  | |- rel (HashPrimes _ _) _ => apply r_hash
  | |- rel (HashPrimesHB _ _) _ => apply r_hashhb
  | |- rel (GetGradientDotCommon _ _ _ _ _) _ => apply r_gc
  | |- rel (GetGradientDotPerlin2 _ _ _ _) _ => apply r_gp2
  | |- rel (GetGradientDotPerlin4 _ _ _ _ _ _) _ => apply r_gp4
  end.
Ltac lane ::= repeat first [helper | lane1].
(** the positions are lists of the same length *)
Ltac pos H := destruct H as [|?x ?x' ?q ?q' ?Hx H]; [|destruct H as [|?y ?y' ?q ?q' ?Hy H]; [|destruct H as [|?z ?z' ?q ?q' ?Hz H]; [|destruct H as [|?w ?w' ?q ?q' ?Hw H]; [|destruct H as [|?v ?v' ?q ?q' ?Hv H]]]]]; cbn [map zipw app].

(** ** BasicGenerators.inl, Value.inl, Perlin.inl *)
Lemma r_scalepos : forall k p p', lrel p p' -> lrel (ScalePositions (s:=s) k p) (ScalePositions k p').
Proof. intros. unfold ScalePositions. lane. Qed.
Lemma r_scaleout : forall r v v' a b, rel v v' -> rel (ScaleOutput (s:=s) r v a b) (ScaleOutput r v' a b).
Proof. intros. unfold ScaleOutput. lane. Qed.
Lemma r_prod : forall p p', lrel p p' -> rel (prod_r (s:=s) p) (prod_r p').
Proof. induction 1 as [|x x' p p' Hx Hp IH]; [reflexivity|]. destruct Hp; [exact Hx|]. apply rel_map2; [exact Hx|exact IH]. Qed.
Lemma r_sum : forall p p', lrel p p' -> rel (sum_r (s:=s) p) (sum_r p').
Proof. induction 1 as [|x x' p p' Hx Hp IH]; [reflexivity|]. destruct Hp; [exact Hx|]. apply rel_map2; [exact Hx|exact IH]. Qed.
Lemma r_fold : forall A B A' B' (R : A -> A' -> Prop) (Q : B -> B' -> Prop) f f' a a' b b', (forall x x' y y', R x x' -> Q y y' -> R (f x y) (f' x' y')) -> Forall2 Q b b' -> R a a' -> R (fold_left f b a) (fold_left f' b' a').
Proof. intros A B A' B' R Q f f' a a' b b' H Hb. revert a a'. induction Hb; intros; cbn; auto. Qed.
Lemma r_distance : forall ft sq df h h' sd sd' x x' p p', hrel h h' -> rel sd sd' -> rel x x' -> lrel p p' -> rel (CalcDistance (s:=s) ft sq df h sd x p) (CalcDistance ft sq df h' sd' x' p').
Proof.
  intros. unfold CalcDistance.
  assert (Hsq : rel (fold_left (fun d p => fmadd p p d) p (x * x)%f) (fold_left (fun d p => fmadd p p d) p' (x' * x')%f)) by (eapply (r_fold _ _ _ _ rel rel); [intros; lane|eassumption|lane]).
  destruct df; [destruct sq; [apply r_fls|]; exact Hsq|exact Hsq| | | |].
  - apply rel_map2; [lane|]. apply r_sum. lane.
  - eapply (r_fold _ _ _ _ rel rel); [intros; lane|eassumption|lane].
  - eapply (r_fold _ _ _ _ rel rel); [intros; lane|eassumption|lane].
  - lane; apply r_sum; lane.
Qed.
Lemma r_constant : forall c, srel (ConstantGen c) (ConstantGen c). Proof. intros c sd sd' p p' Hs Hp. reflexivity. Qed.
Lemma r_white : forall so r, srel (WhiteGen so r) (WhiteGen so r).
Proof.
  intros so r sd sd' p p' Hs Hp. unfold WhiteGen. lane.
  eapply (lrel_zipw _ _ _ _ _ _ _ rel eq); [intros; subst; lane|exact Hp|apply Forall2_eq].
Qed.
Lemma r_checker : forall k r, srel (CheckerboardGen k r) (CheckerboardGen k r).
Proof. intros k r sd sd' p p' Hs Hp. unfold CheckerboardGen. lane; try (apply r_scalepos; exact Hp). Qed.
Lemma r_sine : forall k r, srel (SineWaveGen k r) (SineWaveGen k r).
Proof. intros k r sd sd' p p' Hs Hp. unfold SineWaveGen. lane; try (apply r_scalepos; exact Hp); apply r_prod; lane. Qed.
Lemma r_gradient : forall o o' m, Forall2 hrel o o' -> srel (GradientGen o m) (GradientGen o' m).
Proof.
  intros o o' m Ho sd sd' p p' Hs Hp. unfold GradientGen.
  eapply (r_fold _ _ _ _ rel (prel rel (prel hrel eq))); [|  |lane].
  - intros x x' [a [h k]] [a' [h' k']] Hx [Ha [Hh Hk]]. cbn [fst snd] in *. subst k'. lane.
  - assert (Hz : Forall2 (prel hrel eq) (zipw pair o m) (zipw pair o' m)).
    { clear - Ho. revert m. induction Ho; intros [|k m]; cbn; constructor; [split; auto|apply IHHo]. }
    clear - Hp Hz. revert Hz. generalize (zipw pair o m) (zipw pair o' m). intros a b Hz. revert p p' Hp. induction Hz; intros p p' Hp; destruct Hp; cbn; constructor; [split; auto|apply IHHz; assumption].
Qed.
Lemma r_dtp : forall ft df h h' o o', hrel h h' -> Forall2 hrel o o' -> srel (DistanceToPointGen ft df h o) (DistanceToPointGen ft df h' o').
Proof.
  intros ft df h h' o o' Hh Ho sd sd' p p' Hs Hp. unfold DistanceToPointGen.
  match goal with |- rel (match ?a with _ => _ end) (match ?b with _ => _ end) => assert (Hz : lrel a b) by (eapply (lrel_zipw _ _ _ _ _ _ _ rel hrel); [intros; lane|exact Hp|exact Ho]); destruct Hz end; [reflexivity|]. apply r_distance; assumption.
Qed.
Ltac lane_out := lane; try (apply r_scaleout; lane).
Lemma r_valuegen : forall so k r, srel (ValueGen so k r) (ValueGen so k r).
Proof. intros so k r sd sd' p p' Hs Hp. unfold ValueGen. pos Hp; try reflexivity; unfold ValueGen2, ValueGen3, ValueGen4; lane_out. Qed.
Lemma r_perlin : forall ft so k r, srel (PerlinGen ft so k r) (PerlinGen ft so k r).
Proof. intros ft so k r sd sd' p p' Hs Hp. unfold PerlinGen. pos Hp; try reflexivity; unfold PerlinGen2, PerlinGen3, PerlinGen4; cbv zeta; lane_out. Qed.

(** ** Fractal.inl *)
Record frel (a : fractal s L) (b : fractal s scalar) : Prop := { frl_gain : hrel (frGain a) (frGain b); frl_w : hrel (frWeight a) (frWeight b);
  frl_oct : frOctaves a = frOctaves b; frl_lac : frLacunarity a = frLacunarity b }.
Lemma r_fbm : forall fr fr' a b, frel fr fr' -> srel a b -> srel (FBmGen fr a) (FBmGen fr' b).
Proof.
  intros [g w o k] [g' w' o' k'] a b [Hg Hw Ho Hk] Hab sd sd' p p' Hs Hp. cbn in *. subst o' k'. unfold FBmGen. cbn [frGain frWeight frOctaves frLacunarity]. lane.
  repeat match goal with H : rel _ _ |- _ => revert H | H : lrel _ _ |- _ => revert H end.
  generalize (Z.to_nat (o - 1)). intros m. revert sd sd' p p' x3 x'3 x4 x'4 x2 x'2. induction m; intros; cbn [fbm_loop]; lane. eapply IHm; eassumption.
Qed.
Lemma r_ridged : forall fr fr' a b, frel fr fr' -> srel a b -> srel (RidgedGen fr a) (RidgedGen fr' b).
Proof.
  intros [g w o k] [g' w' o' k'] a b [Hg Hw Ho Hk] Hab sd sd' p p' Hs Hp. cbn in *. subst o' k'. unfold RidgedGen. cbn [frGain frWeight frOctaves frLacunarity]. lane.
  repeat match goal with H : rel _ _ |- _ => revert H | H : lrel _ _ |- _ => revert H end.
  generalize (Z.to_nat (o - 1)). intros m. revert sd sd' p p' x3 x'3 x4 x'4 x2 x'2. induction m; intros; cbn [ridged_loop]; lane. eapply IHm; eassumption.
Qed.

(** ** Blends.inl *)
Ltac node f := let sd := fresh "sd" in let sd' := fresh "sd'" in let p := fresh "p" in let p' := fresh "p'" in let Hs := fresh "Hs" in let Hp := fresh "Hp" in
  intros; intros sd sd' p p' Hs Hp; unfold f; lane.
Lemma r_add : forall a a' h h', srel a a' -> hrel h h' -> srel (AddGen a h) (AddGen a' h'). Proof. node (@AddGen). Qed.
Lemma r_sub : forall a a' h h', hrel a a' -> hrel h h' -> srel (SubtractGen a h) (SubtractGen a' h'). Proof. node (@SubtractGen). Qed.
Lemma r_mul : forall a a' h h', srel a a' -> hrel h h' -> srel (MultiplyGen a h) (MultiplyGen a' h'). Proof. node (@MultiplyGen). Qed.
Lemma r_div : forall a a' h h', hrel a a' -> hrel h h' -> srel (DivideGen a h) (DivideGen a' h'). Proof. node (@DivideGen). Qed.
Lemma r_mod : forall a a' h h', hrel a a' -> hrel h h' -> srel (ModulusGen a h) (ModulusGen a' h'). Proof. node (@ModulusGen). Qed.
Lemma r_powf : forall a a' h h', hrel a a' -> hrel h h' -> srel (PowFloatGen a h) (PowFloatGen a' h'). Proof. node (@PowFloatGen). Qed.
Lemma r_powi : forall a a' k, srel a a' -> srel (PowIntGen a k) (PowIntGen a' k).
Proof.
  intros a a' k Ha sd sd' p p' Hs Hp. unfold PowIntGen. lane. revert x0 x'0 H0. generalize (Z.to_nat (k - 2)). intros m. induction m; intros; cbn [pow_loop]; lane. apply IHm; assumption.
Qed.
Lemma r_min : forall a a' h h', srel a a' -> hrel h h' -> srel (MinGen a h) (MinGen a' h'). Proof. node (@MinGen). Qed.
Lemma r_max : forall a a' h h', srel a a' -> hrel h h' -> srel (MaxGen a h) (MaxGen a' h'). Proof. node (@MaxGen). Qed.
Lemma r_mins : forall a a' h h' g g', srel a a' -> hrel h h' -> hrel g g' -> srel (MinSmoothGen a h g) (MinSmoothGen a' h' g'). Proof. node (@MinSmoothGen). Qed.
Lemma r_maxs : forall a a' h h' g g', srel a a' -> hrel h h' -> hrel g g' -> srel (MaxSmoothGen a h g) (MaxSmoothGen a' h' g'). Proof. node (@MaxSmoothGen). Qed.
Lemma r_fade : forall a a' b b' f f' mn mn' mx mx' ip, srel a a' -> srel b b' -> hrel f f' -> hrel mn mn' -> hrel mx mx' -> srel (FadeGen a b f mn mx ip) (FadeGen a' b' f' mn' mx' ip).
Proof. intros a a' b b' f f' mn mn' mx mx' ip. destruct ip; node (@FadeGen). Qed.

(** ** Modifiers.inl *)
Lemma r_dscale : forall a a' k, srel a a' -> srel (DomainScaleGen a k) (DomainScaleGen a' k). Proof. node (@DomainScaleGen). Qed.
Lemma r_doffset : forall a a' o o', srel a a' -> Forall2 hrel o o' -> srel (DomainOffsetGen a o) (DomainOffsetGen a' o').
Proof. intros a a' o o' Ha Ho sd sd' p p' Hs Hp. unfold DomainOffsetGen. lane. eapply (lrel_zipw _ _ _ _ _ _ _ rel hrel); [intros; lane|exact Hp|exact Ho]. Qed.
Lemma r_rotate : forall a a' m, srel a a' -> srel (DomainRotateGen a m) (DomainRotateGen a' m).
Proof. intros a a' m Ha sd sd' p p' Hs Hp. unfold DomainRotateGen, DomainRotateGen3. pos Hp; lane. Qed.
Lemma r_seedoff : forall a a' k, srel a a' -> srel (SeedOffsetGen a k) (SeedOffsetGen a' k). Proof. node (@SeedOffsetGen). Qed.
Lemma r_remap : forall a a' h1 h1' h2 h2' h3 h3' h4 h4' c, srel a a' -> hrel h1 h1' -> hrel h2 h2' -> hrel h3 h3' -> hrel h4 h4' -> srel (RemapGen a h1 h2 h3 h4 c) (RemapGen a' h1' h2' h3' h4' c).
Proof. node (@RemapGen). Qed.
Lemma r_rgba : forall a a' mn mx, srel a a' -> srel (ConvertRGBA8Gen a mn mx) (ConvertRGBA8Gen a' mn mx). Proof. node (@ConvertRGBA8Gen). Qed.
Lemma r_tdiff : forall a a' b b' c c', rel a a' -> rel b b' -> rel c c' -> rel (terrace_diff (s:=s) a b c) (terrace_diff a' b' c').
Proof. intros. unfold terrace_diff. lane. Qed.
(** the only branch on more than one lane: when no lane needs smoothing, this one does not either *)
Lemma r_any : forall m m' a a' b b', rel m m' -> rel a a' -> rel b b' -> rel (if any m then fsel (s:=s) m a b else b) (if any m' then fsel m' a' b' else b').
Proof.
  intros m m' a a' b b' Hm Ha Hb. unfold rel in *. cbn [any scalar] in *. subst m' a' b'. destruct (m l) eqn:E.
  - replace (any (s:=L) m) with true; [cbn; rewrite E; reflexivity|]. symmetry. apply existsb_exists. exists l. split; [apply in_seq; lia|exact E].
  - destruct (any m); [|reflexivity]. cbn. rewrite E. reflexivity.
Qed.
Lemma r_terrace : forall a a' h h' x y z, srel a a' -> hrel h h' -> srel (TerraceGen a {| tSmoothness := h; tSmoothnessRecip := x; tStepCount := y; tStepCountRecip := z |}) (TerraceGen a' {| tSmoothness := h'; tSmoothnessRecip := x; tStepCount := y; tStepCountRecip := z |}).
Proof.
  intros a a' h h' x y z Ha Hh sd sd' p p' Hs Hp. unfold TerraceGen. cbn [tSmoothness tSmoothnessRecip tStepCount tStepCountRecip]. lane.
  destruct h as [c|g], h' as [c'|g']; cbn in Hh; try contradiction.
  - subst c'. destruct (negb (s_eq c (lit 0 0))); [|assumption]. apply rel_map2; [assumption|]. apply r_tdiff; lane.
  - eapply (slet_rel _ _ _ _ rel rel); [lane|intros]. eapply (slet_rel _ _ _ _ rel rel); [lane|intros]. apply r_any; [assumption| |assumption]. apply rel_map2; [assumption|]. apply r_tdiff; lane.
Qed.
Lemma r_pp : forall t t', rel t t' -> rel (PingPong (s:=s) t) (PingPong t'). Proof. intros. unfold PingPong. lane. Qed.
Lemma r_pingpong : forall a a' h h', srel a a' -> hrel h h' -> srel (PingPongGen a h) (PingPongGen a' h').
Proof. intros a a' h h' Ha Hh sd sd' p p' Hs Hp. unfold PingPongGen. eapply (slet_rel _ _ _ _ rel rel); [lane|intros]. apply r_pp. lane. Qed.
Lemma r_axis : forall a a' k, srel a a' -> srel (DomainAxisScaleGen a k) (DomainAxisScaleGen a' k).
Proof. intros a a' k Ha sd sd' p p' Hs Hp. unfold DomainAxisScaleGen. lane. eapply (lrel_zipw _ _ _ _ _ _ _ rel eq); [intros; subst; lane|exact Hp|apply Forall2_eq]. Qed.
Lemma r_adddim : forall a a' h h', srel a a' -> hrel h h' -> srel (AddDimensionGen a h) (AddDimensionGen a' h').
Proof. intros a a' h h' Ha Hh sd sd' p p' Hs Hp. unfold AddDimensionGen. pos Hp; lane. Qed.
Lemma r_remdim : forall a a' d, srel a a' -> srel (RemoveDimensionGen a d) (RemoveDimensionGen a' d).
Proof. intros a a' d Ha sd sd' p p' Hs Hp. unfold RemoveDimensionGen. destruct d; pos Hp; lane. Qed.
Lemma r_ssqrt : forall ft a a', srel a a' -> srel (SignedSquareRootGen ft a) (SignedSquareRootGen ft a'). Proof. node (@SignedSquareRootGen). Qed.
Lemma r_abs : forall a a', srel a a' -> srel (AbsGen a) (AbsGen a'). Proof. node (@AbsGen). Qed.
Lemma r_rotcoords : forall ty x x' y y' z z', rel x x' -> rel y y' -> rel z z' -> prel (prel rel rel) rel (RotateCoords (s:=s) ty x y z) (RotateCoords ty x' y' z').
Proof. intros ty x x' y y' z z' Hx Hy Hz. destruct ty; unfold RotateCoords, slet; (split; [split|]); cbn [fst snd]; lane. Qed.
Lemma r_rotplane : forall a a' ty, srel a a' -> srel (DomainRotatePlaneGen a ty) (DomainRotatePlaneGen a' ty).
Proof.
  intros a a' ty Ha sd sd' p p' Hs Hp. unfold DomainRotatePlaneGen.
  pos Hp; try solve [lane];
  match goal with |- rel (match RotateCoords ?t ?x ?y ?z with _ => _ end) (match RotateCoords _ ?x' ?y' ?z' with _ => _ end) =>
    let H := fresh in assert (H : prel (prel rel rel) rel (RotateCoords t x y z) (RotateCoords t x' y' z')) by (apply r_rotcoords; lane);
    destruct (RotateCoords t x y z) as [[? ?] ?], (RotateCoords t x' y' z') as [[? ?] ?]; destruct H as [[? ?] ?]; cbn [fst snd] in * end; lane.
Qed.

(** ** Warp *)
Definition wfrel (f : warp_fn s L) (g : warp_fn s scalar) : Prop :=
  forall sd sd' a a' p p' o o', rel sd sd' -> rel a a' -> lrel p p' -> lrel o o' -> prel rel lrel (f sd a p o) (g sd' a' p' o').
Record wrel (a : warp_node s L) (b : warp_node s scalar) : Prop := { wr_src : srel (wSource a) (wSource b); wr_amp : hrel (wAmplitude a) (wAmplitude b);
  wr_so : wSeedOffset a = wSeedOffset b; wr_freq : wFrequency a = wFrequency b; wr_warp : wfrel (wWarp a) (wWarp b) }.
Lemma r_g2 : forall sd sd' a a' b b' c c' w w', rel sd sd' -> rel a a' -> rel b b' -> rel c c' -> prel rel rel w w' -> prel rel rel (grad2 (s:=s) sd a b c w) (grad2 sd' a' b' c' w').
Proof. intros sd sd' a a' b b' c c' [x y] [x' y'] Hs Ha Hb Hc [Hx Hy]. cbn [fst snd] in *. unfold grad2, slet. cbn [fst snd]. split; cbn [fst snd]; lane. Qed.
Lemma r_g3 : forall sd sd' a a' b b' d d' c c' w w', rel sd sd' -> rel a a' -> rel b b' -> rel d d' -> rel c c' -> prel (prel rel rel) rel w w' -> prel (prel rel rel) rel (grad3 (s:=s) sd a b d c w) (grad3 sd' a' b' d' c' w').
Proof. intros sd sd' a a' b b' d d' c c' [[x y] z] [[x' y'] z'] Hs Ha Hb Hd Hc [[Hx Hy] Hz]. cbn [fst snd] in *. unfold grad3, slet. cbn [fst snd]. (split; [split|]); cbn [fst snd]; lane. Qed.
Lemma r_g4 : forall sd sd' a a' b b' d d' e e' c c' w w', rel sd sd' -> rel a a' -> rel b b' -> rel d d' -> rel e e' -> rel c c' -> prel (prel (prel rel rel) rel) rel w w' -> prel (prel (prel rel rel) rel) rel (grad4 (s:=s) sd a b d e c w) (grad4 sd' a' b' d' e' c' w').
Proof. intros sd sd' a a' b b' d d' e e' c c' [[[x y] z] v] [[[x' y'] z'] v'] Hs Ha Hb Hd He Hc [[[Hx Hy] Hz] Hv]. cbn [fst snd] in *. unfold grad4, slet. cbn [fst snd]. (split; [split; [split|]|]); cbn [fst snd]; lane. Qed.
Lemma r_gradwarp : forall so ax, wfrel (GradientWarp so ax) (GradientWarp so ax).
Proof.
  intros so ax sd sd' a a' p p' o o' Hs Ha Hp Ho. unfold GradientWarp.
  pos Hp; pos Ho; try (split; [reflexivity|cbn [fst snd]; lane; fail]).
  - unfold GradientWarp2. lane.
  - unfold GradientWarp3. lane. cbv zeta.
    match goal with |- prel rel lrel (match ?w with _ => _ end) (match ?w' with _ => _ end) => assert (HW : prel (prel rel rel) rel w w'); [|generalize dependent w'; generalize dependent w] end.
    { repeat (apply r_g3; [assumption|assumption|assumption|assumption|lane|]). (split; [split|]); cbn [fst snd]; lane. }
    intros [[v1 v2] v3] [[v1' v2'] v3'] [[HW1 HW2] HW3]. cbn [fst snd] in *. lane.
  - unfold GradientWarp4. lane. cbv zeta.
    match goal with |- prel rel lrel (match ?w with _ => _ end) (match ?w' with _ => _ end) => assert (HW : prel (prel (prel rel rel) rel) rel w w'); [|generalize dependent w'; generalize dependent w] end.
    { repeat (apply r_g4; [assumption|assumption|assumption|assumption|assumption|lane|]). (split; [split; [split|]|]); cbn [fst snd]; lane. }
    intros [[[v1 v2] v3] v4] [[[v1' v2'] v3'] v4'] [[[HW1 HW2] HW3] HW4]. cbn [fst snd] in *. lane.
Qed.
Lemma r_warp : forall a b, wrel a b -> srel (DomainWarpGen a) (DomainWarpGen b).
Proof.
  intros [sr am ax so k f] [sr' am' ax' so' k' f'] [H1 H2 H3 H4 H5] sd sd' p p' Hs Hp. cbn in *. subst. unfold DomainWarpGen. cbn [wSource wAmplitude wSeedOffset wFrequency wWarp]. lane.
  cbv zeta. lane. apply H5; lane.
Qed.
Lemma r_ploop : forall ft m wp wp' g g' ws ws' la la', wfrel wp wp' -> rel g g' -> rel ws ws' -> rel la la' ->
  forall sd sd' am am' fq fq' st st' q q', rel sd sd' -> rel am am' -> rel fq fq' -> rel st st' -> lrel q q' ->
  lrel (progressive_loop ft m wp g ws la sd am fq st q) (progressive_loop ft m wp' g' ws' la' sd' am' fq' st' q').
Proof.
  intros ft m wp wp' g g' ws ws' la la' Hwp Hg Hws Hla. induction m as [|m IH]; intros; cbn [progressive_loop]; [assumption|].
  do 5 (eapply (slet_rel _ _ _ _ rel lrel); [lane|intros]). cbv zeta.
  match goal with |- lrel (progressive_loop _ _ _ _ _ _ _ _ _ (fst ?r) _) (progressive_loop _ _ _ _ _ _ _ _ _ (fst ?r') _) => assert (HR : prel rel lrel r r') by (apply Hwp; lane); destruct HR end.
  apply IH; assumption.
Qed.
Lemma r_iloop : forall ft m wp wp' g g' ws ws' la la' n0 n0', wfrel wp wp' -> rel g g' -> rel ws ws' -> rel la la' -> lrel n0 n0' ->
  forall sd sd' am am' fq fq' st st' q q', rel sd sd' -> rel am am' -> rel fq fq' -> rel st st' -> lrel q q' ->
  lrel (independent_loop ft m wp g ws la sd am fq st n0 q) (independent_loop ft m wp' g' ws' la' sd' am' fq' st' n0' q').
Proof.
  intros ft m wp wp' g g' ws ws' la la' n0 n0' Hwp Hg Hws Hla Hn0. induction m as [|m IH]; intros; cbn [independent_loop]; [assumption|].
  do 5 (eapply (slet_rel _ _ _ _ rel lrel); [lane|intros]). cbv zeta.
  match goal with |- lrel (independent_loop _ _ _ _ _ _ _ _ _ (fst ?r) _ _) (independent_loop _ _ _ _ _ _ _ _ _ (fst ?r') _ _) => assert (HR : prel rel lrel r r') by (apply Hwp; lane); destruct HR end.
  apply IH; assumption.
Qed.
Lemma r_progressive : forall ft fr fr' a b, frel fr fr' -> wrel a b -> srel (DomainWarpFractalProgressiveGen ft fr a) (DomainWarpFractalProgressiveGen ft fr' b).
Proof.
  intros ft [g w o k] [g' w' o' k'] [sr am ax so f wp] [sr' am' ax' so' f' wp'] [Hg Hw Ho Hk] [H1 H2 H3 H4 H5] sd sd' p p' Hs Hp. cbn in Hg, Hw, Ho, Hk, H1, H2, H3, H4, H5. subst.
  unfold DomainWarpFractalProgressiveGen, slet. cbn [wSource wAmplitude wSeedOffset wFrequency wWarp frGain frWeight frOctaves frLacunarity]. cbv zeta.
  match goal with |- rel (sr _ (progressive_loop _ _ _ _ _ _ _ _ _ (fst ?r) _)) (sr' _ (progressive_loop _ _ _ _ _ _ _ _ _ (fst ?r') _)) => assert (HR : prel rel lrel r r') by (apply H5; lane); destruct HR end.
  apply H1; [exact Hs|]. apply r_ploop; try assumption; lane.
Qed.
Lemma r_independent : forall ft fr fr' a b, frel fr fr' -> wrel a b -> srel (DomainWarpFractalIndependentGen ft fr a) (DomainWarpFractalIndependentGen ft fr' b).
Proof.
  intros ft [g w o k] [g' w' o' k'] [sr am ax so f wp] [sr' am' ax' so' f' wp'] [Hg Hw Ho Hk] [H1 H2 H3 H4 H5] sd sd' p p' Hs Hp. cbn in Hg, Hw, Ho, Hk, H1, H2, H3, H4, H5. subst.
  unfold DomainWarpFractalIndependentGen, slet. cbn [wSource wAmplitude wSeedOffset wFrequency wWarp frGain frWeight frOctaves frLacunarity]. cbv zeta.
  match goal with |- rel (sr _ (independent_loop _ _ _ _ _ _ _ _ _ (fst ?r) _ _)) (sr' _ (independent_loop _ _ _ _ _ _ _ _ _ (fst ?r') _ _)) => assert (HR : prel rel lrel r r') by (apply H5; lane); destruct HR end.
  apply H1; [exact Hs|]. apply r_iloop; try assumption; lane.
Qed.

(** ** Cellular.inl *)
Definition cprel := prel (rel (A:=Z)) (lrel (A:=V s)).
Lemma r_cell2 : forall sd sd' j j' a a' b b' x x' y y', rel sd sd' -> rel j j' -> rel a a' -> rel b b' -> rel x x' -> rel y y' -> cprel (cell2 sd j a b x y) (cell2 sd' j' a' b' x' y').
Proof. intros. unfold cell2, cprel. lane. Qed.
Lemma r_cell3 : forall sd sd' j j' a a' b b' c c' x x' y y' z z', rel sd sd' -> rel j j' -> rel a a' -> rel b b' -> rel c c' -> rel x x' -> rel y y' -> rel z z' -> cprel (cell3 sd j a b c x y z) (cell3 sd' j' a' b' c' x' y' z').
Proof. intros. unfold cell3, cprel. lane. Qed.
Lemma r_cell4 : forall sd sd' j j' a a' b b' c c' d d' x x' y y' z z' w w', rel sd sd' -> rel j j' -> rel a a' -> rel b b' -> rel c c' -> rel d d' -> rel x x' -> rel y y' -> rel z z' -> rel w w' -> cprel (cell4 sd j a b c d x y z w) (cell4 sd' j' a' b' c' d' x' y' z' w').
Proof. intros. unfold cell4, cprel. lane. Qed.
Lemma iter_rel : forall A A' (R : A -> A' -> Prop) m b b', (forall x x', R x x' -> R (b x) (b' x')) -> forall x x', R x x' -> R (iter m b x) (iter m b' x').
Proof. induction m; cbn; intros; auto. Qed.
Section RVisit.
Context {A A' : Type} (R : A -> A' -> Prop) (v : A -> I L -> list (F s L) -> A) (v' : A' -> I scalar -> list (F s scalar) -> A').
Hypothesis Hv : forall a a' h h' d d', R a a' -> rel h h' -> lrel d d' -> R (v a h d) (v' a' h' d').
Definition frr (f : F s L -> F s L) (f' : F s scalar -> F s scalar) : Prop := forall x x', rel x x' -> rel (f x) (f' x').
Definition strel (a : F s L * I L * A) (b : F s scalar * I scalar * A') : Prop := prel (prel rel rel) R a b.
Lemma r_loop : forall (f : F s L * I L * A -> F s L * I L * A) (f' : F s scalar * I scalar * A' -> F s scalar * I scalar * A') (g : F s L -> I L -> A -> A) (g' : F s scalar -> I scalar -> A' -> A') p (x : F s L) (x' : F s scalar) (a : I L) (a' : I scalar) t t',
  (forall (x : F s L) (x' : F s scalar) (a : I L) (a' : I scalar) t t', rel x x' -> rel a a' -> R t t' -> R (g x a t) (g' x' a' t')) -> rel x x' -> rel a a' -> R t t' ->
  (forall st, f st = let '(x, a, t) := st in ((x + num 1)%f, iadd a (iv p), g x a t)) -> (forall st, f' st = let '(x, a, t) := st in ((x + num 1)%f, iadd a (iv p), g' x a t)) ->
  R (snd (iter 3 f (x, a, t))) (snd (iter 3 f' (x', a', t'))).
Proof.
  intros f f' g g' p x x' a a' t t' Hg Hx Ha Ht Hf Hf'.
  refine (proj2 (iter_rel _ _ strel 3 f f' _ (x, a, t) (x', a', t') _)); [|split; [split|]; assumption].
  intros [[x1 a1] t1] [[x1' a1'] t1'] [[H1 H2] H3]. cbn [fst snd] in *. rewrite Hf, Hf'. split; [split|]; cbn [fst snd]; lane. apply Hg; assumption.
Qed.
Ltac stp := let st := fresh in intros st; destruct st as [[? ?] ?]; reflexivity.
Lemma r_cells2 : forall sd sd' j j' rx rx' ry ry' a a' b b' x x' y y' t t', rel sd sd' -> rel j j' -> frr rx rx' -> frr ry ry' -> rel a a' -> rel b b' -> rel x x' -> rel y y' -> R t t' ->
  R (cells2 v sd j rx ry a b x y t) (cells2 v' sd' j' rx' ry' a' b' x' y' t').
Proof.
  intros sd sd' j j' rx rx' ry ry' a a' b b' x x' y y' t t' Hs Hj Hrx Hry Ha Hb Hx Hy Ht. unfold cells2.
  eapply (r_loop _ _ (fun xcf xc acc => _) (fun xcf xc acc => _)); [|exact Hx|exact Ha|exact Ht|stp|stp]. clear t t' Ht. intros x1 x1' a1 a1' t t' Hx1 Ha1 Ht. cbv beta.
  eapply (r_loop _ _ (fun ycf yc acc => v acc (fst (cell2 sd j a1 yc (rx x1) (ry ycf))) (snd (cell2 sd j a1 yc (rx x1) (ry ycf)))) (fun ycf yc acc => v' acc (fst (cell2 sd' j' a1' yc (rx' x1') (ry' ycf))) (snd (cell2 sd' j' a1' yc (rx' x1') (ry' ycf))))); [|exact Hy|exact Hb|exact Ht|stp|stp].
  intros. edestruct (r_cell2 sd sd' j j') as [Hh Hd]; [| | | | | |apply Hv; [assumption|exact Hh|exact Hd]]; auto.
Qed.
Lemma r_cells3 : forall sd sd' j j' rx rx' ry ry' rz rz' a a' b b' c c' x x' y y' z z' t t', rel sd sd' -> rel j j' -> frr rx rx' -> frr ry ry' -> frr rz rz' -> rel a a' -> rel b b' -> rel c c' -> rel x x' -> rel y y' -> rel z z' -> R t t' ->
  R (cells3 v sd j rx ry rz a b c x y z t) (cells3 v' sd' j' rx' ry' rz' a' b' c' x' y' z' t').
Proof.
  intros sd sd' j j' rx rx' ry ry' rz rz' a a' b b' c c' x x' y y' z z' t t' Hs Hj Hrx Hry Hrz Ha Hb Hc Hx Hy Hz Ht. unfold cells3.
  eapply (r_loop _ _ (fun xcf xc acc => _) (fun xcf xc acc => _)); [|exact Hx|exact Ha|exact Ht|stp|stp]. clear t t' Ht. intros x1 x1' a1 a1' t t' Hx1 Ha1 Ht. cbv beta.
  eapply (r_loop _ _ (fun xcf xc acc => _) (fun xcf xc acc => _)); [|exact Hy|exact Hb|exact Ht|stp|stp]. clear t t' Ht. intros x2 x2' a2 a2' t t' Hx2 Ha2 Ht. cbv beta.
  eapply (r_loop _ _ (fun zcf zc acc => v acc (fst (cell3 sd j a1 a2 zc (rx x1) (ry x2) (rz zcf))) (snd (cell3 sd j a1 a2 zc (rx x1) (ry x2) (rz zcf)))) (fun zcf zc acc => v' acc (fst (cell3 sd' j' a1' a2' zc (rx' x1') (ry' x2') (rz' zcf))) (snd (cell3 sd' j' a1' a2' zc (rx' x1') (ry' x2') (rz' zcf))))); [|exact Hz|exact Hc|exact Ht|stp|stp].
  intros. edestruct (r_cell3 sd sd' j j') as [Hh Hd]; [| | | | | | | |apply Hv; [assumption|exact Hh|exact Hd]]; auto.
Qed.
Lemma r_cells4 : forall sd sd' j j' rx rx' ry ry' rz rz' rw rw' a a' b b' c c' d d' x x' y y' z z' w w' t t', rel sd sd' -> rel j j' -> frr rx rx' -> frr ry ry' -> frr rz rz' -> frr rw rw' -> rel a a' -> rel b b' -> rel c c' -> rel d d' -> rel x x' -> rel y y' -> rel z z' -> rel w w' -> R t t' ->
  R (cells4 v sd j rx ry rz rw a b c d x y z w t) (cells4 v' sd' j' rx' ry' rz' rw' a' b' c' d' x' y' z' w' t').
Proof.
  intros sd sd' j j' rx rx' ry ry' rz rz' rw rw' a a' b b' c c' d d' x x' y y' z z' w w' t t' Hs Hj Hrx Hry Hrz Hrw Ha Hb Hc Hd Hx Hy Hz Hw Ht. unfold cells4.
  eapply (r_loop _ _ (fun xcf xc acc => _) (fun xcf xc acc => _)); [|exact Hx|exact Ha|exact Ht|stp|stp]. clear t t' Ht. intros x1 x1' a1 a1' t t' Hx1 Ha1 Ht. cbv beta.
  eapply (r_loop _ _ (fun xcf xc acc => _) (fun xcf xc acc => _)); [|exact Hy|exact Hb|exact Ht|stp|stp]. clear t t' Ht. intros x2 x2' a2 a2' t t' Hx2 Ha2 Ht. cbv beta.
  eapply (r_loop _ _ (fun xcf xc acc => _) (fun xcf xc acc => _)); [|exact Hz|exact Hc|exact Ht|stp|stp]. clear t t' Ht. intros x3 x3' a3 a3' t t' Hx3 Ha3 Ht. cbv beta.
  eapply (r_loop _ _ (fun zcf zc acc => v acc (fst (cell4 sd j a1 a2 a3 zc (rx x1) (ry x2) (rz x3) (rw zcf))) (snd (cell4 sd j a1 a2 a3 zc (rx x1) (ry x2) (rz x3) (rw zcf)))) (fun zcf zc acc => v' acc (fst (cell4 sd' j' a1' a2' a3' zc (rx' x1') (ry' x2') (rz' x3') (rw' zcf))) (snd (cell4 sd' j' a1' a2' a3' zc (rx' x1') (ry' x2') (rz' x3') (rw' zcf))))); [|exact Hw|exact Hd|exact Ht|stp|stp].
  intros. edestruct (r_cell4 sd sd' j j') as [Hh Hd']; [| | | | | | | | | |apply Hv; [assumption|exact Hh|exact Hd']]; auto.
Qed.
End RVisit.
Record crel (a : cellular s L) (b : cellular s scalar) : Prop := { cr_d : clDist a = clDist b; cr_m : hrel (clMinkowski a) (clMinkowski b); cr_g : hrel (clGrid a) (clGrid b);
  cr_s : hrel (clSize a) (clSize b); cr_so : clSeedOffset a = clSeedOffset b; cr_f : clFrequency a = clFrequency b; cr_sc : clScale a = clScale b }.
Lemma r_active : forall h h', hrel h h' -> sizeJitterActive h = sizeJitterActive h'.
Proof. intros [c|f] [c'|f'] H; cbn in *; try contradiction; [subst; reflexivity|reflexivity]. Qed.
Lemma r_cdist : forall ft sq cl cl' sd sd' d d', crel cl cl' -> rel sd sd' -> lrel d d' -> rel (cellDistance ft sq cl sd d) (cellDistance ft sq cl' sd' d').
Proof. intros ft sq cl cl' sd sd' d d' H Hs Hd. unfold cellDistance. destruct Hd; [reflexivity|]. rewrite (cr_d _ _ H). apply r_distance; try assumption. apply H. Qed.
Lemma r_sj2 : forall ac j j' h h' d d', rel j j' -> rel h h' -> rel d d' -> rel (SizeJitter2 (s:=s) ac j h d) (SizeJitter2 ac j' h' d').
Proof. intros. unfold SizeJitter2. lane. Qed.
Lemma r_sj3 : forall ac j j' h h' d d', rel j j' -> rel h h' -> rel d d' -> rel (SizeJitter3 (s:=s) ac j h d) (SizeJitter3 ac j' h' d').
Proof. intros. unfold SizeJitter3. lane. Qed.
Lemma r_sj4 : forall ac j j' h h' d d', rel j j' -> rel h h' -> rel d d' -> rel (SizeJitter4 (s:=s) ac j h d) (SizeJitter4 ac j' h' d').
Proof. intros. unfold SizeJitter4. lane. Qed.
Definition vrel := prel (lrel (A:=V s)) (lrel (A:=Z)).
Lemma r_insert : forall m d d' h h' nd nd' nh nh', lrel d d' -> lrel h h' -> rel nd nd' -> rel nh nh' -> vrel (insert_value m d h nd nh) (insert_value m d' h' nd' nh').
Proof.
  induction m as [|m IH]; intros d d' h h' nd nd' nh nh' Hd Hh Hnd Hnh; destruct Hd as [|x x' d d' Hx Hd]; cbn [insert_value]; try (split; [constructor|assumption]);
  destruct Hh as [|y y' h h' Hy Hh]; cbn [insert_value]; try (split; [constructor; assumption|constructor]); cbv zeta.
  - split; cbn [fst snd]; lane.
  - assert (HI : vrel (insert_value m d h (fsel (flt nd x) x nd) (isel (flt nd x) y nh)) (insert_value m d' h' (fsel (flt nd' x') x' nd') (isel (flt nd' x') y' nh'))) by (apply IH; lane).
    destruct (insert_value m d h _ _), (insert_value m d' h' _ _). destruct HI. cbn [fst snd] in *. split; cbn [fst snd]; lane.
Qed.
Lemma lrel_repeat : forall A (c : A) k, lrel (repeat (@pure L A c) k) (repeat (@pure scalar A c) k). Proof. induction k; constructor; [reflexivity|exact IHk]. Qed.
Lemma lrel_upd : forall A (a : list (T L A)) a' k x x', lrel a a' -> rel x x' -> lrel (upd a k x) (upd a' k x').
Proof. intros A a a' k x x' H Hx. revert k. induction H; intros [|k]; cbn; constructor; auto; apply IHForall2. Qed.
Lemma lrel_firstn : forall A (a : list (T L A)) a' k, lrel a a' -> lrel (firstn k a) (firstn k a').
Proof. intros A a a' k H. revert k. induction H; intros [|k]; cbn; constructor; auto; apply IHForall2. Qed.
Lemma r_iloop2 : forall i d d' nd nd', lrel d d' -> rel nd nd' -> lrel (insert_loop (s:=s) i d nd) (insert_loop i d' nd').
Proof. induction i; intros; cbn [insert_loop]; [assumption|]. apply IHi; [|assumption]. apply lrel_upd; lane. Qed.
Lemma r_insd : forall d d' nd nd', lrel d d' -> rel nd nd' -> lrel (insert_dist (s:=s) d nd) (insert_dist d' nd').
Proof. intros. unfold insert_dist. assert (lrel (insert_loop 3 d nd) (insert_loop 3 d' nd')) by (apply r_iloop2; assumption). apply lrel_upd; lane. Qed.
Lemma r_getret : forall cl cl' r rt i0 i1 d d' mx, crel cl cl' -> lrel d d' -> rel (GetReturn cl r rt i0 i1 d mx) (GetReturn cl' r rt i0 i1 d' mx).
Proof.
  intros cl cl' r rt i0 i1 d d' mx Hc Hd. unfold GetReturn. rewrite (cr_d _ _ Hc). cbv zeta. destruct (isEuclidean (clDist cl')).
  - destruct rt; apply r_scaleout; repeat first [progress lane | apply lrel_upd].
  - destruct rt; apply r_scaleout; lane.
Qed.
Ltac sl := eapply (slet_rel _ _ _ _ rel rel); [lane|intros].
Ltac cellular_setup Hc := let H1 := fresh in let H2 := fresh in let H3 := fresh in
  pose proof (cr_g _ _ Hc) as H1; pose proof (cr_s _ _ Hc) as H2; pose proof (r_active _ _ H2) as H3; rewrite (cr_so _ _ Hc), (cr_f _ _ Hc), ?(cr_sc _ _ Hc), H3; clear H3.
Ltac vis := intros; cbn beta; match goal with |- rel (SizeJitter2 _ _ _ _) _ => apply r_sj2 | |- rel (SizeJitter3 _ _ _ _) _ => apply r_sj3 | |- rel (SizeJitter4 _ _ _ _) _ => apply r_sj4 end; [assumption|assumption|apply r_cdist; assumption].
Ltac idf := let x := fresh in intros x ? ?; lane.
Ltac sv := match goal with |- lrel (snd ?a) (snd ?b) => refine (proj2 (_ : vrel a b)) end.
Lemma r_cvalue : forall ft ju ju' cl cl' r k, lrel ju ju' -> crel cl cl' -> srel (CellularValueGen ft ju cl r k) (CellularValueGen ft ju' cl' r k).
Proof.
  intros ft ju ju' cl cl' r k Hj Hc sd sd' p p' Hs Hp. unfold CellularValueGen. cellular_setup Hc. do 2 sl. cbv zeta.
  pos Hp; [reflexivity|reflexivity| | | |reflexivity].
  - do 4 sl. apply r_scaleout; apply rel_map1; apply lrel_nth; [sv|reflexivity].
    eapply (r_cells2 vrel); [intros ? ? ? ? ? ? [? ?] ? ?; apply r_insert; [assumption|assumption|vis|assumption]|lane|lane|idf|idf|lane|lane|lane|lane|split; [apply lrel_repeat|assumption]].
  - do 5 sl. apply r_scaleout; apply rel_map1; apply lrel_nth; [sv|reflexivity].
    eapply (r_cells3 vrel); [intros ? ? ? ? ? ? [? ?] ? ?; apply r_insert; [assumption|assumption|vis|assumption]|lane|lane|idf|idf|idf|lane|lane|lane|lane|lane|lane|split; [apply lrel_repeat|assumption]].
  - do 6 sl. apply r_scaleout; apply rel_map1; apply lrel_nth; [sv|reflexivity].
    eapply (r_cells4 vrel); [intros ? ? ? ? ? ? [? ?] ? ?; apply r_insert; [assumption|assumption|vis|assumption]|lane|lane|idf|idf|idf|idf|lane|lane|lane|lane|lane|lane|lane|lane|split; [apply lrel_repeat|assumption]].
Qed.
Lemma r_cdistance : forall ft cl cl' r rt i0 i1, crel cl cl' -> srel (CellularDistanceGen ft cl r rt i0 i1) (CellularDistanceGen ft cl' r rt i0 i1).
Proof.
  intros ft cl cl' r rt i0 i1 Hc sd sd' p p' Hs Hp. unfold CellularDistanceGen. cellular_setup Hc. do 2 sl. cbv zeta.
  pos Hp; [reflexivity|reflexivity| | | |reflexivity].
  - do 4 sl. apply r_getret; [assumption|].
    eapply (r_cells2 (lrel (A:=V s))); [intros ? ? ? ? ? ? ? ? ?; apply r_insd; [assumption|vis]|lane|lane|idf|idf|lane|lane|lane|lane|apply lrel_repeat].
  - do 5 sl. apply r_getret; [assumption|].
    eapply (r_cells3 (lrel (A:=V s))); [intros ? ? ? ? ? ? ? ? ?; apply r_insd; [assumption|vis]|lane|lane|idf|idf|idf|lane|lane|lane|lane|lane|lane|apply lrel_repeat].
  - do 6 sl. apply r_getret; [assumption|].
    eapply (r_cells4 (lrel (A:=V s))); [intros ? ? ? ? ? ? ? ? ?; apply r_insd; [assumption|vis]|lane|lane|idf|idf|idf|idf|lane|lane|lane|lane|lane|lane|lane|lane|apply lrel_repeat].
Qed.
Definition lkrel := prel (rel (A:=V s)) (lrel (A:=V s)).
Lemma r_lkvisit : forall nd nd' p p' st st' h h' c c', (forall a a' h h', lrel a a' -> rel h h' -> rel (nd a h) (nd' a' h')) -> lrel p p' -> lkrel st st' -> rel h h' -> lrel c c' ->
  lkrel (lookup_visit nd p st h c) (lookup_visit nd' p' st' h' c').
Proof.
  intros nd nd' p p' [a b] [a' b'] h h' c c' Hn Hp [Ha Hb] Hh Hc. cbn [fst snd] in *. unfold lookup_visit. cbn [fst snd].
  eapply (slet_rel _ _ _ _ rel lkrel); [apply Hn; [eapply (lrel_zipw _ _ _ _ _ _ _ rel rel); [intros; lane|assumption|assumption]|assumption]|intros].
  eapply (slet_rel _ _ _ _ rel lkrel); [lane|intros]. split; cbn [fst snd]; [lane|]. eapply (lrel_zipw _ _ _ _ _ _ _ rel rel); [intros; lane|assumption|assumption].
Qed.
Ltac sk := match goal with |- lrel (snd ?a) (snd ?b) => refine (proj2 (_ : lkrel a b)) end.
Ltac st0 := split; cbn [fst snd]; [lane|apply lrel_firstn; assumption].
Lemma r_clookup : forall ft ju ju' cl cl' a a', lrel ju ju' -> crel cl cl' -> srel a a' -> srel (CellularLookupGen ft ju cl a) (CellularLookupGen ft ju' cl' a').
Proof.
  intros ft ju ju' cl cl' a a' Hj Hc Ha sd sd' p p' Hs Hp. unfold CellularLookupGen. cellular_setup Hc. do 2 sl. cbv zeta.
  pos Hp; [reflexivity|reflexivity| | | |reflexivity].
  - do 4 sl. (apply Ha; [lane|]); (apply lrel_map; [intros; lane|]). sk.
    eapply (r_cells2 lkrel); [intros ? ? ? ? ? ? ? ? ?; apply r_lkvisit; [vis|lane|assumption|assumption|assumption]|lane|lane|idf|idf|lane|lane|lane|lane|st0].
  - do 5 sl. (apply Ha; [lane|]); (apply lrel_map; [intros; lane|]). sk.
    eapply (r_cells3 lkrel); [intros ? ? ? ? ? ? ? ? ?; apply r_lkvisit; [vis|lane|assumption|assumption|assumption]|lane|lane|idf|idf|idf|lane|lane|lane|lane|lane|lane|st0].
  - do 6 sl. (apply Ha; [lane|]); (apply lrel_map; [intros; lane|]). sk.
    eapply (r_cells4 lkrel); [intros ? ? ? ? ? ? ? ? ?; apply r_lkvisit; [vis|lane|assumption|assumption|assumption]|lane|lane|idf|idf|idf|idf|lane|lane|lane|lane|lane|lane|lane|lane|st0].
Qed.

(** ** Simplex.inl *)
Definition krel (a : contrib s L) (b : contrib s scalar) : Prop := lrel (cp a) (cp b) /\ lrel (cd a) (cd b) /\ rel (cf a) (cf b).
Definition klrel (a : list (contrib s L)) (b : list (contrib s scalar)) : Prop := Forall2 krel a b.
Lemma k_mkc : forall p p' d d' f f', lrel p p' -> lrel d d' -> rel f f' -> krel (mkc p d f) (mkc p' d' f'). Proof. intros. split; [|split]; assumption. Qed.
Lemma k_nil : klrel [] []. Proof. constructor. Qed.
Lemma k_cons : forall x x' a a', krel x x' -> klrel a a' -> klrel (x :: a) (x' :: a'). Proof. constructor; assumption. Qed.
Ltac klane1 :=
  match goal with
  | |- krel _ _ => assumption
  | |- krel (mkc _ _ _) _ => apply k_mkc
  | |- klrel [] _ => apply k_nil
  | |- klrel (_ :: _) _ => apply k_cons
  | |- klrel (slet _ _) _ => first [eapply (slet_rel _ _ _ _ rel klrel) | eapply (slet_rel _ _ _ _ krel klrel)]; [|intros ? ? ?]
  end.
Ltac klane := repeat first [klane1 | helper | lane1].
Lemma r_sx2 : forall K x x' y y', rel x x' -> rel y y' -> klrel (simplex2 K x y) (simplex2 K x' y').
Proof. intros. unfold simplex2, simplex2_at. klane. Qed.
Lemma r_sx3 : forall K x x' y y' z z', rel x x' -> rel y y' -> rel z z' -> klrel (simplex3 K x y z) (simplex3 K x' y' z').
Proof. intros. unfold simplex3, simplex3_at. klane. Qed.
Lemma r_sx4 : forall K x x' y y' z z' w w', rel x x' -> rel y y' -> rel z z' -> rel w w' -> klrel (simplex4 K x y z w) (simplex4 K x' y' z' w').
Proof. intros. unfold simplex4, simplex4_at. klane. Qed.
Lemma r_ss2 : forall K x x' y y', rel x x' -> rel y y' -> klrel (supersimplex2 K x y) (supersimplex2 K x' y').
Proof. intros. unfold supersimplex2, supersimplex2_at, supersimplex2_v1, supersimplex2_v2, supersimplex2_v3. klane. Qed.
Lemma r_near3 : forall x x' y y' z z', rel x x' -> rel y y' -> rel z z' -> rel (supersimplex3_near (s:=s) x y z) (supersimplex3_near x' y' z').
Proof. intros. unfold supersimplex3_near. lane. Qed.
Lemma r_near4 : forall K x x' y y' z z' w w', rel x x' -> rel y y' -> rel z z' -> rel w w' -> rel (supersimplex4_near (s:=s) K x y z w) (supersimplex4_near K x' y' z' w').
Proof. intros. unfold supersimplex4_near. lane. Qed.
Ltac klane ::= repeat first [klane1 | helper | match goal with |- rel (supersimplex3_near _ _ _) _ => apply r_near3 | |- rel (supersimplex4_near _ _ _ _ _) _ => apply r_near4 end | lane1].
Lemma r_ss3 : forall K x x' y y' z z', rel x x' -> rel y y' -> rel z z' -> klrel (supersimplex3 K x y z) (supersimplex3 K x' y' z').
Proof. intros. unfold supersimplex3, supersimplex3_at, supersimplex3_v1, supersimplex3_v2, supersimplex3_v3, supersimplex3_v4, supersimplex3_v5, supersimplex3_v6, supersimplex3_v7. klane. Qed.
Lemma r_ss4 : forall K x x' y y' z z' w w', rel x x' -> rel y y' -> rel z z' -> rel w w' -> klrel (supersimplex4 K x y z w) (supersimplex4 K x' y' z' w').
Proof.
  intros. unfold supersimplex4, supersimplex4_at, supersimplex4_v1, supersimplex4_v2, supersimplex4_v3, supersimplex4_v4, supersimplex4_v5, supersimplex4_v6, supersimplex4_v7,
    supersimplex4_v8, supersimplex4_v9, supersimplex4_v10, supersimplex4_v11, supersimplex4_v12, supersimplex4_v13, supersimplex4_v14, supersimplex4_v15. klane.
Qed.
Lemma r_ramp : forall ft sd sd' c c', rel sd sd' -> krel c c' -> rel (ramp ft sd c) (ramp ft sd' c').
Proof. intros ft sd sd' [p d f] [p' d' f'] Hs [Hp [Hd Hf]]. cbn [cp cd cf] in *. unfold ramp. cbn [cp cd cf]. pos Hd; lane. Qed.
Lemma k_cf : forall c c', krel c c' -> rel (cf c) (cf c'). Proof. intros c c' H. apply H. Qed.
Ltac vlane := repeat first [match goal with |- rel (ramp _ _ _) _ => apply r_ramp; [assumption|assumption] | |- rel (cf _) _ => apply k_cf; assumption end | lane1].
Lemma r_val2 : forall ft sd sd' c c', rel sd sd' -> klrel c c' -> rel (value2 ft sd c) (value2 ft sd' c').
Proof. intros ft sd sd' c c' Hs Hc. unfold value2. do 4 (destruct Hc as [|? ? ? ? ? Hc]; try reflexivity). vlane. Qed.
Lemma r_val3 : forall ft sd sd' c c', rel sd sd' -> klrel c c' -> rel (value3 ft sd c) (value3 ft sd' c').
Proof. intros ft sd sd' c c' Hs Hc. unfold value3. do 5 (destruct Hc as [|? ? ? ? ? Hc]; try reflexivity). vlane. Qed.
Lemma r_val4 : forall ft sd sd' c c', rel sd sd' -> klrel c c' -> rel (value4 ft sd c) (value4 ft sd' c').
Proof. intros ft sd sd' c c' Hs Hc. unfold value4. do 6 (destruct Hc as [|? ? ? ? ? Hc]; try reflexivity). vlane. Qed.
Lemma r_vacc : forall ft sd sd' c c', rel sd sd' -> klrel c c' -> rel (value_acc ft sd c) (value_acc ft sd' c').
Proof. intros ft sd sd' c c' Hs Hc. unfold value_acc. destruct Hc as [|? ? ? ? ? Hc]; [reflexivity|]. eapply (r_fold _ _ _ _ rel krel); [intros; vlane|exact Hc|vlane]. Qed.
Lemma r_simplex : forall ft so k r, srel (SimplexGen ft so k r) (SimplexGen ft so k r).
Proof.
  intros ft so k r sd sd' p p' Hs Hp. unfold SimplexGen. pos Hp; [reflexivity|reflexivity| | | |reflexivity]; unfold SimplexGen2, SimplexGen3, SimplexGen4; repeat (match goal with |- rel (slet _ _) _ => eapply (slet_rel _ _ _ _ rel rel); [lane|intros] end); apply r_scaleout.
  - apply r_val2; [assumption|apply r_sx2; assumption].
  - apply r_val3; [assumption|apply r_sx3; assumption].
  - apply r_val4; [assumption|apply r_sx4; assumption].
Qed.
Lemma r_super : forall ft so k r, srel (SuperSimplexGen ft so k r) (SuperSimplexGen ft so k r).
Proof.
  intros ft so k r sd sd' p p' Hs Hp. unfold SuperSimplexGen. pos Hp; [reflexivity|reflexivity| | | |reflexivity]; unfold SuperSimplexGen2, SuperSimplexGen3, SuperSimplexGen4; repeat (match goal with |- rel (slet _ _) _ => eapply (slet_rel _ _ _ _ rel rel); [lane|intros] end); apply r_scaleout; (apply r_vacc; [assumption|]).
  - apply r_ss2; assumption.
  - apply r_ss3; assumption.
  - apply r_ss4; assumption.
Qed.

(** ** DomainWarpSimplex.inl *)
Notation p2 := (prel (rel (A:=V s)) (rel (A:=V s))).
Notation p3 := (prel p2 (rel (A:=V s))).
Notation p4 := (prel p3 (rel (A:=V s))).
Notation p44 := (prel (prel (prel p4 p4) p4) p4).
Ltac tup := match goal with
  | |- prel _ _ (if ?b then _ else _) (if ?b then _ else _) => destruct b
  end.
Ltac tlane := repeat first [tup | helper | lane1].
Lemma r_outer2 : forall ft h h' x x' y y' m m' a a' b b', rel h h' -> rel x x' -> rel y y' -> rel m m' -> rel a a' -> rel b b' ->
  p2 (ApplyGradientOuterProductVectorProductSimplex2 ft h x y m a b) (ApplyGradientOuterProductVectorProductSimplex2 ft h' x' y' m' a' b').
Proof. intros. unfold ApplyGradientOuterProductVectorProductSimplex2. cbv zeta. tlane. Qed.
Lemma r_outer3 : forall ft h h' x x' y y' z z' m m' a a' b b' c c', rel h h' -> rel x x' -> rel y y' -> rel z z' -> rel m m' -> rel a a' -> rel b b' -> rel c c' ->
  p3 (ApplyGradientOuterProductVectorProductCommon3 ft h x y z m a b c) (ApplyGradientOuterProductVectorProductCommon3 ft h' x' y' z' m' a' b' c').
Proof. intros. unfold ApplyGradientOuterProductVectorProductCommon3. cbv zeta. tlane. Qed.
Lemma r_outer4v : forall i i', rel i i' -> p4 (outer4_vector (s:=s) i) (outer4_vector i').
Proof. intros. unfold outer4_vector. tlane. Qed.
Ltac split4 lem := match goal with |- ?P (match ?a with _ => _ end) (match ?b with _ => _ end) =>
  let H := fresh in assert (H : p4 a b) by (apply lem; tlane); destruct a as [[[? ?] ?] ?], b as [[[? ?] ?] ?]; destruct H as [[[? ?] ?] ?]; cbn [fst snd] in * end.
Lemma r_outer4 : forall ft h h' x x' y y' z z' w w' m m' a a' b b' c c' d d', rel h h' -> rel x x' -> rel y y' -> rel z z' -> rel w w' -> rel m m' -> rel a a' -> rel b b' -> rel c c' -> rel d d' ->
  p4 (ApplyGradientOuterProductVectorProductSimplex4 ft h x y z w m a b c d) (ApplyGradientOuterProductVectorProductSimplex4 ft h' x' y' z' w' m' a' b' c' d').
Proof.
  intros. unfold ApplyGradientOuterProductVectorProductSimplex4. cbv zeta. tlane.
  split4 r_outer4v. tlane. split4 r_outer4v. tlane.
Qed.
Lemma r_ortho2 : forall ft h h' x x' y y' m m' a a' b b', rel h h' -> rel x x' -> rel y y' -> rel m m' -> rel a a' -> rel b b' ->
  p2 (ApplyOrthogonalGradientMatrixVectorProductSimplex2 ft h x y m a b) (ApplyOrthogonalGradientMatrixVectorProductSimplex2 ft h' x' y' m' a' b').
Proof. intros. unfold ApplyOrthogonalGradientMatrixVectorProductSimplex2. cbv zeta. tlane. Qed.
Lemma r_ortho3 : forall ft h h' x x' y y' z z' m m' a a' b b' c c', rel h h' -> rel x x' -> rel y y' -> rel z z' -> rel m m' -> rel a a' -> rel b b' -> rel c c' ->
  p3 (ApplyOrthogonalGradientMatrixVectorProductCommon3 ft h x y z m a b c) (ApplyOrthogonalGradientMatrixVectorProductCommon3 ft h' x' y' z' m' a' b' c').
Proof. intros. unfold ApplyOrthogonalGradientMatrixVectorProductCommon3. cbv zeta. tlane. Qed.
Lemma r_o512 : forall i i', rel i i' -> p44 (ortho4_avx512 (s:=s) i) (ortho4_avx512 i'). Proof. intros. unfold ortho4_avx512. tlane. Qed.
Lemma r_o2 : forall i i', rel i i' -> p44 (ortho4_avx2 (s:=s) i) (ortho4_avx2 i'). Proof. intros. unfold ortho4_avx2. cbv zeta. tlane. Qed.
Lemma r_oelse : forall i i', rel i i' -> p44 (ortho4_else (s:=s) i) (ortho4_else i'). Proof. intros. unfold ortho4_else. tlane. Qed.
Lemma r_rowdot : forall g g' x x' y y' z z' w w', p4 g g' -> rel x x' -> rel y y' -> rel z z' -> rel w w' -> rel (row_dot (s:=s) g x y z w) (row_dot g' x' y' z' w').
Proof. intros [[[? ?] ?] ?] [[[? ?] ?] ?] x x' y y' z z' w w' [[[? ?] ?] ?]. cbn [fst snd] in *. intros. unfold row_dot. lane. Qed.
Lemma r_ortho4 : forall ft h h' x x' y y' z z' w w' m m' a a' b b' c c' d d', rel h h' -> rel x x' -> rel y y' -> rel z z' -> rel w w' -> rel m m' -> rel a a' -> rel b b' -> rel c c' -> rel d d' ->
  p4 (ApplyOrthogonalGradientMatrixVectorProductSimplex4 ft h x y z w m a b c d) (ApplyOrthogonalGradientMatrixVectorProductSimplex4 ft h' x' y' z' w' m' a' b' c' d').
Proof.
  intros. unfold ApplyOrthogonalGradientMatrixVectorProductSimplex4. cbv zeta. tlane.
  match goal with |- ?P (match ?a with _ => _ end) (match ?b with _ => _ end) => let H := fresh in assert (H : p44 a b);
    [destruct (avx512 ft); [apply r_o512; lane|destruct (avx2 ft); [apply r_o2|apply r_oelse]; assumption]
    |destruct a as [[[? ?] ?] ?], b as [[[? ?] ?] ?]; destruct H as [[[? ?] ?] ?]; cbn [fst snd] in *] end.
  repeat first [match goal with |- rel (row_dot _ _ _ _ _) _ => apply r_rowdot; assumption end | tup | helper | lane1].
Qed.
Lemma r_vcontrib : forall ft sc sd sd' c c' v v', rel sd sd' -> krel c c' -> lrel v v' -> lrel (ApplyVectorContribution ft sc sd c v) (ApplyVectorContribution ft sc sd' c' v').
Proof.
  intros ft sc sd sd' [p d f] [p' d' f'] v v' Hs [Hp [Hd Hf]] Hv. cbn [cp cd cf] in *. unfold ApplyVectorContribution. cbn [cp cd cf].
  destruct Hd as [|dx dx' q q' Hdx Hd]; [assumption|]. destruct Hd as [|dy dy' q q' Hdy Hd]; [assumption|].
  destruct Hd as [|dz dz' q q' Hdz Hd]; [|destruct Hd as [|dw dw' q q' Hdw Hd]; [|destruct Hd as [|du du' q q' Hdu Hd]; [|assumption]]];
  pos Hv; try solve [lane];
  match goal with |- lrel (match ?a with _ => _ end) (match ?b with _ => _ end) =>
    first [let H := fresh in assert (H : p4 a b) by (destruct sc; [apply r_ortho4|apply r_outer4]; lane); destruct a as [[[? ?] ?] ?], b as [[[? ?] ?] ?]; destruct H as [[[? ?] ?] ?]
          |let H := fresh in assert (H : p3 a b) by (destruct sc; [apply r_ortho3|apply r_outer3]; lane); destruct a as [[? ?] ?], b as [[? ?] ?]; destruct H as [[? ?] ?]
          |let H := fresh in assert (H : p2 a b) by (destruct sc; [apply r_ortho2|apply r_outer2]; lane); destruct a as [? ?], b as [? ?]; destruct H as [? ?]]; cbn [fst snd] in * end; lane.
Qed.
Lemma r_vsum : forall ft sc sd sd' d c c', rel sd sd' -> klrel c c' -> lrel (vector_sum ft sc sd d c) (vector_sum ft sc sd' d c').
Proof. intros ft sc sd sd' d c c' Hs Hc. unfold vector_sum. eapply (r_fold _ _ _ _ lrel krel); [intros; apply r_vcontrib; assumption|exact Hc|]. apply lrel_repeat. Qed.
Lemma r_reflected : forall sc k v v', lrel v v' -> lrel (reflected (s:=s) sc k v) (reflected sc k v').
Proof. intros sc k v v' Hv. destruct sc; cbn [reflected]; [assumption|]. unfold reflect3. pos Hv; lane. Qed.
Lemma lrel_combine1 : forall v v' (ax : list (V s)), lrel v v' -> Forall2 (prel (rel (A:=V s)) eq) (combine v ax) (combine v' ax).
Proof. intros v v' ax Hv. revert ax. induction Hv; intros [|k ax]; cbn; constructor; [split; auto|apply IHHv]. Qed.
Lemma lrel_combine2 : forall v v' o o', lrel v v' -> lrel o o' -> Forall2 (prel (rel (A:=V s)) (rel (A:=V s))) (combine v o) (combine v' o').
Proof. intros v v' o o' Hv. revert o o'. induction Hv; intros o o' Ho; destruct Ho; cbn; constructor; [split; auto|apply IHHv; assumption]. Qed.
Lemma lrel_map2 : forall A A' B (R : A -> A' -> Prop) (f : A -> T L B) (f' : A' -> T scalar B) a a', (forall x x', R x x' -> rel (f x) (f' x')) -> Forall2 R a a' -> lrel (map f a) (map f' a').
Proof. intros A A' B R f f' a a' H. induction 1; constructor; auto. Qed.
Lemma r_tail : forall k ax a a' v v' o o', rel a a' -> lrel v v' -> lrel o o' -> prel rel lrel (warp_tail (s:=s) k ax a v o) (warp_tail k ax a' v' o').
Proof.
  intros k ax a a' v v' o o' Ha Hv Ho. unfold warp_tail. cbv zeta.
  match goal with |- context[match ?e with [] => _ | _ => _ end] => match goal with |- context[match ?e' with [] => _ | _ => _ end] => assert_fails (constr_eq e e');
    assert (Hz : lrel e e') by (eapply lrel_map2; [|apply lrel_combine1; exact Hv]; intros [? ?] [? ?] [? E]; cbn [fst snd] in *; subst; lane); generalize dependent e'; generalize dependent e end end.
  intros e e' He. split; cbn [fst snd].
  - destruct He as [|x x' e e' Hx He]; [reflexivity|]. eapply (r_fold _ _ _ _ rel rel); [intros; lane|exact He|lane].
  - eapply lrel_map2; [|apply lrel_combine2; eassumption]. intros [? ?] [? ?] [? ?]. cbn [fst snd] in *. lane.
Qed.
Lemma r_sxwarp : forall ft sc so ax, wfrel (SimplexWarp ft sc so ax) (SimplexWarp ft sc so ax).
Proof.
  intros ft sc so ax sd sd' a a' p p' o o' Hs Ha Hp Ho. unfold SimplexWarp, SimplexWarpK. eapply (slet_rel _ _ _ _ rel (prel rel lrel)); [lane|intros].
  pos Hp; try (split; cbn [fst snd]; lane; fail); apply r_tail; try assumption; try apply r_reflected; (apply r_vsum; [assumption|]).
  - apply r_sx2; assumption.
  - apply r_sx3; assumption.
  - apply r_sx4; assumption.
Qed.
Lemma r_sswarp : forall ft sc ax, wfrel (SuperSimplexWarp ft sc ax) (SuperSimplexWarp ft sc ax).
Proof.
  intros ft sc ax sd sd' a a' p p' o o' Hs Ha Hp Ho. unfold SuperSimplexWarp, SuperSimplexWarpK.
  pos Hp; try (split; cbn [fst snd]; lane; fail); apply r_tail; try assumption; try apply r_reflected; (apply r_vsum; [assumption|]).
  - apply r_ss2; assumption.
  - apply r_ss3; assumption.
  - apply r_ss4; assumption.
Qed.

(** ** All nodes *)
Scheme node_mut := Induction for node Sort Prop with hnode_mut := Induction for hnode Sort Prop with wnode_mut := Induction for wnode Sort Prop.
Lemma eval_rel : forall ft ji ji' jf jf', lrel ji ji' -> lrel jf jf' -> forall x : node s, srel (eval ft ji jf x) (eval ft ji' jf' x).
Proof.
  intros ft ji ji' jf jf' Hji Hjf.
  apply (node_mut s (fun x => srel (eval ft ji jf x) (eval ft ji' jf' x)) (fun h => hrel (hval ft ji jf h) (hval ft ji' jf' h)) (fun w => wrel (wval ft ji jf w) (wval ft ji' jf' w))); intros; cbn [eval hval wval].
  - apply r_constant.
  - apply r_white.
  - apply r_checker.
  - apply r_sine.
  - apply r_gradient. repeat constructor; assumption.
  - apply r_dtp; [assumption|]. repeat constructor; assumption.
  - apply r_valuegen.
  - apply r_perlin.
  - apply r_simplex.
  - apply r_super.
  - apply r_cvalue; [assumption|]. split; cbn; try assumption; reflexivity.
  - apply r_cdistance. split; cbn; try assumption; reflexivity.
  - apply r_clookup; [assumption| |assumption]. split; cbn; try assumption; reflexivity.
  - apply r_fbm; [split; cbn; try assumption; reflexivity|assumption].
  - apply r_ridged; [split; cbn; try assumption; reflexivity|assumption].
  - apply r_warp; assumption.
  - apply r_progressive; [split; cbn; try assumption; reflexivity|assumption].
  - apply r_independent; [split; cbn; try assumption; reflexivity|assumption].
  - apply r_add; assumption.
  - apply r_sub; assumption.
  - apply r_mul; assumption.
  - apply r_div; assumption.
  - apply r_mod; assumption.
  - apply r_powf; assumption.
  - apply r_powi; assumption.
  - apply r_min; assumption.
  - apply r_max; assumption.
  - apply r_mins; assumption.
  - apply r_maxs; assumption.
  - apply r_fade; assumption.
  - apply r_dscale; assumption.
  - apply r_doffset; [assumption|]. repeat constructor; assumption.
  - apply r_rotate; assumption.
  - apply r_seedoff; assumption.
  - apply r_remap; assumption.
  - apply r_rgba; assumption.
  - apply r_terrace; assumption.
  - apply r_pingpong; assumption.
  - apply r_axis; assumption.
  - apply r_adddim; assumption.
  - apply r_remdim; assumption.
  - apply r_ssqrt; assumption.
  - apply r_abs; assumption.
  - apply r_rotplane; assumption.
  - reflexivity.
  - assumption.
  - split; cbn; try assumption; try reflexivity. apply r_gradwarp.
  - split; cbn [wSource wAmplitude wSeedOffset wFrequency wWarp]; try assumption; try reflexivity. apply r_sxwarp.
  - split; cbn [wSource wAmplitude wSeedOffset wFrequency wWarp]; try assumption; try reflexivity. apply r_sswarp.
Qed.
End Lanes.
