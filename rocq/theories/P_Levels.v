(** C68: the SIMD level chosen at run time changes the value of a node graph only by rounding: in exact
    (real) arithmetic every level and register width computes the same values, for every graph. *)
From Coq Require Import Reals ZArith List Bool Lia Lra FunctionalExtensionality.
From Verif Require Import Prelude Simd_Model Utils_Model Nodes_Model Warp_Model Cellular_Model Simplex_Model SimplexWarp_Model NodeEval_Model Lanes Simd_R P_Hash P_Grad P_Lanes
  P_SimplexLevels P_SimplexWarp P_SimplexWarpBugs.
Import ListNotations.
Open Scope R_scope.

(** ** Specification
    A level is a feature set [feat]; [query n ft] (P_Lanes) is the value computed with registers of [n]
    lanes at level [ft]. [no_matrix x]: the graph [x] has no simplex warp with the orthogonal matrix
    scheme (whose 4D case C62 shows to differ between AVX512, AVX2 and the other levels). *)
Section Spec.
Context {s : sops}.
Fixpoint no_matrix (x : node s) : Prop :=
  match x with
  | NConstant _ | NWhite _ _ | NCheckerboard _ _ | NSineWave _ _ | NValue _ _ _ | NPerlin _ _ _ | NSimplex _ _ _ | NSuperSimplex _ _ _ => True
  | NGradient a b c e _ => h_no_matrix a /\ h_no_matrix b /\ h_no_matrix c /\ h_no_matrix e
  | NDistanceToPoint _ m a b c e => h_no_matrix m /\ h_no_matrix a /\ h_no_matrix b /\ h_no_matrix c /\ h_no_matrix e
  | NCellularValue _ a b c _ _ | NCellularDistance _ a b c _ _ _ _ => h_no_matrix a /\ h_no_matrix b /\ h_no_matrix c
  | NCellularLookup _ a b c _ l => h_no_matrix a /\ h_no_matrix b /\ h_no_matrix c /\ no_matrix l
  | NFBm a g w _ _ | NRidged a g w _ _ => no_matrix a /\ h_no_matrix g /\ h_no_matrix w
  | NWarp w => w_no_matrix w
  | NWarpProgressive a g w _ _ | NWarpIndependent a g w _ _ => w_no_matrix a /\ h_no_matrix g /\ h_no_matrix w
  | NAdd a b | NMultiply a b | NMin a b | NMax a b | NTerrace a b _ _ _ | NPingPong a b | NAddDimension a b => no_matrix a /\ h_no_matrix b
  | NSubtract a b | NDivide a b | NModulus a b | NPowFloat a b => h_no_matrix a /\ h_no_matrix b
  | NPowInt a _ | NDomainScale a _ | NDomainAxisScale a _ | NSeedOffset a _ | NConvertRGBA8 a _ _ | NSignedSquareRoot a | NAbs a | NDomainRotatePlane a _
  | NDomainRotate a _ | NRemoveDimension a _ => no_matrix a
  | NMinSmooth a b c | NMaxSmooth a b c => no_matrix a /\ h_no_matrix b /\ h_no_matrix c
  | NFade a b f mn mx _ => no_matrix a /\ no_matrix b /\ h_no_matrix f /\ h_no_matrix mn /\ h_no_matrix mx
  | NDomainOffset a b c e f | NRemap a b c e f _ => no_matrix a /\ h_no_matrix b /\ h_no_matrix c /\ h_no_matrix e /\ h_no_matrix f
  end
with h_no_matrix (h : hnode s) : Prop := match h with HNConst _ => True | HNSrc x => no_matrix x end
with w_no_matrix (w : wnode s) : Prop :=
  match w with
  | WGradient a b _ _ _ => no_matrix a /\ h_no_matrix b
  | WSimplex a b _ _ _ scheme | WSuperSimplex a b _ _ _ scheme => scheme = GradientOuterProduct /\ no_matrix a /\ h_no_matrix b
  end.
End Spec.

Section L.
Variable inf : R.
Variable bits : R -> Z.
Notation S_ := (Rops inf bits).
Notation gen := (source S_ scalar).

Lemma sqrt_level : forall ft ft', @FastLengthSqrt S_ scalar ft = @FastLengthSqrt S_ scalar ft'.
Proof.
  assert (E : forall ft, @FastLengthSqrt S_ scalar ft = sqrt); [|intros; rewrite !E; reflexivity].
  intros ft. apply functional_extensionality. intros x. unfold FastLengthSqrt. destruct (relaxed ft); [|reflexivity]. sunf. change (V S_) with R in x.
  rewrite pow2_0, Rmult_1_r. unfold Reqb. destruct (Req_EM_T x 0) as [E|E]; cbn [negb].
  - subst. rewrite sqrt_0. lra.
  - destruct (Rle_or_lt 0 x) as [H|H].
    + assert (0 < sqrt x) by (apply sqrt_lt_R0; lra). apply (Rmult_eq_reg_r (sqrt x)); [|lra]. rewrite Rmult_assoc, Rinv_l, Rmult_1_r, sqrt_sqrt by lra. reflexivity.
    + replace (sqrt x) with 0 by (symmetry; apply sqrt_neg_0; lra). rewrite Rinv_0. lra.
Qed.
Lemma perlin2_level : forall ft ft', @GetGradientDotPerlin2 S_ scalar ft = @GetGradientDotPerlin2 S_ scalar ft'.
Proof. intros. do 3 (apply functional_extensionality; intros ?). rewrite !C32_perlin2. reflexivity. Qed.
Lemma common_level : forall ft ft', @GetGradientDotCommon S_ scalar ft = @GetGradientDotCommon S_ scalar ft'.
Proof. intros. do 4 (apply functional_extensionality; intros ?). rewrite !C32_common. reflexivity. Qed.
Lemma perlin4_level : forall ft ft', @GetGradientDotPerlin4 S_ scalar ft = @GetGradientDotPerlin4 S_ scalar ft'.
Proof. intros. do 5 (apply functional_extensionality; intros ?). rewrite !C32_perlin4. reflexivity. Qed.
Lemma distance_level : forall ft ft', @CalcDistance S_ scalar ft = @CalcDistance S_ scalar ft'.
Proof. intros. unfold CalcDistance. rewrite (sqrt_level ft ft'). reflexivity. Qed.
Lemma dtp_level : forall ft ft', @DistanceToPointGen S_ scalar ft = @DistanceToPointGen S_ scalar ft'.
Proof. intros. unfold DistanceToPointGen. rewrite (distance_level ft ft'). reflexivity. Qed.
Lemma perlin_level : forall ft ft', @PerlinGen S_ scalar ft = @PerlinGen S_ scalar ft'.
Proof. intros. unfold PerlinGen, PerlinGen2, PerlinGen3, PerlinGen4. rewrite (perlin2_level ft ft'), (common_level ft ft'), (perlin4_level ft ft'). reflexivity. Qed.
Lemma ssqrt_level : forall ft ft', @SignedSquareRootGen S_ scalar ft = @SignedSquareRootGen S_ scalar ft'.
Proof. intros. unfold SignedSquareRootGen. rewrite (sqrt_level ft ft'). reflexivity. Qed.
Lemma celldist_level : forall ft ft', @cellDistance S_ scalar ft = @cellDistance S_ scalar ft'.
Proof. intros. unfold cellDistance. rewrite (distance_level ft ft'). reflexivity. Qed.
Lemma cvalue_level : forall ft ft', @CellularValueGen S_ scalar ft = @CellularValueGen S_ scalar ft'.
Proof. intros. unfold CellularValueGen. rewrite (celldist_level ft ft'). reflexivity. Qed.
Lemma cdistance_level : forall ft ft', @CellularDistanceGen S_ scalar ft = @CellularDistanceGen S_ scalar ft'.
Proof. intros. unfold CellularDistanceGen. rewrite (celldist_level ft ft'). reflexivity. Qed.
Lemma clookup_level : forall ft ft', @CellularLookupGen S_ scalar ft = @CellularLookupGen S_ scalar ft'.
Proof. intros. unfold CellularLookupGen. rewrite (celldist_level ft ft'). reflexivity. Qed.
Lemma ploop_level : forall ft ft', @progressive_loop S_ scalar ft = @progressive_loop S_ scalar ft'.
Proof.
  intros. apply functional_extensionality. intros m. induction m as [|m IH]; [reflexivity|]. cbn [progressive_loop]. rewrite (sqrt_level ft ft'), IH. reflexivity.
Qed.
Lemma iloop_level : forall ft ft', @independent_loop S_ scalar ft = @independent_loop S_ scalar ft'.
Proof.
  intros. apply functional_extensionality. intros m. induction m as [|m IH]; [reflexivity|]. cbn [independent_loop]. rewrite (sqrt_level ft ft'), IH. reflexivity.
Qed.
Lemma progressive_level : forall ft ft', @DomainWarpFractalProgressiveGen S_ scalar ft = @DomainWarpFractalProgressiveGen S_ scalar ft'.
Proof. intros. unfold DomainWarpFractalProgressiveGen. rewrite (ploop_level ft ft'). reflexivity. Qed.
Lemma independent_level : forall ft ft', @DomainWarpFractalIndependentGen S_ scalar ft = @DomainWarpFractalIndependentGen S_ scalar ft'.
Proof. intros. unfold DomainWarpFractalIndependentGen. rewrite (iloop_level ft ft'). reflexivity. Qed.
Lemma simplex_level : forall ft ft', @SimplexGen S_ scalar ft = @SimplexGen S_ scalar ft'.
Proof. intros. do 5 (apply functional_extensionality; intros ?). apply C32_simplex_nodes_agree. Qed.
Lemma super_level : forall ft ft', @SuperSimplexGen S_ scalar ft = @SuperSimplexGen S_ scalar ft'.
Proof. intros. do 5 (apply functional_extensionality; intros ?). apply C32_simplex_nodes_agree. Qed.

(** the simplex warps: with the outer product at every level, with the matrix at levels that use the
    same tables *)
Definition same_tables (ft ft' : feat) : Prop := avx512 ft = avx512 ft' /\ avx2 ft = avx2 ft'.
Lemma ortho4_level : forall ft ft', same_tables ft ft' -> @ApplyOrthogonalGradientMatrixVectorProductSimplex4 S_ scalar ft = @ApplyOrthogonalGradientMatrixVectorProductSimplex4 S_ scalar ft'.
Proof. intros ft ft' [E1 E2]. unfold ApplyOrthogonalGradientMatrixVectorProductSimplex4. rewrite E1, E2. reflexivity. Qed.
Lemma vsum4_level : forall ft ft' scheme seed l, same_tables ft ft' -> (forall c, In c l -> length (cd c) = 4%nat) ->
  vector_sum (s:=S_) (W:=scalar) ft scheme seed 4 l = vector_sum (s:=S_) (W:=scalar) ft' scheme seed 4 l.
Proof.
  intros ft ft' scheme seed l HT HL. destruct scheme; [|apply vector_sum_level; [left; reflexivity|lia]]. unfold vector_sum. revert HL.
  generalize (repeat (num (s:=S_) (W:=scalar) 0) 4). induction l as [|c l IH]; intros acc HL; [reflexivity|]. cbn [fold_left].
  assert (E : ApplyVectorContribution (s:=S_) (W:=scalar) ft OrthogonalGradientMatrix seed c acc = ApplyVectorContribution (s:=S_) (W:=scalar) ft' OrthogonalGradientMatrix seed c acc).
  { pose proof (HL c (or_introl eq_refl)) as H. unfold ApplyVectorContribution. destruct (cd c) as [|x [|y [|z [|w [|? ?]]]]]; try discriminate H. rewrite (ortho4_level ft ft' HT). reflexivity. }
  rewrite E. apply IH. intros c' Hc'. apply HL. right. exact Hc'.
Qed.
Lemma slet_any : forall A B (P : B -> Prop) (a : A) k, (forall x, P (k x)) -> P (slet a k). Proof. intros. unfold slet. auto. Qed.
Lemma slet_with : forall A B (Q : A -> Prop) (P : B -> Prop) (a : A) k, Q a -> (forall x, Q x -> P (k x)) -> P (slet a k). Proof. intros. unfold slet. auto. Qed.
Definition c4 (c : contrib S_ scalar) : Prop := length (cd c) = 4%nat.
Definition l4 (l : list (contrib S_ scalar)) : Prop := Forall c4 l.
Ltac step4 := match goal with
  | |- c4 (slet _ _) => apply slet_any; intros ?
  | |- c4 (mkc _ _ _) => reflexivity
  | |- l4 (slet ?a _) => lazymatch type of a with contrib _ _ => eapply (slet_with _ _ c4 l4); [|intros ? ?] | _ => apply (slet_any _ _ l4); intros ? end
  | |- l4 [] => constructor
  | |- l4 (_ :: _) => constructor
  | |- c4 _ => assumption
  end.
Lemma simplex4_c4 : forall K x y z w, l4 (simplex4 (s:=S_) (W:=scalar) K x y z w).
Proof. intros. unfold simplex4, simplex4_at. repeat step4. all: repeat constructor. Qed.
Lemma super4_c4 : forall K x y z w, l4 (supersimplex4 (s:=S_) (W:=scalar) K x y z w).
Proof.
  intros. unfold supersimplex4, supersimplex4_at, supersimplex4_v1, supersimplex4_v2, supersimplex4_v3, supersimplex4_v4, supersimplex4_v5,
    supersimplex4_v6, supersimplex4_v7, supersimplex4_v8, supersimplex4_v9, supersimplex4_v10, supersimplex4_v11, supersimplex4_v12, supersimplex4_v13, supersimplex4_v14, supersimplex4_v15.
  repeat step4. all: repeat (constructor; [assumption|]); constructor.
Qed.
Definition ok (ft ft' : feat) (scheme : VectorizationScheme) : Prop := same_tables ft ft' \/ scheme = GradientOuterProduct.
Lemma warps_level : forall ft ft' scheme, ok ft ft' scheme ->
  @SimplexWarp S_ scalar ft scheme = @SimplexWarp S_ scalar ft' scheme /\ @SuperSimplexWarp S_ scalar ft scheme = @SuperSimplexWarp S_ scalar ft' scheme.
Proof.
  intros ft ft' scheme HO.
  assert (H : forall so axis seed amp pos out, SimplexWarp (s:=S_) (W:=scalar) ft scheme so axis seed amp pos out = SimplexWarp (s:=S_) (W:=scalar) ft' scheme so axis seed amp pos out /\
    SuperSimplexWarp (s:=S_) (W:=scalar) ft scheme axis seed amp pos out = SuperSimplexWarp (s:=S_) (W:=scalar) ft' scheme axis seed amp pos out).
  { intros. destruct HO as [HT|HS]; [|apply C62_simplex_warps_agree; left; exact HS].
    destruct pos as [|x [|y [|z [|w [|? ?]]]]]; try (apply C62_simplex_warps_agree; right; cbn [length]; lia); [|split; reflexivity].
    unfold SimplexWarp, SuperSimplexWarp, SimplexWarpK, SuperSimplexWarpK. split; [unfold slet at 1 2|];
      rewrite (vsum4_level ft ft' scheme _ _ HT); [reflexivity| |reflexivity|]; apply Forall_forall; [apply simplex4_c4|apply super4_c4]. }
  split; repeat (apply functional_extensionality; intros ?); apply H; exact 0%Z.
Qed.

(** ** C68 *)
Ltac pick HH := first [exact HH | exact (proj1 HH) | exact (proj2 HH) | exact (proj1 (proj2 HH)) | exact (proj2 (proj2 HH)) | exact (proj1 (proj2 (proj2 HH))) | exact (proj2 (proj2 (proj2 HH)))
  | exact (proj1 (proj2 (proj2 (proj2 HH)))) | exact (proj2 (proj2 (proj2 (proj2 HH))))].
Ltac ih HH := repeat match goal with IH : ?T \/ ?P -> _ = _ |- _ =>
  let K := fresh in assert (K : T \/ P) by (destruct HH as [HH|HH]; [left; exact HH|right; pick HH]); specialize (IH K); clear K end.
Ltac rw := repeat match goal with IH : _ = _ |- _ => rewrite IH; clear IH end.
Lemma eval_level : forall ft ft' ji jf (x : node S_), same_tables ft ft' \/ no_matrix x -> eval (s:=S_) (W:=scalar) ft ji jf x = eval (s:=S_) (W:=scalar) ft' ji jf x.
Proof.
  intros ft ft' ji jf.
  apply (node_mut S_ (fun x => same_tables ft ft' \/ no_matrix x -> eval (s:=S_) (W:=scalar) ft ji jf x = eval (s:=S_) (W:=scalar) ft' ji jf x)
    (fun h => same_tables ft ft' \/ h_no_matrix h -> hval (s:=S_) (W:=scalar) ft ji jf h = hval (s:=S_) (W:=scalar) ft' ji jf h)
    (fun w => same_tables ft ft' \/ w_no_matrix w -> wval (s:=S_) (W:=scalar) ft ji jf w = wval (s:=S_) (W:=scalar) ft' ji jf w));
  intros; match goal with HH : same_tables ft ft' \/ _ |- _ => rename HH into OK end.
  - match goal with |- eval _ _ _ (NConstant ?X_c) = _ => change (@eq (source S_ scalar) (ConstantGen X_c) (ConstantGen X_c)) end. ih OK. rw. reflexivity.
  - match goal with |- eval _ _ _ (NWhite ?X_so ?X_r) = _ => change (@eq (source S_ scalar) (WhiteGen X_so X_r) (WhiteGen X_so X_r)) end. ih OK. rw. reflexivity.
  - match goal with |- eval _ _ _ (NCheckerboard ?X_freq ?X_r) = _ => change (@eq (source S_ scalar) (CheckerboardGen X_freq X_r) (CheckerboardGen X_freq X_r)) end. ih OK. rw. reflexivity.
  - match goal with |- eval _ _ _ (NSineWave ?X_freq ?X_r) = _ => change (@eq (source S_ scalar) (SineWaveGen X_freq X_r) (SineWaveGen X_freq X_r)) end. ih OK. rw. reflexivity.
  - match goal with |- eval _ _ _ (NGradient ?X_ox ?X_oy ?X_oz ?X_ow ?X_m) = _ => change (@eq (source S_ scalar) (GradientGen [@hval S_ scalar ft ji jf X_ox; @hval S_ scalar ft ji jf X_oy; @hval S_ scalar ft ji jf X_oz; @hval S_ scalar ft ji jf X_ow] X_m) (GradientGen [@hval S_ scalar ft' ji jf X_ox; @hval S_ scalar ft' ji jf X_oy; @hval S_ scalar ft' ji jf X_oz; @hval S_ scalar ft' ji jf X_ow] X_m)) end. ih OK. rw. reflexivity.
  - match goal with |- eval _ _ _ (NDistanceToPoint ?X_df ?X_mink ?X_px ?X_py ?X_pz ?X_pw) = _ => change (@eq (source S_ scalar) (DistanceToPointGen ft X_df (@hval S_ scalar ft ji jf X_mink) [@hval S_ scalar ft ji jf X_px; @hval S_ scalar ft ji jf X_py; @hval S_ scalar ft ji jf X_pz; @hval S_ scalar ft ji jf X_pw]) (DistanceToPointGen ft' X_df (@hval S_ scalar ft' ji jf X_mink) [@hval S_ scalar ft' ji jf X_px; @hval S_ scalar ft' ji jf X_py; @hval S_ scalar ft' ji jf X_pz; @hval S_ scalar ft' ji jf X_pw])) end. ih OK. rw. rewrite (dtp_level ft ft'). reflexivity.
  - match goal with |- eval _ _ _ (NValue ?X_so ?X_freq ?X_r) = _ => change (@eq (source S_ scalar) (ValueGen X_so X_freq X_r) (ValueGen X_so X_freq X_r)) end. ih OK. rw. reflexivity.
  - match goal with |- eval _ _ _ (NPerlin ?X_so ?X_freq ?X_r) = _ => change (@eq (source S_ scalar) (PerlinGen ft X_so X_freq X_r) (PerlinGen ft' X_so X_freq X_r)) end. ih OK. rw. rewrite (perlin_level ft ft'). reflexivity.
  - match goal with |- eval _ _ _ (NSimplex ?X_so ?X_freq ?X_r) = _ => change (@eq (source S_ scalar) (SimplexGen ft X_so X_freq X_r) (SimplexGen ft' X_so X_freq X_r)) end. ih OK. rw. rewrite (simplex_level ft ft'). reflexivity.
  - match goal with |- eval _ _ _ (NSuperSimplex ?X_so ?X_freq ?X_r) = _ => change (@eq (source S_ scalar) (SuperSimplexGen ft X_so X_freq X_r) (SuperSimplexGen ft' X_so X_freq X_r)) end. ih OK. rw. rewrite (super_level ft ft'). reflexivity.
  - match goal with |- eval _ _ _ (NCellularValue ?X_cm ?X_mink ?X_grid ?X_size ?X_r ?X_i) = _ => change (@eq (source S_ scalar) (CellularValueGen ft ji (cellular_of X_cm (@hval S_ scalar ft ji jf X_mink) (@hval S_ scalar ft ji jf X_grid) (@hval S_ scalar ft ji jf X_size) (lit 0 0)) X_r X_i) (CellularValueGen ft' ji (cellular_of X_cm (@hval S_ scalar ft' ji jf X_mink) (@hval S_ scalar ft' ji jf X_grid) (@hval S_ scalar ft' ji jf X_size) (lit 0 0)) X_r X_i)) end. ih OK. rw. rewrite (cvalue_level ft ft'). reflexivity.
  - match goal with |- eval _ _ _ (NCellularDistance ?X_cm ?X_mink ?X_grid ?X_size ?X_r ?X_rt ?X_i0 ?X_i1) = _ => change (@eq (source S_ scalar) (CellularDistanceGen ft (cellular_of X_cm (@hval S_ scalar ft ji jf X_mink) (@hval S_ scalar ft ji jf X_grid) (@hval S_ scalar ft ji jf X_size) (lit 0 0)) X_r X_rt X_i0 X_i1) (CellularDistanceGen ft' (cellular_of X_cm (@hval S_ scalar ft' ji jf X_mink) (@hval S_ scalar ft' ji jf X_grid) (@hval S_ scalar ft' ji jf X_size) (lit 0 0)) X_r X_rt X_i0 X_i1)) end. ih OK. rw. rewrite (cdistance_level ft ft'). reflexivity.
  - match goal with |- eval _ _ _ (NCellularLookup ?X_cm ?X_mink ?X_grid ?X_size ?X_scale ?X_lookup) = _ => change (@eq (source S_ scalar) (CellularLookupGen ft jf (cellular_of X_cm (@hval S_ scalar ft ji jf X_mink) (@hval S_ scalar ft ji jf X_grid) (@hval S_ scalar ft ji jf X_size) X_scale) (@eval S_ scalar ft ji jf X_lookup)) (CellularLookupGen ft' jf (cellular_of X_cm (@hval S_ scalar ft' ji jf X_mink) (@hval S_ scalar ft' ji jf X_grid) (@hval S_ scalar ft' ji jf X_size) X_scale) (@eval S_ scalar ft' ji jf X_lookup))) end. ih OK. rw. rewrite (clookup_level ft ft'). reflexivity.
  - match goal with |- eval _ _ _ (NFBm ?X_src ?X_gain ?X_weight ?X_oct ?X_lac) = _ => change (@eq (source S_ scalar) (FBmGen (fractal_of (@hval S_ scalar ft ji jf X_gain) (@hval S_ scalar ft ji jf X_weight) X_oct X_lac) (@eval S_ scalar ft ji jf X_src)) (FBmGen (fractal_of (@hval S_ scalar ft' ji jf X_gain) (@hval S_ scalar ft' ji jf X_weight) X_oct X_lac) (@eval S_ scalar ft' ji jf X_src))) end. ih OK. rw. reflexivity.
  - match goal with |- eval _ _ _ (NRidged ?X_src ?X_gain ?X_weight ?X_oct ?X_lac) = _ => change (@eq (source S_ scalar) (RidgedGen (fractal_of (@hval S_ scalar ft ji jf X_gain) (@hval S_ scalar ft ji jf X_weight) X_oct X_lac) (@eval S_ scalar ft ji jf X_src)) (RidgedGen (fractal_of (@hval S_ scalar ft' ji jf X_gain) (@hval S_ scalar ft' ji jf X_weight) X_oct X_lac) (@eval S_ scalar ft' ji jf X_src))) end. ih OK. rw. reflexivity.
  - match goal with |- eval _ _ _ (NWarp ?X_w) = _ => change (@eq (source S_ scalar) (DomainWarpGen (@wval S_ scalar ft ji jf X_w)) (DomainWarpGen (@wval S_ scalar ft' ji jf X_w))) end. ih OK. rw. reflexivity.
  - match goal with |- eval _ _ _ (NWarpProgressive ?X_w ?X_gain ?X_weight ?X_oct ?X_lac) = _ => change (@eq (source S_ scalar) (DomainWarpFractalProgressiveGen ft (fractal_of (@hval S_ scalar ft ji jf X_gain) (@hval S_ scalar ft ji jf X_weight) X_oct X_lac) (@wval S_ scalar ft ji jf X_w)) (DomainWarpFractalProgressiveGen ft' (fractal_of (@hval S_ scalar ft' ji jf X_gain) (@hval S_ scalar ft' ji jf X_weight) X_oct X_lac) (@wval S_ scalar ft' ji jf X_w))) end. ih OK. rw. rewrite (progressive_level ft ft'). reflexivity.
  - match goal with |- eval _ _ _ (NWarpIndependent ?X_w ?X_gain ?X_weight ?X_oct ?X_lac) = _ => change (@eq (source S_ scalar) (DomainWarpFractalIndependentGen ft (fractal_of (@hval S_ scalar ft ji jf X_gain) (@hval S_ scalar ft ji jf X_weight) X_oct X_lac) (@wval S_ scalar ft ji jf X_w)) (DomainWarpFractalIndependentGen ft' (fractal_of (@hval S_ scalar ft' ji jf X_gain) (@hval S_ scalar ft' ji jf X_weight) X_oct X_lac) (@wval S_ scalar ft' ji jf X_w))) end. ih OK. rw. rewrite (independent_level ft ft'). reflexivity.
  - match goal with |- eval _ _ _ (NAdd ?X_l ?X_r) = _ => change (@eq (source S_ scalar) (AddGen (@eval S_ scalar ft ji jf X_l) (@hval S_ scalar ft ji jf X_r)) (AddGen (@eval S_ scalar ft' ji jf X_l) (@hval S_ scalar ft' ji jf X_r))) end. ih OK. rw. reflexivity.
  - match goal with |- eval _ _ _ (NSubtract ?X_l ?X_r) = _ => change (@eq (source S_ scalar) (SubtractGen (@hval S_ scalar ft ji jf X_l) (@hval S_ scalar ft ji jf X_r)) (SubtractGen (@hval S_ scalar ft' ji jf X_l) (@hval S_ scalar ft' ji jf X_r))) end. ih OK. rw. reflexivity.
  - match goal with |- eval _ _ _ (NMultiply ?X_l ?X_r) = _ => change (@eq (source S_ scalar) (MultiplyGen (@eval S_ scalar ft ji jf X_l) (@hval S_ scalar ft ji jf X_r)) (MultiplyGen (@eval S_ scalar ft' ji jf X_l) (@hval S_ scalar ft' ji jf X_r))) end. ih OK. rw. reflexivity.
  - match goal with |- eval _ _ _ (NDivide ?X_l ?X_r) = _ => change (@eq (source S_ scalar) (DivideGen (@hval S_ scalar ft ji jf X_l) (@hval S_ scalar ft ji jf X_r)) (DivideGen (@hval S_ scalar ft' ji jf X_l) (@hval S_ scalar ft' ji jf X_r))) end. ih OK. rw. reflexivity.
  - match goal with |- eval _ _ _ (NModulus ?X_l ?X_r) = _ => change (@eq (source S_ scalar) (ModulusGen (@hval S_ scalar ft ji jf X_l) (@hval S_ scalar ft ji jf X_r)) (ModulusGen (@hval S_ scalar ft' ji jf X_l) (@hval S_ scalar ft' ji jf X_r))) end. ih OK. rw. reflexivity.
  - match goal with |- eval _ _ _ (NPowFloat ?X_v ?X_p) = _ => change (@eq (source S_ scalar) (PowFloatGen (@hval S_ scalar ft ji jf X_v) (@hval S_ scalar ft ji jf X_p)) (PowFloatGen (@hval S_ scalar ft' ji jf X_v) (@hval S_ scalar ft' ji jf X_p))) end. ih OK. rw. reflexivity.
  - match goal with |- eval _ _ _ (NPowInt ?X_v ?X_p) = _ => change (@eq (source S_ scalar) (PowIntGen (@eval S_ scalar ft ji jf X_v) X_p) (PowIntGen (@eval S_ scalar ft' ji jf X_v) X_p)) end. ih OK. rw. reflexivity.
  - match goal with |- eval _ _ _ (NMin ?X_l ?X_r) = _ => change (@eq (source S_ scalar) (MinGen (@eval S_ scalar ft ji jf X_l) (@hval S_ scalar ft ji jf X_r)) (MinGen (@eval S_ scalar ft' ji jf X_l) (@hval S_ scalar ft' ji jf X_r))) end. ih OK. rw. reflexivity.
  - match goal with |- eval _ _ _ (NMax ?X_l ?X_r) = _ => change (@eq (source S_ scalar) (MaxGen (@eval S_ scalar ft ji jf X_l) (@hval S_ scalar ft ji jf X_r)) (MaxGen (@eval S_ scalar ft' ji jf X_l) (@hval S_ scalar ft' ji jf X_r))) end. ih OK. rw. reflexivity.
  - match goal with |- eval _ _ _ (NMinSmooth ?X_l ?X_r ?X_sm) = _ => change (@eq (source S_ scalar) (MinSmoothGen (@eval S_ scalar ft ji jf X_l) (@hval S_ scalar ft ji jf X_r) (@hval S_ scalar ft ji jf X_sm)) (MinSmoothGen (@eval S_ scalar ft' ji jf X_l) (@hval S_ scalar ft' ji jf X_r) (@hval S_ scalar ft' ji jf X_sm))) end. ih OK. rw. reflexivity.
  - match goal with |- eval _ _ _ (NMaxSmooth ?X_l ?X_r ?X_sm) = _ => change (@eq (source S_ scalar) (MaxSmoothGen (@eval S_ scalar ft ji jf X_l) (@hval S_ scalar ft ji jf X_r) (@hval S_ scalar ft ji jf X_sm)) (MaxSmoothGen (@eval S_ scalar ft' ji jf X_l) (@hval S_ scalar ft' ji jf X_r) (@hval S_ scalar ft' ji jf X_sm))) end. ih OK. rw. reflexivity.
  - match goal with |- eval _ _ _ (NFade ?X_a ?X_b ?X_f ?X_mn ?X_mx ?X_ip) = _ => change (@eq (source S_ scalar) (FadeGen (@eval S_ scalar ft ji jf X_a) (@eval S_ scalar ft ji jf X_b) (@hval S_ scalar ft ji jf X_f) (@hval S_ scalar ft ji jf X_mn) (@hval S_ scalar ft ji jf X_mx) X_ip) (FadeGen (@eval S_ scalar ft' ji jf X_a) (@eval S_ scalar ft' ji jf X_b) (@hval S_ scalar ft' ji jf X_f) (@hval S_ scalar ft' ji jf X_mn) (@hval S_ scalar ft' ji jf X_mx) X_ip)) end. ih OK. rw. reflexivity.
  - match goal with |- eval _ _ _ (NDomainScale ?X_src ?X_k) = _ => change (@eq (source S_ scalar) (DomainScaleGen (@eval S_ scalar ft ji jf X_src) X_k) (DomainScaleGen (@eval S_ scalar ft' ji jf X_src) X_k)) end. ih OK. rw. reflexivity.
  - match goal with |- eval _ _ _ (NDomainOffset ?X_src ?X_ox ?X_oy ?X_oz ?X_ow) = _ => change (@eq (source S_ scalar) (DomainOffsetGen (@eval S_ scalar ft ji jf X_src) [@hval S_ scalar ft ji jf X_ox; @hval S_ scalar ft ji jf X_oy; @hval S_ scalar ft ji jf X_oz; @hval S_ scalar ft ji jf X_ow]) (DomainOffsetGen (@eval S_ scalar ft' ji jf X_src) [@hval S_ scalar ft' ji jf X_ox; @hval S_ scalar ft' ji jf X_oy; @hval S_ scalar ft' ji jf X_oz; @hval S_ scalar ft' ji jf X_ow])) end. ih OK. rw. reflexivity.
  - match goal with |- eval _ _ _ (NDomainRotate ?X_src ?X_m) = _ => change (@eq (source S_ scalar) (DomainRotateGen (@eval S_ scalar ft ji jf X_src) X_m) (DomainRotateGen (@eval S_ scalar ft' ji jf X_src) X_m)) end. ih OK. rw. reflexivity.
  - match goal with |- eval _ _ _ (NSeedOffset ?X_src ?X_k) = _ => change (@eq (source S_ scalar) (SeedOffsetGen (@eval S_ scalar ft ji jf X_src) X_k) (SeedOffsetGen (@eval S_ scalar ft' ji jf X_src) X_k)) end. ih OK. rw. reflexivity.
  - match goal with |- eval _ _ _ (NRemap ?X_src ?X_a ?X_b ?X_c ?X_d ?X_clamp) = _ => change (@eq (source S_ scalar) (RemapGen (@eval S_ scalar ft ji jf X_src) (@hval S_ scalar ft ji jf X_a) (@hval S_ scalar ft ji jf X_b) (@hval S_ scalar ft ji jf X_c) (@hval S_ scalar ft ji jf X_d) X_clamp) (RemapGen (@eval S_ scalar ft' ji jf X_src) (@hval S_ scalar ft' ji jf X_a) (@hval S_ scalar ft' ji jf X_b) (@hval S_ scalar ft' ji jf X_c) (@hval S_ scalar ft' ji jf X_d) X_clamp)) end. ih OK. rw. reflexivity.
  - match goal with |- eval _ _ _ (NConvertRGBA8 ?X_src ?X_mn ?X_mx) = _ => change (@eq (source S_ scalar) (ConvertRGBA8Gen (@eval S_ scalar ft ji jf X_src) X_mn X_mx) (ConvertRGBA8Gen (@eval S_ scalar ft' ji jf X_src) X_mn X_mx)) end. ih OK. rw. reflexivity.
  - match goal with |- eval _ _ _ (NTerrace ?X_src ?X_sm ?X_smr ?X_sc ?X_scr) = _ => change (@eq (source S_ scalar) (TerraceGen (@eval S_ scalar ft ji jf X_src) {| tSmoothness := @hval S_ scalar ft ji jf X_sm; tSmoothnessRecip := X_smr; tStepCount := X_sc; tStepCountRecip := X_scr |}) (TerraceGen (@eval S_ scalar ft' ji jf X_src) {| tSmoothness := @hval S_ scalar ft' ji jf X_sm; tSmoothnessRecip := X_smr; tStepCount := X_sc; tStepCountRecip := X_scr |})) end. ih OK. rw. reflexivity.
  - match goal with |- eval _ _ _ (NPingPong ?X_src ?X_st) = _ => change (@eq (source S_ scalar) (PingPongGen (@eval S_ scalar ft ji jf X_src) (@hval S_ scalar ft ji jf X_st)) (PingPongGen (@eval S_ scalar ft' ji jf X_src) (@hval S_ scalar ft' ji jf X_st))) end. ih OK. rw. reflexivity.
  - match goal with |- eval _ _ _ (NDomainAxisScale ?X_src ?X_k) = _ => change (@eq (source S_ scalar) (DomainAxisScaleGen (@eval S_ scalar ft ji jf X_src) X_k) (DomainAxisScaleGen (@eval S_ scalar ft' ji jf X_src) X_k)) end. ih OK. rw. reflexivity.
  - match goal with |- eval _ _ _ (NAddDimension ?X_src ?X_new) = _ => change (@eq (source S_ scalar) (AddDimensionGen (@eval S_ scalar ft ji jf X_src) (@hval S_ scalar ft ji jf X_new)) (AddDimensionGen (@eval S_ scalar ft' ji jf X_src) (@hval S_ scalar ft' ji jf X_new))) end. ih OK. rw. reflexivity.
  - match goal with |- eval _ _ _ (NRemoveDimension ?X_src ?X_d) = _ => change (@eq (source S_ scalar) (RemoveDimensionGen (@eval S_ scalar ft ji jf X_src) X_d) (RemoveDimensionGen (@eval S_ scalar ft' ji jf X_src) X_d)) end. ih OK. rw. reflexivity.
  - match goal with |- eval _ _ _ (NSignedSquareRoot ?X_src) = _ => change (@eq (source S_ scalar) (SignedSquareRootGen ft (@eval S_ scalar ft ji jf X_src)) (SignedSquareRootGen ft' (@eval S_ scalar ft' ji jf X_src))) end. ih OK. rw. rewrite (ssqrt_level ft ft'). reflexivity.
  - match goal with |- eval _ _ _ (NAbs ?X_src) = _ => change (@eq (source S_ scalar) (AbsGen (@eval S_ scalar ft ji jf X_src)) (AbsGen (@eval S_ scalar ft' ji jf X_src))) end. ih OK. rw. reflexivity.
  - match goal with |- eval _ _ _ (NDomainRotatePlane ?X_src ?X_ty) = _ => change (@eq (source S_ scalar) (DomainRotatePlaneGen (@eval S_ scalar ft ji jf X_src) X_ty) (DomainRotatePlaneGen (@eval S_ scalar ft' ji jf X_src) X_ty)) end. ih OK. rw. reflexivity.
  - reflexivity.
  - match goal with |- hval _ _ _ (HNSrc ?x) = _ => change (HSrc (@eval S_ scalar ft ji jf x) = HSrc (@eval S_ scalar ft' ji jf x)) end. ih OK. rw. reflexivity.
  - match goal with |- wval _ _ _ (WGradient ?src ?amp ?axis ?so ?freq) = _ => change (@eq (warp_node S_ scalar) ({| wSource := @eval S_ scalar ft ji jf src; wAmplitude := @hval S_ scalar ft ji jf amp; wAxisScale := axis; wSeedOffset := so; wFrequency := freq; wWarp := GradientWarp so axis |}) ({| wSource := @eval S_ scalar ft' ji jf src; wAmplitude := @hval S_ scalar ft' ji jf amp; wAxisScale := axis; wSeedOffset := so; wFrequency := freq; wWarp := GradientWarp so axis |})) end. ih OK. rw. reflexivity.
  - match goal with |- wval _ _ _ (WSimplex ?src ?amp ?axis ?so ?freq ?scheme) = _ => change (@eq (warp_node S_ scalar) ({| wSource := @eval S_ scalar ft ji jf src; wAmplitude := @hval S_ scalar ft ji jf amp; wAxisScale := axis; wSeedOffset := so; wFrequency := freq; wWarp := SimplexWarp ft scheme so axis |}) ({| wSource := @eval S_ scalar ft' ji jf src; wAmplitude := @hval S_ scalar ft' ji jf amp; wAxisScale := axis; wSeedOffset := so; wFrequency := freq; wWarp := SimplexWarp ft' scheme so axis |})); assert (HO : ok ft ft' scheme) by (destruct OK as [OK|OK]; [left; exact OK|right; exact (proj1 OK)]); rewrite (proj1 (warps_level ft ft' scheme HO)) end. ih OK. rw. reflexivity.
  - match goal with |- wval _ _ _ (WSuperSimplex ?src ?amp ?axis ?so ?freq ?scheme) = _ => change (@eq (warp_node S_ scalar) ({| wSource := @eval S_ scalar ft ji jf src; wAmplitude := @hval S_ scalar ft ji jf amp; wAxisScale := axis; wSeedOffset := so; wFrequency := freq; wWarp := SuperSimplexWarp ft scheme axis |}) ({| wSource := @eval S_ scalar ft' ji jf src; wAmplitude := @hval S_ scalar ft' ji jf amp; wAxisScale := axis; wSeedOffset := so; wFrequency := freq; wWarp := SuperSimplexWarp ft' scheme axis |})); assert (HO : ok ft ft' scheme) by (destruct OK as [OK|OK]; [left; exact OK|right; exact (proj1 OK)]); rewrite (proj2 (warps_level ft ft' scheme HO)) end. ih OK. rw. reflexivity.
Qed.

(** Any two levels and register widths give a graph the same value at the same seed and position (and the
    same content of never-written registers, see C51). *)
Theorem C68_levels : forall n n' ft ft' ji ji' jf jf' (x : node S_) seed seed' pos pos' l l', (l < n)%nat -> (l' < n')%nat ->
  no_matrix x -> seed l = seed' l' -> lane l pos = lane l' pos' -> lane l ji = lane l' ji' -> lane l jf = lane l' jf' ->
  query (s:=S_) n ft ji jf x seed pos l = query (s:=S_) n' ft' ji' jf' x seed' pos' l'.
Proof.
  intros n n' ft ft' ji ji' jf jf' x seed seed' pos pos' l l' Hl Hl' HX Hs Hp Hi Hf. rewrite !C51_lane_wise by assumption. rewrite Hs, Hp, Hi, Hf.
  unfold point. rewrite (eval_level ft ft') by (right; exact HX). reflexivity.
Qed.
(** With the orthogonal matrix scheme this holds between levels that use the same tables: all x86 levels
    below AVX2 and the levels without tables (SSE2, SSE4.1, NEON, scalar), with and without fast
    approximate operations and FMA. *)
Theorem C68_same_tables : forall n n' ft ft' ji ji' jf jf' (x : node S_) seed seed' pos pos' l l', (l < n)%nat -> (l' < n')%nat ->
  avx512 ft = avx512 ft' -> avx2 ft = avx2 ft' -> seed l = seed' l' -> lane l pos = lane l' pos' -> lane l ji = lane l' ji' -> lane l jf = lane l' jf' ->
  query (s:=S_) n ft ji jf x seed pos l = query (s:=S_) n' ft' ji' jf' x seed' pos' l'.
Proof.
  intros n n' ft ft' ji ji' jf jf' x seed seed' pos pos' l l' Hl Hl' H1 H2 Hs Hp Hi Hf. rewrite !C51_lane_wise by assumption. rewrite Hs, Hp, Hi, Hf.
  unfold point. rewrite (eval_level ft ft') by (left; split; assumption). reflexivity.
Qed.
End L.

(** A graph with every node kind whose code depends on the level, at a scalar build and at AVX512 with sixteen lanes. *)
Example C68_case : forall inf bits, let S_ := Rops inf bits in
  let r := @Build_range S_ (-1)%R 2%R in let c := (1 / 100)%R : V S_ in
  let cell := NCellularDistance {| cmDist := Euclidean; cmSeedOffset := 3; cmFrequency := c |} (HNConst c) (HNConst c) (HNConst c) r Index0Sub1 0 1 in
  let x := NFade (NFBm (NPerlin 1 c r) (HNConst c) (HNSrc cell) 5 c) (NWarpProgressive (WGradient cell (HNConst c) [c; c; c; c] 2 c) (HNConst c) (HNConst c) 3 c)
             (HNSrc (NSignedSquareRoot (NDistanceToPoint Hybrid (HNConst c) (HNConst c) (HNConst c) (HNConst c) (HNConst c))))
             (HNSrc (NSuperSimplex 2 c r)) (HNSrc (NWarp (WSimplex (NSimplex 4 c r) (HNConst c) [c; c; c; c] 5 c GradientOuterProduct))) Quintic : node S_ in
  no_matrix x /\
  query (s:=S_) 1 {| avx512 := false; avx2 := false; x86 := false; sse41 := false; relaxed := false |} [] [] x (fun _ => 1337%Z) [fun _ => 1; fun _ => 2; fun _ => 3; fun _ => 4] 0%nat
  = query (s:=S_) 16 {| avx512 := true; avx2 := true; x86 := true; sse41 := true; relaxed := true |} [] [] x (fun _ => 1337%Z) [fun k => INR k; fun _ => 2; fun _ => 3; fun _ => 4] 1%nat.
Proof.
  intros. assert (HX : no_matrix x) by (subst x cell; repeat split). split; [exact HX|].
  apply C68_levels; [lia|lia|exact HX|reflexivity|reflexivity|reflexivity|reflexivity].
Qed.
Print Assumptions C68_levels.
Print Assumptions C68_same_tables.
