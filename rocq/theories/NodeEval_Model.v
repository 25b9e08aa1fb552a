(** A node graph as a tree of node descriptions and its value: every node class with the members
    its GenT reads, and the virtual call simdGen->Gen( seed, pos... ) (Generator.inl:48-67) of its
    sources. Sharing of a source between nodes does not matter to the value (no node here has
    state; GeneratorCache is modelled in Cache_Model.v). *)
From Coq Require Import ZArith List Bool.
From Verif Require Import Prelude Simd_Model Utils_Model Nodes_Model Warp_Model Cellular_Model Simplex_Model SimplexWarp_Model.
Import ListNotations.
Open Scope Z_scope.

Section Eval.
Context {s : sops}.
Notation V := (V s).

(** Cellular.h:22-27 and the inherited members, with the hybrid members given separately *)
Record cellular_members := { cmDist : DistanceFunction; cmSeedOffset : Z; cmFrequency : V }.

Inductive node : Type :=
| NConstant (mValue : V)
| NWhite (so : Z) (r : range s)
| NCheckerboard (freq : V) (r : range s)
| NSineWave (freq : V) (r : range s)
| NGradient (ox oy oz ow : hnode) (mMultiplier : list V)
| NDistanceToPoint (df : DistanceFunction) (mMinkowskiP px py pz pw : hnode)
| NValue (so : Z) (freq : V) (r : range s)
| NPerlin (so : Z) (freq : V) (r : range s)
| NSimplex (so : Z) (freq : V) (r : range s)
| NSuperSimplex (so : Z) (freq : V) (r : range s)
| NCellularValue (cm : cellular_members) (mink grid size : hnode) (r : range s) (mValueIndex : nat)
| NCellularDistance (cm : cellular_members) (mink grid size : hnode) (r : range s) (rt : ReturnType) (i0 i1 : nat)
| NCellularLookup (cm : cellular_members) (mink grid size : hnode) (mScale : V) (lookup : node)
| NFBm (src : node) (gain weight : hnode) (octaves : Z) (lacunarity : V)
| NRidged (src : node) (gain weight : hnode) (octaves : Z) (lacunarity : V)
| NWarp (w : wnode)
| NWarpProgressive (w : wnode) (gain weight : hnode) (octaves : Z) (lacunarity : V)
| NWarpIndependent (w : wnode) (gain weight : hnode) (octaves : Z) (lacunarity : V)
| NAdd (lhs : node) (rhs : hnode)
| NSubtract (lhs rhs : hnode)
| NMultiply (lhs : node) (rhs : hnode)
| NDivide (lhs rhs : hnode)
| NModulus (lhs rhs : hnode)
| NPowFloat (value pow : hnode)
| NPowInt (value : node) (pow : Z)
| NMin (lhs : node) (rhs : hnode)
| NMax (lhs : node) (rhs : hnode)
| NMinSmooth (lhs : node) (rhs smoothness : hnode)
| NMaxSmooth (lhs : node) (rhs smoothness : hnode)
| NFade (a b : node) (fade fadeMin fadeMax : hnode) (ip : Interpolation)
| NDomainScale (src : node) (mScale : V)
| NDomainOffset (src : node) (ox oy oz ow : hnode)
| NDomainRotate (src : node) (m : rotation s)
| NSeedOffset (src : node) (offset : Z)
| NRemap (src : node) (fromMin fromMax toMin toMax : hnode) (clamp : bool)
| NConvertRGBA8 (src : node) (mMin mMax : V)
| NTerrace (src : node) (smoothness : hnode) (smoothnessRecip stepCount stepCountRecip : V)
| NPingPong (src : node) (strength : hnode)
| NDomainAxisScale (src : node) (mScale : list V)
| NAddDimension (src : node) (new : hnode)
| NRemoveDimension (src : node) (d : Dim)
| NSignedSquareRoot (src : node)
| NAbs (src : node)
| NDomainRotatePlane (src : node) (ty : PlaneRotationType)
(** HybridSourceT (Generator.h:44-58) *)
with hnode : Type := HNConst (c : V) | HNSrc (x : node)
(** the nodes derived from DomainWarp *)
with wnode : Type :=
| WGradient (src : node) (amplitude : hnode) (axisScale : list V) (so : Z) (freq : V)
| WSimplex (src : node) (amplitude : hnode) (axisScale : list V) (so : Z) (freq : V) (scheme : VectorizationScheme)
| WSuperSimplex (src : node) (amplitude : hnode) (axisScale : list V) (so : Z) (freq : V) (scheme : VectorizationScheme).

Section Width.
Context {W : simd}.
Variable ft : feat.
(** the content of uninitialised local registers (Cellular.inl:32, 584) *)
Variables (junkI : list (I W)) (junkF : list (F s W)).

Definition cellular_of (cm : cellular_members) (mink grid size : hyb s W) (scale : V) : cellular s W :=
  {| clDist := cmDist cm; clMinkowski := mink; clGrid := grid; clSize := size; clSeedOffset := cmSeedOffset cm; clFrequency := cmFrequency cm; clScale := scale |}.
Definition fractal_of (gain weight : hyb s W) (oct : Z) (lac : V) : fractal s W :=
  {| frGain := gain; frWeight := weight; frOctaves := oct; frLacunarity := lac |}.

Fixpoint eval (x : node) : source s W :=
  match x with
  | NConstant c => ConstantGen c
  | NWhite so r => WhiteGen so r
  | NCheckerboard freq r => CheckerboardGen freq r
  | NSineWave freq r => SineWaveGen freq r
  | NGradient ox oy oz ow m => GradientGen [hval ox; hval oy; hval oz; hval ow] m
  | NDistanceToPoint df mink px py pz pw => DistanceToPointGen ft df (hval mink) [hval px; hval py; hval pz; hval pw]
  | NValue so freq r => ValueGen so freq r
  | NPerlin so freq r => PerlinGen ft so freq r
  | NSimplex so freq r => SimplexGen ft so freq r
  | NSuperSimplex so freq r => SuperSimplexGen ft so freq r
  | NCellularValue cm mink grid size r i => CellularValueGen ft junkI (cellular_of cm (hval mink) (hval grid) (hval size) (lit 0 0)) r i
  | NCellularDistance cm mink grid size r rt i0 i1 => CellularDistanceGen ft (cellular_of cm (hval mink) (hval grid) (hval size) (lit 0 0)) r rt i0 i1
  | NCellularLookup cm mink grid size scale lookup => CellularLookupGen ft junkF (cellular_of cm (hval mink) (hval grid) (hval size) scale) (eval lookup)
  | NFBm src gain weight oct lac => FBmGen (fractal_of (hval gain) (hval weight) oct lac) (eval src)
  | NRidged src gain weight oct lac => RidgedGen (fractal_of (hval gain) (hval weight) oct lac) (eval src)
  | NWarp w => DomainWarpGen (wval w)
  | NWarpProgressive w gain weight oct lac => DomainWarpFractalProgressiveGen ft (fractal_of (hval gain) (hval weight) oct lac) (wval w)
  | NWarpIndependent w gain weight oct lac => DomainWarpFractalIndependentGen ft (fractal_of (hval gain) (hval weight) oct lac) (wval w)
  | NAdd l r => AddGen (eval l) (hval r)
  | NSubtract l r => SubtractGen (hval l) (hval r)
  | NMultiply l r => MultiplyGen (eval l) (hval r)
  | NDivide l r => DivideGen (hval l) (hval r)
  | NModulus l r => ModulusGen (hval l) (hval r)
  | NPowFloat v p => PowFloatGen (hval v) (hval p)
  | NPowInt v p => PowIntGen (eval v) p
  | NMin l r => MinGen (eval l) (hval r)
  | NMax l r => MaxGen (eval l) (hval r)
  | NMinSmooth l r sm => MinSmoothGen (eval l) (hval r) (hval sm)
  | NMaxSmooth l r sm => MaxSmoothGen (eval l) (hval r) (hval sm)
  | NFade a b f mn mx ip => FadeGen (eval a) (eval b) (hval f) (hval mn) (hval mx) ip
  | NDomainScale src k => DomainScaleGen (eval src) k
  | NDomainOffset src ox oy oz ow => DomainOffsetGen (eval src) [hval ox; hval oy; hval oz; hval ow]
  | NDomainRotate src m => DomainRotateGen (eval src) m
  | NSeedOffset src k => SeedOffsetGen (eval src) k
  | NRemap src a b c d clamp => RemapGen (eval src) (hval a) (hval b) (hval c) (hval d) clamp
  | NConvertRGBA8 src mn mx => ConvertRGBA8Gen (eval src) mn mx
  | NTerrace src sm smr sc scr => TerraceGen (eval src) {| tSmoothness := hval sm; tSmoothnessRecip := smr; tStepCount := sc; tStepCountRecip := scr |}
  | NPingPong src st => PingPongGen (eval src) (hval st)
  | NDomainAxisScale src k => DomainAxisScaleGen (eval src) k
  | NAddDimension src new => AddDimensionGen (eval src) (hval new)
  | NRemoveDimension src d => RemoveDimensionGen (eval src) d
  | NSignedSquareRoot src => SignedSquareRootGen ft (eval src)
  | NAbs src => AbsGen (eval src)
  | NDomainRotatePlane src ty => DomainRotatePlaneGen (eval src) ty
  end
with hval (h : hnode) : hyb s W := match h with HNConst c => HConst c | HNSrc x => HSrc (eval x) end
with wval (w : wnode) : warp_node s W :=
  match w with
  | WGradient src amp axis so freq =>
      {| wSource := eval src; wAmplitude := hval amp; wAxisScale := axis; wSeedOffset := so; wFrequency := freq; wWarp := GradientWarp so axis |}
  | WSimplex src amp axis so freq scheme =>
      {| wSource := eval src; wAmplitude := hval amp; wAxisScale := axis; wSeedOffset := so; wFrequency := freq; wWarp := SimplexWarp ft scheme so axis |}
  | WSuperSimplex src amp axis so freq scheme =>
      {| wSource := eval src; wAmplitude := hval amp; wAxisScale := axis; wSeedOffset := so; wFrequency := freq; wWarp := SuperSimplexWarp ft scheme axis |}
  end.
End Width.
End Eval.
Arguments node s : clear implicits. Arguments hnode s : clear implicits. Arguments wnode s : clear implicits.
Arguments cellular_members s : clear implicits.
