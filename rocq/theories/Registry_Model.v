(** The node registry: metadata of every node type.
    Models include/FastNoise/Metadata.h:71-348 (member descriptors), the
    MetadataT<...> constructors of include/FastNoise/Generators/*.h and the
    registration order of src/FastNoise/FastSIMD_Build.inl:86-143.
    Simplifications: descriptions, UI drag speeds and min/max UI hints are not
    modelled; a variable's value is its 32-bit pattern (ValueUnion::i). *)
From Coq Require Import String.
From Coq Require Import ZArith List Bool.
From Verif Require Import Prelude.
Import ListNotations.
Open Scope Z_scope.

(** Metadata.h:94-99  MemberVariable::eType; enum names for EEnum *)
Inductive var_kind := KFloat | KInt | KEnum (names : list string).

(** Metadata.h:76-148  MemberVariable: [v_default] is valueDefault.i as an
    unsigned 32-bit pattern; [v_class] is the value a freshly constructed node
    class holds for the member the setter writes (the in-class initialiser). *)
Record var_decl := { v_name : string; v_dim : Z; v_kind : var_kind; v_default : Z; v_class : Z }.

(** Metadata.h:150-165  MemberNodeLookup; [l_warp] is true when setFunc accepts
    only DomainWarp nodes (GeneratorSourceT<DomainWarp>), false for any Generator. *)
Record lookup_decl := { l_name : string; l_warp : bool }.

(** Metadata.h:167-190  MemberHybrid; float default as 32-bit pattern, and the
    class initialiser. *)
Record hybrid_decl := { h_name : string; h_dim : Z; h_default : Z; h_class : Z }.

(** Metadata.h:246-254; [t_warp] = the class derives from DomainWarp. *)
Record node_type := {
  t_name : string;
  t_groups : list string;
  t_vars : list var_decl;
  t_lookups : list lookup_decl;
  t_hybrids : list hybrid_decl;
  t_warp : bool
}.

(** 32-bit patterns of the float constants used as defaults *)
Definition f_0   : Z := 0.
Definition f_1   : Z := 0x3F800000.
Definition f_m1  : Z := 0xBF800000.
Definition f_2   : Z := 0x40000000.
Definition f_0_5 : Z := 0x3F000000.
Definition f_1_5 : Z := 0x3FC00000.
Definition f_0_1 : Z := 0x3DCCCCCD.
Definition f_50  : Z := 0x42480000.
Definition f_100 : Z := 0x42C80000.

(** Generator.h:498-555  AddVariable (float / int); class initialiser = default *)
Definition vF (n : string) (d : Z) : var_decl := {| v_name := n; v_dim := -1; v_kind := KFloat; v_default := d; v_class := d |}.
Definition vI (n : string) (d : Z) : var_decl := {| v_name := n; v_dim := -1; v_kind := KInt; v_default := d; v_class := d |}.
(** Generator.h:557-606  AddVariableEnum *)
Definition vE (n : string) (d : Z) (names : list string) : var_decl :=
  {| v_name := n; v_dim := -1; v_kind := KEnum names; v_default := d; v_class := d |}.
(** Generator.h:608-640  AddPerDimensionVariable: one member per Dim X,Y,Z,W *)
Definition vDim (n : string) (d : Z) : list var_decl :=
  List.map (fun i => {| v_name := n; v_dim := i; v_kind := KFloat; v_default := d; v_class := d |}) [0;1;2;3].
(** Generator.h:642-664  AddGeneratorSource *)
Definition lG (n : string) : lookup_decl := {| l_name := n; l_warp := false |}.
Definition lW (n : string) : lookup_decl := {| l_name := n; l_warp := true |}.
(** Generator.h:690-728  AddHybridSource *)
Definition hF (n : string) (d : Z) : hybrid_decl := {| h_name := n; h_dim := -1; h_default := d; h_class := d |}.
(** Generator.h:730-772  AddPerDimensionHybridSource *)
Definition hDim (n : string) (d : Z) : list hybrid_decl :=
  List.map (fun i => {| h_name := n; h_dim := i; h_default := d; h_class := d |}) [0;1;2;3].

(** Generator.h:50-58, 67-71, 30-33; DomainWarpSimplex.h:13-17 *)
Definition kDistanceFunction_Strings : list string :=
  ["Euclidean"; "Euclidean Squared"; "Manhattan"; "Hybrid"; "Max Axis"; "Minkowski"]%string.
Definition kBoolean_Strings : list string := ["False"; "True"]%string.
Definition kDim_Strings : list string := ["X"; "Y"; "Z"; "W"]%string.
Definition kVectorizationScheme_Strings : list string := ["Orthogonal Gradient Matrix"; "Gradient Outer Product"]%string.

Open Scope string_scope.
Open Scope list_scope.

Definition mk (n : string) (g : list string) (v : list var_decl) (l : list lookup_decl) (h : list hybrid_decl) : node_type :=
  {| t_name := n; t_groups := g; t_vars := v; t_lookups := l; t_hybrids := h; t_warp := false |}.

(** BasicGenerators.h:33-39, 69-79, 117-124  the mix-in metadata *)
Definition scalable : list var_decl := [vF "Feature Scale" f_100].
Definition seeded : list var_decl := [vI "Seed Offset" 0].
Definition ranged : list var_decl := [vF "Output Min" f_m1; vF "Output Max" f_1].

(** Blends.h:22-30, 48-56 *)
Definition op_source (n g : string) (extra : list hybrid_decl) : node_type :=
  mk n [g] [] [lG "LHS"] (hF "RHS" f_0 :: extra).
Definition op_hybrid (n g : string) : node_type :=
  mk n [g] [] [] [hF "LHS" f_0; hF "RHS" f_0].

(** Fractal.h:29-62 *)
Definition fractal (n : string) (g : list string) (src : lookup_decl) : node_type :=
  mk n g [vI "Octaves" 3; vF "Lacunarity" f_2] [src] [hF "Gain" f_0_5; hF "Weighted Strength" f_0].

(** Cellular.h:31-56; [base] are the variables of the PARENT *)
Definition cellular (n : string) (base : list var_decl) (extra : list var_decl) (l : list lookup_decl) : node_type :=
  mk n ["Coherent Noise"] (base ++ [vE "Distance Function" 1 kDistanceFunction_Strings] ++ extra) l
     [hF "Minkowski P" f_1_5; hF "Grid Jitter" f_1; hF "Size Jitter" f_0].

(** DomainWarp.h:26-36 *)
Definition domain_warp (n : string) (extra : list var_decl) : node_type :=
  {| t_name := n; t_groups := ["Domain Warp"];
     t_vars := scalable ++ seeded ++ vDim "Amplitude Scaling" f_1 ++ extra;
     t_lookups := [lG "Source"]; t_hybrids := [hF "Warp Amplitude" f_50]; t_warp := true |}.

(** Modifiers.h: nodes with one source *)
Definition modifier (n g : string) (v : list var_decl) (h : list hybrid_decl) : node_type :=
  mk n [g] v [lG "Source"] h.

(** src/FastNoise/FastSIMD_Build.inl:86-143, in order; ids are positions. *)
Definition registry : list node_type := [
  (*  0 BasicGenerators.h:140-153 *) mk "Constant" ["Basic Generators"] [vF "Value" f_1] [] [];
  (*  1 BasicGenerators.h:163-175 *) mk "White" ["Basic Generators"] (seeded ++ ranged) [] [];
  (*  2 BasicGenerators.h:185-197 *) mk "Checkerboard" ["Basic Generators"] (scalable ++ ranged) [] [];
  (*  3 BasicGenerators.h:207-219 *) mk "SineWave" ["Basic Generators"] (scalable ++ ranged) [] [];
  (*  4 BasicGenerators.h:243-259 *) mk "Gradient" ["Basic Generators"] (vDim "Multiplier" f_0) [] (hDim "Offset" f_0);
  (*  5 BasicGenerators.h:289, 298-316: metadata default Euclidean (0), class default EuclideanSquared (1) *)
        mk "DistanceToPoint" ["Basic Generators"]
          [{| v_name := "Distance Function"; v_dim := -1; v_kind := KEnum kDistanceFunction_Strings; v_default := 0; v_class := 1 |}]
          [] (hDim "Point" f_0 ++ [hF "Minkowski P" f_1_5]);
  (*  6 Simplex.h:14-27 *)  mk "Simplex" ["Coherent Noise"] (scalable ++ seeded ++ ranged) [] [];
  (*  7 Simplex.h:37-50 *)  mk "SuperSimplex" ["Coherent Noise"] (scalable ++ seeded ++ ranged) [] [];
  (*  8 Perlin.h:14-26 *)   mk "Perlin" ["Coherent Noise"] (scalable ++ seeded ++ ranged) [] [];
  (*  9 Value.h:14-25 *)    mk "Value" ["Coherent Noise"] (scalable ++ seeded ++ ranged) [] [];
  (* 10 Cellular.h:73-86 *) cellular "CellularValue" (scalable ++ seeded ++ ranged) [vI "Value Index" 0] [];
  (* 11 Cellular.h:116-132 *) cellular "CellularDistance" (scalable ++ seeded ++ ranged)
        [vI "Distance Index 0" 0; vI "Distance Index 1" 1;
         vE "Return Type" 0 ["Index0"; "Index0Add1"; "Index0Sub1"; "Index0Mul1"; "Index0Div1"]] [];
  (* 12 Cellular.h:147-160 *) cellular "CellularLookup" (scalable ++ seeded) [] [lG "Lookup"];
  (* 13 Fractal.h:73-86 *)    fractal "FractalFBm" ["Fractal"] (lG "Source");
  (* 14 Modifiers.h:338-358 *) modifier "PingPong" "Modifiers" [] [hF "Ping Pong Strength" f_2];
  (* 15 Fractal.h:96-110 *)   fractal "FractalRidged" ["Fractal"] (lG "Source");
  (* 16 DomainWarpSimplex.h:32-51 *) domain_warp "DomainWarpSimplex" [vE "Vectorization Scheme" 0 kVectorizationScheme_Strings];
  (* 17 DomainWarpSimplex.h:61-74 *) domain_warp "DomainWarpSuperSimplex" [vE "Vectorization Scheme" 0 kVectorizationScheme_Strings];
  (* 18 DomainWarp.h:47-60 *) domain_warp "DomainWarpGradient" [];
  (* 19 DomainWarpFractal.h:15-31 *) fractal "DomainWarpFractalProgressive" ["Domain Warp"; "Fractal"] (lW "Domain Warp Source");
  (* 20 DomainWarpFractal.h:41-55 *) fractal "DomainWarpFractalIndependent" ["Domain Warp"; "Fractal"] (lW "Domain Warp Source");
  (* 21 Blends.h:67-73 *)   op_source "Add" "Operators" [];
  (* 22 Blends.h:83-89 *)   op_hybrid "Subtract" "Operators";
  (* 23 Blends.h:99-105 *)  op_source "Multiply" "Operators" [];
  (* 24 Blends.h:115-121 *) op_hybrid "Divide" "Operators";
  (* 25 Modifiers.h:530-541 *) modifier "Abs" "Modifiers" [] [];
  (* 26 Blends.h:147-151 *) op_source "Min" "Blends" [];
  (* 27 Blends.h:161-165 *) op_source "Max" "Blends" [];
  (* 28 Blends.h:243-258 *) op_source "MinSmooth" "Blends" [hF "Smoothness" f_0_1];
  (* 29 Blends.h:274-289 *) op_source "MaxSmooth" "Blends" [hF "Smoothness" f_0_1];
  (* 30 Modifiers.h:501-515 *) modifier "SignedSquareRoot" "Modifiers" [] [];
  (* 31 Blends.h:184-197 *) mk "PowFloat" ["Blends"] [] [] [hF "Value" f_2; hF "Pow" f_2];
  (* 32 Blends.h:214-227 *) mk "PowInt" ["Blends"] [vI "Pow" 2] [lG "Value"] [];
  (* 33 Modifiers.h:21-35 *) modifier "DomainScale" "Domain Modifiers" [vF "Scaling" f_1] [];
  (* 34 Modifiers.h:60-75 *) modifier "DomainOffset" "Domain Modifiers" [] (hDim "Offset" f_0);
  (* 35 Modifiers.h:125-144 *) modifier "DomainRotate" "Domain Modifiers" [vF "Yaw" f_0; vF "Pitch" f_0; vF "Roll" f_0] [];
  (* 36 Modifiers.h:379-393 *) modifier "DomainAxisScale" "Domain Modifiers" (vDim "Scaling" f_1) [];
  (* 37 Modifiers.h:161-175 *) modifier "SeedOffset" "Modifiers" [vI "Seed Offset" 1] [];
  (* 38 Modifiers.h:254-281 *) modifier "ConvertRGBA8" "Modifiers" [vF "Min" f_m1; vF "Max" f_1] [];
  (* 39 Modifiers.h:472-486 *) modifier "GeneratorCache" "Modifiers" [] [];
  (* 40 Blends.h:327-348 *) mk "Fade" ["Blends"] [vE "Interpolation" 0 ["Linear"; "Hermite"; "Quintic"]]
        [lG "A"; lG "B"] [hF "Fade" f_0; hF "Fade Min" f_m1; hF "Fade Max" f_1];
  (* 41 Modifiers.h:213-233 *) modifier "Remap" "Modifiers" [vE "Clamp Output" 0 kBoolean_Strings]
        [hF "From Min" f_m1; hF "From Max" f_1; hF "To Min" f_0; hF "To Max" f_1];
  (* 42 Modifiers.h:304-319 *) modifier "Terrace" "Modifiers" [vF "Step Count" f_1] [hF "Smoothness" f_0];
  (* 43 Modifiers.h:411-426 *) modifier "AddDimension" "Domain Modifiers" [] [hF "New Dimension Position" f_0];
  (* 44 Modifiers.h:443-457 *) modifier "RemoveDimension" "Domain Modifiers" [vE "Remove Dimension" 1 kDim_Strings] [];
  (* 45 Blends.h:131-137 *) op_hybrid "Modulus" "Operators";
  (* 46 Modifiers.h:566-586 *) modifier "DomainRotatePlane" "Domain Modifiers"
        [vE "Rotation Type" 0 ["Improve XY Planes"; "Improve XZ Planes"]] []
].

Close Scope string_scope.
