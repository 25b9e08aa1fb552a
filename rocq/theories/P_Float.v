(** Behaviours of the float arithmetic that the real-arithmetic theorems do not show (IEEE binary32). *)
From Coq Require Import ZArith List Bool.
From Flocq Require Import IEEE754.BinarySingleNaN.
From Verif Require Import Prelude Simd_Model Utils_Model Nodes_Model Cellular_Model Simd_F32 Setters_Model.
Import ListNotations.
Open Scope Z_scope.

Section Float.
Variables (fsin_ fcos_ : f32 -> f32) (fpow_ ffmod_ : f32 -> f32 -> f32).
Notation S := (F32ops fsin_ fcos_ fpow_ ffmod_).

(** C57: SetOutputMin( 1e8 ) followed by SetOutputMin( -1 ), with the maximum left at 1, collapses the output range to
    the single value -1: the user expects [-1, 1]. *)
Theorem C57_output_min_rounding_refuted :
  let r := SetOutputMin (SetOutputMin (range_default (s:=S)) (f_lit 100000000 0)) (f_lit (-1) 0) in
  f_bits (rMin r) = f_bits (f_lit (-1) 0) /\ f_bits (rScale r) = f_bits (f_lit 0 0).
Proof. split; vm_compute; reflexivity. Qed.

(** C38: Cellular Distance with the Euclidean metric is NaN at a feature point (here: grid jitter 0, at the origin). *)
Definition cellular0 : cellular S scalar :=
  {| clDist := Euclidean; clMinkowski := HConst (s:=S) (W:=scalar) (f_lit 3 (-1)); clGrid := HConst (s:=S) (W:=scalar) (f_lit 0 0);
     clSize := HConst (s:=S) (W:=scalar) (f_lit 0 0); clSeedOffset := 0; clFrequency := f_lit 1 0; clScale := f_lit 1 0 |}.
Theorem C38_zero_distance_nan_refuted : forall seed : Z, In seed [0; 1; 1337] ->
  CellularDistanceGen (W:=scalar) {| avx512 := false; avx2 := false; x86 := true; sse41 := true; relaxed := false |}
    cellular0 range_default Index0 0 1 seed [f_lit 0 0; f_lit 0 0] = f_nan.
Proof. intros seed H. cbn [In] in H. repeat (destruct H as [<-|H]; [vm_compute; reflexivity|]). contradiction. Qed.
End Float.
Print Assumptions C57_output_min_rounding_refuted.
Print Assumptions C38_zero_distance_nan_refuted.
