(** C51: the value of a node graph at a position depends only on the graph, the seed and the
    position of its own lane, for every register width. *)
From Coq Require Import ZArith List Bool Arith Lia.
From Flocq Require Import IEEE754.BinarySingleNaN.
From Verif Require Import Prelude Simd_Model Utils_Model Nodes_Model Cellular_Model SimplexWarp_Model NodeEval_Model Lanes Simd_F32 P_Batch.
Import ListNotations.
Open Scope Z_scope.

(** ** Specification
    [query]: the value of the graph with root [x] in lane [l] of a register computation of width
    [n]. [point]: the value of the graph for one position, computed with plain floats. The
    lists [ji], [jf] are what uninitialised local registers contain. *)
Section Spec.
Context {s : sops}.
Definition query (n : nat) (ft : feat) (ji : list (I (lanes n))) (jf : list (F s (lanes n))) (x : node s) (seed : nat -> Z) (pos : list (nat -> V s)) (l : nat) : V s :=
  eval (W := lanes n) ft ji jf x seed pos l.
Definition point (ft : feat) (ji : list Z) (jf : list (V s)) (x : node s) (seed : Z) (pos : list (V s)) : V s :=
  eval (s := s) (W := scalar) ft ji jf x seed pos.
Definition lane {A} (l : nat) (regs : list (nat -> A)) : list A := map (fun r => r l) regs.
End Spec.

Lemma lane_rel : forall A n l (a : list (nat -> A)), lrel n l (A := A) a (lane l a).
Proof. induction a; constructor; [reflexivity|assumption]. Qed.

(** Lane-wise: for every arithmetic, feature set, register width and node graph, lane l is the
    one-position value for lane l of the seed and of the position. *)
Theorem C51_lane_wise : forall (s : sops) n ft ji jf (x : node s) seed pos l, (l < n)%nat ->
  query n ft ji jf x seed pos l = point ft (lane l ji) (lane l jf) x (seed l) (lane l pos).
Proof.
  intros s n ft ji jf x seed pos l Hl. unfold query, point.
  apply (eval_rel n l Hl ft ji (lane l ji) jf (lane l jf) (lane_rel _ n l ji) (lane_rel _ n l jf) x); [reflexivity|apply lane_rel].
Qed.
Print Assumptions C51_lane_wise.

(** Neighbours and the register width do not matter. *)
Theorem C51_width_and_neighbours : forall (s : sops) n n' ft ji ji' jf jf' (x : node s) seed seed' pos pos' l l', (l < n)%nat -> (l' < n')%nat ->
  seed l = seed' l' -> lane l pos = lane l' pos' -> lane l ji = lane l' ji' -> lane l jf = lane l' jf' ->
  query n ft ji jf x seed pos l = query n' ft ji' jf' x seed' pos' l'.
Proof. intros s n n' ft ji ji' jf jf' x seed seed' pos pos' l l' Hl Hl' Hs Hp Hi Hf. rewrite !C51_lane_wise by assumption. rewrite Hs, Hp, Hi, Hf. reflexivity. Qed.
Print Assumptions C51_width_and_neighbours.

(** The bulk calls of C24-C28 get [pointwise] for every node graph: a grid, position array, single
    or tileable call with it computes [point] at each position, whatever the width. *)
Theorem C51_bulk : forall (s : sops) (m : machine (V s)) ft (ji : list Z) (jf : list (V s)) (x : node s),
  pointwise m (query (width m) ft (map (fun z _ => z) ji) (map (fun v _ => v) jf) x) (point ft ji jf x).
Proof.
  intros s m ft ji jf x seed pos l Hl. rewrite C51_lane_wise by exact Hl. unfold lane. rewrite !map_map, !map_id. reflexivity.
Qed.
Print Assumptions C51_bulk.
(** e.g. a 3D grid with two register widths *)
Theorem C51_grid3D : forall (s : sops) (m1 m2 : machine (V s)) ft ji jf (x : node s), good_width m1 -> good_width m2 -> conv_ m1 = conv_ m2 -> fma_ m1 = fma_ m2 ->
  forall fuel out xOff yOff zOff xCount yCount zCount xStep yStep zStep seed, 1 <= xCount -> 1 <= yCount -> 1 <= zCount -> xCount * yCount * zCount < 2^31 ->
  Z.of_nat (length out) = xCount * yCount * zCount -> enough fuel (xCount * yCount * zCount) m1 -> enough fuel (xCount * yCount * zCount) m2 ->
  exists mm1 mm2 out',
    grid3 m1 (query (width m1) ft (map (fun z _ => z) ji) (map (fun v _ => v) jf) x) fuel out xOff yOff zOff xCount yCount zCount xStep yStep zStep seed = Ok (mm1, out') /\
    grid3 m2 (query (width m2) ft (map (fun z _ => z) ji) (map (fun v _ => v) jf) x) fuel out xOff yOff zOff xCount yCount zCount xStep yStep zStep seed = Ok (mm2, out') /\
    forall i j k, 0 <= i < xCount -> 0 <= j < yCount -> 0 <= k < zCount ->
      nth_error out' (Z.to_nat (i + xCount * (j + yCount * k))) = Some (point ft ji jf x seed [axis m1 xOff xStep i; axis m1 yOff yStep j; axis m1 zOff zStep k]).
Proof.
  intros s m1 m2 ft ji jf x W1 W2 EC EF fuel out xo yo zo xc yc zc xs ys zs seed X Y Z T L F1 F2.
  destruct (C24_width_independent _ m1 m2 _ _ _ W1 W2 (C51_bulk s m1 ft ji jf x) (C51_bulk s m2 ft ji jf x) EC EF fuel out xo yo zo xc yc zc xs ys zs seed X Y Z T L F1 F2) as (mm1 & mm2 & o & E1 & E2).
  destruct (C24_grid3D _ m1 _ _ W1 (C51_bulk s m1 ft ji jf x) fuel out xo yo zo xc yc zc xs ys zs seed X Y Z T L F1) as (mm & o' & E3 & _ & A).
  rewrite E1 in E3. injection E3 as <- <-. exists mm1, mm2, o. auto.
Qed.
Print Assumptions C51_grid3D.

(** ** Refuted: "depends only on the graph, the seed and the position" without a condition on the
    position. CellularValue at a finite position whose distance to every cell overflows returns the
    value of a register that was never written. *)
Section Refute.
Variables (fsin_ fcos_ : f32 -> f32) (fpow_ ffmod_ : f32 -> f32 -> f32).
Notation S32 := (F32ops fsin_ fcos_ fpow_ ffmod_).
Definition ft0 : feat := {| avx512 := false; avx2 := false; x86 := true; sse41 := true; relaxed := false |}.
Definition cellvalue : node S32 :=
  NCellularValue (s := S32) {| cmDist := EuclideanSquared; cmSeedOffset := 0; cmFrequency := f_lit 1 0 : V S32 |}
    (HNConst (s := S32) (f_lit 2 0)) (HNConst (s := S32) (f_lit 1 0)) (HNConst (s := S32) (f_lit 0 0)) {| rMin := f_lit (-1) 0 : V S32; rScale := f_lit 2 0 : V S32 |} 0.
Theorem C51_uninitialised_refuted : exists ji ji' pos,
  Forall (fun p : V S32 => is_finite (p : f32) = true) pos /\
  point (s := S32) ft0 ji [] cellvalue 0 pos <> point (s := S32) ft0 ji' [] cellvalue 0 pos.
Proof.
  exists [0; 0; 0; 0], [2^30; 0; 0; 0], [f_lit 1 100; f_lit 0 0]. split; [repeat constructor|].
  intros H. apply (f_equal (fun v : V S32 => f_bits v)) in H. revert H. vm_compute. discriminate.
Qed.
End Refute.
Print Assumptions C51_uninitialised_refuted.

(** ** A non-trivial case: a fractal of Perlin noise, domain warped, blended with cellular noise, between
    limits of SuperSimplex noise and of a simplex warp of simplex noise. *)
Example C51_case : forall (s : sops) (c : V s) (m : machine (V s)),
  let r := {| rMin := c; rScale := c |} in
  let cell := NCellularDistance {| cmDist := Euclidean; cmSeedOffset := 3; cmFrequency := c |} (HNConst c) (HNSrc (NConstant c)) (HNConst c) r Index0Sub1 0 1 in
  let x := NFade (NFBm (NPerlin 1 c r) (HNConst c) (HNSrc cell) 5 c) (NWarpProgressive (WGradient cell (HNConst c) [c; c; c; c] 2 c) (HNConst c) (HNConst c) 3 c)
             (HNSrc (NTerrace (NValue 0 c r) (HNSrc (NWhite 1 r)) c c c))
             (HNSrc (NSuperSimplex 2 c r)) (HNSrc (NWarp (WSimplex (NSimplex 4 c r) (HNConst c) [c; c; c; c] 5 c OrthogonalGradientMatrix))) Quintic in
  forall ft, pointwise m (query (width m) ft [] [] x) (point ft [] [] x).
Proof. intros. apply (C51_bulk s m ft [] [] x). Qed.
