(** Bulk generation. Models include/FastNoise/Generators/Generator.inl:79-433 (grid,
    position array, single, tileable), 447-510 (AxisReset, LoadRemaining,
    StoreRemaining) and Generator.h:86-102 (OutputMinMax).
    A SIMD register of [N] lanes is a function from the lane number; lanes >= N are
    never used. The element type [V] of floats is abstract: conversion, multiply-add,
    addition, minimum and maximum are parameters, so the results hold for IEEE
    arithmetic of any rounding. The three functions per family (2D, 3D, 4D) differ only in
    the number of axes, which is the length of a list here. *)
From Coq Require Import ZArith List Bool.
From Verif Require Import Prelude.
Import ListNotations.
Open Scope Z_scope.

Section Batch.
  Variable N : nat.                              (* int32v::ElementCount *)
  Variable V : Type.
  Variables vmin vmax : V -> V -> V.             (* FS::Min / FS::Max, one lane *)
  Variables smin smax : V -> V -> V.             (* std::min / std::max *)
  Variables inf ninf : V.                        (* kInfinity, -kInfinity *)
  Variable junk : nat -> V.                      (* uninitialised lanes (an uninitialised float32v) *)

  Definition ivec := nat -> Z.
  Definition fvec := nat -> V.
  Definition nz : Z := Z.of_nat N.

  (** int multiplication; signed overflow is undefined *)
  Definition imul (a b : Z) : res Z :=
    let p := a * b in if (- 2^31 <=? p) && (p <? 2^31) then Ok p else UB.

  (** Generator.inl:447-456  AxisReset: the loop, [r] = resetLoop, [aStep] a size_t *)
  Fixpoint axis_loop (fuel : nat) (r aStep aMax aSize : Z) (a b : ivec) : res (ivec * ivec) :=
    match fuel with
    | O => NoFuel
    | S f =>
        if r <? nz then
          let m := fun l => aMax <? a l in
          axis_loop f (u64 (r + aStep)) aStep aMax aSize
            (fun l => if m l then s32 (a l - aSize) else a l)
            (fun l => if m l then s32 (b l + 1) else b l)
        else Ok (a, b)
    end.
  Definition axis_reset (fuel : nat) (initial : bool) (aStep aMax aSize : Z) (a b : ivec) : res (ivec * ivec) :=
    axis_loop fuel (if initial then u64 aStep else 0) (u64 aStep) aMax aSize a b.

  (** The AxisReset calls of one round (100, 118; 155-156, 175-176; 219-221, 241-243; 396, 419):
      axis after axis, the step being the product of the counts so far. *)
  Fixpoint reset_axes (fuel : nat) (initial : bool) (step : Z) (counts : list Z) (idx : list ivec) : res (list ivec) :=
    match counts, idx with
    | c :: (_ :: _) as counts', a :: b :: rest =>
        step <- imul step c ;
        ' (a, b) <- axis_reset fuel initial step (s32 (c - 1)) c a b ;
        r <- reset_axes fuel initial step counts' (b :: rest) ;
        Ok (a :: r)
    | _, _ => Ok idx
    end.

  (** FS::Store / memcpy of [k] lanes to noiseOut[at ..]; outside the buffer is UB *)
  Fixpoint store (k l : nat) (out : list V) (at_ : Z) (v : fvec) : res (list V) :=
    match k with
    | O => Ok out
    | S k' => if at_ + Z.of_nat l <? 0 then UB
              else out <- wr out (Z.to_nat (at_ + Z.of_nat l)) (v l) ; store k' (S l) out at_ v
    end.

  Record minmax := { mn : V; mx : V }.
  (** Generator.h:88-100 *)
  Definition mm_value (m : minmax) (v : V) : minmax := {| mn := smin (mn m) v; mx := smax (mx m) v |}.
  Definition mm_merge (m o : minmax) : minmax := {| mn := smin (mn m) (mn o); mx := smax (mx m) (mx o) |}.
  Definition mm0 : minmax := {| mn := inf; mx := ninf |}.

  (** 483-487: do minMax << noiseOut[index]; while( ++index < totalValues ) *)
  Fixpoint mm_scan (fuel : nat) (out : list V) (index total : Z) (m : minmax) : res minmax :=
    match fuel with
    | O => NoFuel
    | S f =>
        v <- (if index <? 0 then UB else rd out (Z.to_nat index)) ;
        let m := mm_value m v in
        if index + 1 <? total then mm_scan f out (index + 1) total m else Ok m
    end.

  (** 499-505: fold the lanes of the vectors *)
  Fixpoint mm_lanes (k l : nat) (vmn vmx : fvec) (m : minmax) : minmax :=
    match k with O => m | S k' => mm_lanes k' (S l) vmn vmx (mm_merge m {| mn := vmn l; mx := vmx l |}) end.

  (** 472-510  StoreRemaining<LOADREMAINING>; a memcpy of a negative length does not occur
      in the callers: it is UB here, and copying more than a register is UB *)
  Definition store_remaining (fuel : nat) (loadrem : bool) (out : list V) (total index : Z) (vmn vmx gen : fvec) : res (minmax * list V) :=
    let remaining := total - index in
    ' (m, vmn, vmx, out) <-
      (if (if loadrem then index =? 0 else negb (remaining =? nz)) then
         if (remaining <? 0) || (nz <? remaining) then UB else
         out <- store (Z.to_nat remaining) 0 out index gen ;
         m <- mm_scan fuel out index total mm0 ;
         Ok (m, vmn, vmx, out)
       else
         out <- store N 0 out (total - nz) gen ;
         Ok (mm0, (fun l => vmin (vmn l) (gen l)), (fun l => vmax (vmx l) (gen l)), out)) ;
    Ok (mm_lanes N 0 vmn vmx m, out).

  (** ** Grids *)
  (** xIdx += int32v( int32v::ElementCount )  (116, 173, 239, 417) *)
  Definition advance (idx : list ivec) : list ivec :=
    match idx with a :: r => (fun l => s32 (a l + nz)) :: r | [] => [] end.
  (** xIdx = 0 + LoadIncremented, the others 0  (85-86, 98; 135-137, 153; 194-197, 217; 376-377, 394) *)
  Definition start (counts : list Z) : list ivec :=
    match counts with [] => [] | _ :: r => (fun l => Z.of_nat l) :: map (fun _ => fun _ => 0) r end.
  Section Grid.
    (** the values of one batch, from the index vectors *)
    Variable value : list ivec -> fvec.

    (** 102-119, 158-177, 223-244, 398-420: the main loop *)
    Fixpoint grid_loop (fuel ffuel : nat) (counts : list Z) (total index : Z) (idx : list ivec) (vmn vmx : fvec) (out : list V)
      : res (Z * list ivec * fvec * fvec * list V) :=
      match fuel with
      | O => NoFuel
      | S f =>
          if index <? total - nz then
            let gen := value idx in
            out <- store N 0 out index gen ;
            let vmn := fun l => vmin (vmn l) (gen l) in
            let vmx := fun l => vmax (vmx l) (gen l) in
            idx <- reset_axes ffuel false 1 counts (advance idx) ;
            grid_loop f ffuel counts total (index + nz) idx vmn vmx out
          else Ok (index, idx, vmn, vmx, out)
      end.

    (** totalValues = xCount * yCount * ... in int arithmetic *)
    Fixpoint product (acc : Z) (l : list Z) : res Z :=
      match l with [] => Ok acc | c :: l' => p <- imul acc c ; product p l' end.

    (** 79-127 (2D), 129-186 (3D), 188-254 (4D), 370-433 (tileable): counts is
        [xCount; yCount], [xCount; yCount; zCount], ... *)
    Definition gen_grid (fuel : nat) (counts : list Z) (out : list V) : res (minmax * list V) :=
      total <- product 1 counts ;
      idx <- reset_axes fuel true 1 counts (start counts) ;
      ' (index, idx, vmn, vmx, out) <- grid_loop fuel fuel counts total 0 idx (fun _ => inf) (fun _ => ninf) out ;
      store_remaining fuel false out total index vmn vmx (value idx).
  End Grid.

  (** ** Position arrays *)

  (** FS::Load<float32v>( &p[ at ] ) *)
  Fixpoint load (k l : nat) (p : list V) (at_ : Z) (v : fvec) : res fvec :=
    match k with
    | O => Ok v
    | S k' => if at_ + Z.of_nat l <? 0 then UB
              else x <- rd p (Z.to_nat (at_ + Z.of_nat l)) ;
                   load k' (S l) p at_ (fun j => if Nat.eqb j l then x else v j)
    end.

  (** 458-470  LoadRemaining *)
  Definition load_remaining (p : list V) (total index : Z) : res fvec :=
    if index =? 0 then
      let remaining := total - index in
      if (remaining <? 0) || (nz <? remaining) then UB else load (Z.to_nat remaining) 0 p 0 junk
    else load N 0 p (total - nz) junk.

  Fixpoint load_all (ld : list V -> res fvec) (ps : list (list V)) : res (list fvec) :=
    match ps with [] => Ok [] | p :: r => v <- ld p ; vs <- load_all ld r ; Ok (v :: vs) end.

  Section Positions.
    (** the values of one batch from the loaded coordinates (offsets are added inside) *)
    Variable value : list fvec -> fvec.

    (** 263-276, 293-307, 325-340 *)
    Fixpoint pos_loop (fuel : nat) (ps : list (list V)) (count index : Z) (vmn vmx : fvec) (out : list V) : res (Z * fvec * fvec * list V) :=
      match fuel with
      | O => NoFuel
      | S f =>
          if index <? count - nz then
            vs <- load_all (fun p => load N 0 p index junk) ps ;
            let gen := value vs in
            out <- store N 0 out index gen ;
            pos_loop f ps count (index + nz) (fun l => vmin (vmn l) (gen l)) (fun l => vmax (vmx l) (gen l)) out
          else Ok (index, vmn, vmx, out)
      end.

    (** 256-284 (2D), 286-316 (3D), 318-350 (4D); [ps] are the position arrays *)
    Definition gen_positions (fuel : nat) (ps : list (list V)) (count : Z) (out : list V) : res (minmax * list V) :=
      ' (index, vmn, vmx, out) <- pos_loop fuel ps count 0 (fun _ => inf) (fun _ => ninf) out ;
      vs <- load_all (fun p => load_remaining p count index) ps ;
      store_remaining fuel true out count index vmn vmx (value vs).
  End Positions.

  (** ** The public calls *)
  Section Api.
    (** the node's own Gen( seed, positions... ), on whole registers *)
    Variable gen : ivec -> list fvec -> fvec.
    Variable conv : Z -> V.                        (* int to float *)
    Variable fma : V -> V -> V -> V.               (* FS::FMulAdd, one lane *)
    Variables add mul div : V -> V -> V.           (* float +, *, / *)
    Variables fcos fsin : V -> V.                  (* FS::Cos, FS::Sin, one lane *)

    (** 104-105, 121-122, 160-162, 179-181, 225-228, 246-249 *)
    Definition grid_pos (p : V * V) (idx : ivec) : fvec := fun l => fma (conv (idx l)) (snd p) (fst p).
    Fixpoint zip_pos (ps : list (V * V)) (idx : list ivec) : list fvec :=
      match ps, idx with p :: ps', i :: idx' => grid_pos p i :: zip_pos ps' idx' | _, _ => [] end.

    (** 79-127  GenUniformGrid2D *)
    Definition gen_grid2 (fuel : nat) (out : list V) (xOffset yOffset : V) (xCount yCount : Z) (xStep yStep : V) (seed : Z) :=
      gen_grid (fun idx => gen (fun _ => seed) (zip_pos [(xOffset, xStep); (yOffset, yStep)] idx)) fuel [xCount; yCount] out.
    (** 129-186  GenUniformGrid3D *)
    Definition gen_grid3 (fuel : nat) (out : list V) (xOffset yOffset zOffset : V) (xCount yCount zCount : Z) (xStep yStep zStep : V) (seed : Z) :=
      gen_grid (fun idx => gen (fun _ => seed) (zip_pos [(xOffset, xStep); (yOffset, yStep); (zOffset, zStep)] idx)) fuel [xCount; yCount; zCount] out.
    (** 188-254  GenUniformGrid4D *)
    Definition gen_grid4 (fuel : nat) (out : list V) (xOffset yOffset zOffset wOffset : V) (xCount yCount zCount wCount : Z) (xStep yStep zStep wStep : V) (seed : Z) :=
      gen_grid (fun idx => gen (fun _ => seed) (zip_pos [(xOffset, xStep); (yOffset, yStep); (zOffset, zStep); (wOffset, wStep)] idx)) fuel
        [xCount; yCount; zCount; wCount] out.

    (** 265-266, 278-279, 295-297, ...: float32v( offset ) + loaded *)
    Fixpoint zip_add (offs : list V) (vs : list fvec) : list fvec :=
      match offs, vs with o :: os, v :: vs' => (fun l => add o (v l)) :: zip_add os vs' | _, _ => [] end.
    (** 256-284, 286-316, 318-350  GenPositionArray2D / 3D / 4D *)
    Definition gen_array (fuel : nat) (out : list V) (count : Z) (ps : list (list V)) (offs : list V) (seed : Z) :=
      gen_positions (fun vs => gen (fun _ => seed) (zip_add offs vs)) fuel ps count out.

    (** 352-368  GenSingle2D / 3D / 4D: lane 0 of a call on broadcast registers *)
    Definition gen_single (ps : list V) (seed : Z) : V := gen (fun _ => seed) (map (fun p => fun _ : nat => p) ps) O.

    (** 386-393, 400-406, 422-428: the position of a tileable element *)
    Variable pi2Recip : V.                         (* 0.15915493667f *)
    Definition tile_freq (size : Z) (step : V) : V := mul (mul (conv size) pi2Recip) step.
    Definition tile_mul (size : Z) : V := div (conv 1) (mul (conv size) pi2Recip).
    Definition tile_pos (xSize ySize : Z) (xStep yStep : V) (x y : Z) : list V :=
      let xF := mul (conv x) (tile_mul xSize) in
      let yF := mul (conv y) (tile_mul ySize) in
      [mul (fcos xF) (tile_freq xSize xStep); mul (fcos yF) (tile_freq ySize yStep);
       mul (fsin xF) (tile_freq xSize xStep); mul (fsin yF) (tile_freq ySize yStep)].
    Definition tile_vec (xSize ySize : Z) (xStep yStep : V) (idx : list ivec) : list fvec :=
      match idx with
      | [x; y] => map (fun k => fun l => nth k (tile_pos xSize ySize xStep yStep (x l) (y l)) (conv 0)) [0; 1; 2; 3]%nat
      | _ => []
      end.
    (** 370-433  GenTileable2D *)
    Definition gen_tileable (fuel : nat) (out : list V) (xSize ySize : Z) (xStep yStep : V) (seed : Z) :=
      gen_grid (fun idx => gen (fun _ => seed) (tile_vec xSize ySize xStep yStep idx)) fuel [xSize; ySize] out.
  End Api.
End Batch.
