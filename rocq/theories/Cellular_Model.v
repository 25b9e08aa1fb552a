(** Cellular.inl: CellularValue, CellularDistance, CellularLookup. Each Gen visits the 3^n cells
    around the position, with nested loops that carry the accumulators along. *)
From Coq Require Import ZArith List Bool.
From Verif Require Import Prelude Simd_Model Utils_Model Nodes_Model.
Import ListNotations.
Open Scope Z_scope.

Section Cellular.
Context {s : sops} {W : simd}.
Variable ft : feat.
Notation F := (F s W). Notation I := (I W). Notation M := (M W). Notation V := (V s).
Notation source := (source s W). Notation hyb := (hyb s W).
Local Open Scope f_scope.
Notation gsv := GetSourceValue.

(** Cellular.inl:11-13 *)
Definition kJitter2D : V := lit 916489 (-21).      (* 0.437016f *)
Definition kJitter3D : V := lit 13292387 (-25).    (* 0.396144f *)
Definition kJitter4D : V := lit 12281761 (-25).    (* 0.366025f *)

(** Cellular members, Cellular.h:22-27, with the Seeded and ScalableGenerator members *)
Record cellular := { clDist : DistanceFunction; clMinkowski : hyb; clGrid : hyb; clSize : hyb;
  clSeedOffset : Z; clFrequency : V; clScale : V }.

(** [for( int i = 0; i < 3; i++ )] *)
Fixpoint iter {S : Type} (n : nat) (body : S -> S) (st : S) : S :=
  match n with O => st | Datatypes.S n' => iter n' body (body st) end.

(** One cell: its hash, and the offset of its feature point, from the cell's primed
    coordinates and its position relative to the origin the caller uses.
    2D: Cellular.inl:53-59 = 326-332 = 601-607 *)
Definition cell2 (seed : I) (jitter : F) (xc yc : I) (xcf ycf : F) : I * list F :=
  let* hash := HashPrimesHB seed [xc; yc] in
  let* xd := of_int (iand hash (iv 0x7ff)) - fv (lit 0x7ff (-1)) in
  let* yd := of_int (iushr hash 21) - fv (lit 0x7ff (-1)) in
  let* invMag := jitter * finvsqrt (fmadd xd xd (yd * yd)) in
  (hash, [fmadd xd invMag xcf; fmadd yd invMag ycf]).
(** 3D: Cellular.inl:138-146 = 400-408 = 675-683 *)
Definition cell3 (seed : I) (jitter : F) (xc yc zc : I) (xcf ycf zcf : F) : I * list F :=
  let* hash := HashPrimesHB seed [xc; yc; zc] in
  let* xd := of_int (iand hash (iv 0x3ff)) - fv (lit 0x3ff (-1)) in
  let* yd := of_int (iand (ishr hash 11) (iv 0x3ff)) - fv (lit 0x3ff (-1)) in
  let* zd := of_int (iushr hash 22) - fv (lit 0x3ff (-1)) in
  let* invMag := jitter * finvsqrt (fmadd xd xd (fmadd yd yd (zd * zd))) in
  (hash, [fmadd xd invMag xcf; fmadd yd invMag ycf; fmadd zd invMag zcf]).
(** 4D: Cellular.inl:237-247 = 487-497 = 763-773 *)
Definition cell4 (seed : I) (jitter : F) (xc yc zc wc : I) (xcf ycf zcf wcf : F) : I * list F :=
  let* hash := HashPrimesHB seed [xc; yc; zc; wc] in
  let* xd := of_int (iand hash (iv 0xff)) - fv (lit 0xff (-1)) in
  let* yd := of_int (iand (ishr hash 8) (iv 0xff)) - fv (lit 0xff (-1)) in
  let* zd := of_int (iand (ishr hash 16) (iv 0xff)) - fv (lit 0xff (-1)) in
  let* wd := of_int (iushr hash 24) - fv (lit 0xff (-1)) in
  let* invMag := jitter * finvsqrt (fmadd xd xd (fmadd yd yd (fmadd zd zd (wd * wd)))) in
  (hash, [fmadd xd invMag xcf; fmadd yd invMag ycf; fmadd zd invMag zcf; fmadd wd invMag wcf]).

(** The size jitter of one cell, e.g. Cellular.inl:63-67; [active] is sizeJitterActive *)
Definition SizeJitter2 (active : bool) (sizeJitter : F) (hash : I) (d : F) : F :=
  if active then d * fnmadd sizeJitter (of_int (iand (ishr hash 11) (iv 0x3ff))) (num 1) else d.
Definition SizeJitter3 (active : bool) (sizeJitter : F) (hash : I) (d : F) : F :=
  if active then d * fnmadd sizeJitter (of_int (iand hash (iv 0xffff))) (num 1) else d.
Definition SizeJitter4 (active : bool) (sizeJitter : F) (hash : I) (d : F) : F :=
  if active then d * fnmadd sizeJitter (of_int (iand hash (iv 0xfffff))) (num 1) else d.
(** e.g. Cellular.inl:26: mSizeJitter.simdGeneratorPtr || mSizeJitter.constant != 0.0f *)
Definition sizeJitterActive (h : hyb) : bool :=
  match h with HSrc _ => true | HConst c => negb (s_eq c (lit 0 0)) end.
Definition kSize2 : V := s_div (lit (-1) 0) (lit 0x3ff 0).     (* -1.f / 0x3ff *)
Definition kSize3 : V := s_div (lit (-1) 0) (lit 0xffff 0).
Definition kSize4 : V := s_div (lit (-1) 0) (lit 0xfffff 0).
(** CalcDistance of the offsets of a cell *)
Definition cellDistance (DO_SQRT : bool) (cl : cellular) (sourceSeed : I) (d : list F) : F :=
  match d with pX :: rest => CalcDistance ft DO_SQRT (clDist cl) (clMinkowski cl) sourceSeed pX rest | [] => num 0 end.

(** ** The traversal
    [visit] is what the loop body does with one cell: it gets the accumulators, the cell's hash and
    the vector to its feature point, in the order of the loops (x outermost). The three classes differ
    in whether the position is subtracted before or after the loop variable is incremented, so the
    relative coordinates are functions [rx] of the running absolute or relative coordinate:
    CellularValue starts from xcf - x (Cellular.inl:42); CellularDistance and CellularLookup keep xcf
    and subtract x inside (Cellular.inl:321, 331, 608). *)
Section Visit.
Context {A : Type} (visit : A -> I -> list F -> A).
Definition cells2 (seed : I) (jitter : F) (rx ry : F -> F) (xc ycBase : I) (xcf ycfBase : F) (acc : A) : A :=
  snd (iter 3 (fun st : F * I * A => let '(xcf, xc, acc) := st in
    let acc' := snd (iter 3 (fun st : F * I * A => let '(ycf, yc, acc) := st in
      let '(hash, d) := cell2 seed jitter xc yc (rx xcf) (ry ycf) in
      (ycf + num 1, iadd yc (iv PrimeY), visit acc hash d)) (ycfBase, ycBase, acc)) in
    (xcf + num 1, iadd xc (iv PrimeX), acc')) (xcf, xc, acc)).
Definition cells3 (seed : I) (jitter : F) (rx ry rz : F -> F) (xc ycBase zcBase : I) (xcf ycfBase zcfBase : F) (acc : A) : A :=
  snd (iter 3 (fun st : F * I * A => let '(xcf, xc, acc) := st in
    let acc' := snd (iter 3 (fun st : F * I * A => let '(ycf, yc, acc) := st in
      let acc' := snd (iter 3 (fun st : F * I * A => let '(zcf, zc, acc) := st in
        let '(hash, d) := cell3 seed jitter xc yc zc (rx xcf) (ry ycf) (rz zcf) in
        (zcf + num 1, iadd zc (iv PrimeZ), visit acc hash d)) (zcfBase, zcBase, acc)) in
      (ycf + num 1, iadd yc (iv PrimeY), acc')) (ycfBase, ycBase, acc)) in
    (xcf + num 1, iadd xc (iv PrimeX), acc')) (xcf, xc, acc)).
Definition cells4 (seed : I) (jitter : F) (rx ry rz rw : F -> F) (xc ycBase zcBase wcBase : I) (xcf ycfBase zcfBase wcfBase : F) (acc : A) : A :=
  snd (iter 3 (fun st : F * I * A => let '(xcf, xc, acc) := st in
    let acc' := snd (iter 3 (fun st : F * I * A => let '(ycf, yc, acc) := st in
      let acc' := snd (iter 3 (fun st : F * I * A => let '(zcf, zc, acc) := st in
        let acc' := snd (iter 3 (fun st : F * I * A => let '(wcf, wc, acc) := st in
          let '(hash, d) := cell4 seed jitter xc yc zc wc (rx xcf) (ry ycf) (rz zcf) (rw wcf) in
          (wcf + num 1, iadd wc (iv PrimeW), visit acc hash d)) (wcfBase, wcBase, acc)) in
        (zcf + num 1, iadd zc (iv PrimeZ), acc')) (zcfBase, zcBase, acc)) in
      (ycf + num 1, iadd yc (iv PrimeY), acc')) (ycfBase, ycBase, acc)) in
    (xcf + num 1, iadd xc (iv PrimeX), acc')) (xcf, xc, acc)).
End Visit.

(** Convert<int32_t>( x ) + int32v( -1 ), e.g. Cellular.inl:39 *)
Definition base (x : F) : I := iadd (to_int x) (iv (-1)).

(** ** CellularValue *)
(** Cellular.inl:69-87, the insertion loop at index i; [n] = mValueIndex - i. The arrays have
    kMaxDistanceCount = 4 elements and mValueIndex <= 3 (Cellular.h:63-65). *)
Fixpoint insert_value (n : nat) (dist : list F) (vh : list I) (newDistance : F) (newHash : I) : list F * list I :=
  match dist, vh with
  | d :: dist', h :: vh' =>
      let closer := flt newDistance d in
      let d1 := fsel closer newDistance d in
      let h1 := isel closer newHash h in
      match n with
      | O => (d1 :: dist', h1 :: vh')
      | S n' =>
          let '(ds, hs) := insert_value n' dist' vh' (fsel closer d newDistance) (isel closer h newHash) in
          (d1 :: ds, h1 :: hs)
      end
  | _, _ => (dist, vh)
  end.
(** Cellular.h:65 SetValueIndex (and 104-105 SetDistanceIndex0/1) *)
Definition clampIndex (v : Z) : nat := Z.to_nat (Z.min (Z.max v 0) 3).

(** [junk]: the uninitialised valueHash array (Cellular.inl:32) *)
Definition CellularValueGen (junk : list I) (cl : cellular) (r : range s) (mValueIndex : nat) : source := fun seed pos =>
  let* sourceSeed := seed in
  let* seed := iadd seed (iv (clSeedOffset cl)) in
  let active := sizeJitterActive (clSize cl) in
  let dist := repeat (fv s_inf) 4 in
  let ret st := ScaleOutput r (of_int (nth mValueIndex (snd st) (iv 0))) (s_neg kValueBounds) kValueBounds in
  match pos with
  | [x; y] =>                                                             (* Cellular.inl:20-97, CalcDistance<true> *)
      let* jitter := fv kJitter2D * gsv (clGrid cl) sourceSeed pos in
      let* sizeJitter := gsv (clSize cl) sourceSeed pos * fv kSize2 in
      let* x := x * fv (clFrequency cl) in
      let* y := y * fv (clFrequency cl) in
      ret (cells2 (fun st hash d => insert_value mValueIndex (fst st) (snd st) (SizeJitter2 active sizeJitter hash (cellDistance true cl sourceSeed d)) hash)
        seed jitter (fun a => a) (fun a => a) (imul (base x) prX) (imul (base y) prY)
        (of_int (base x) - x) (of_int (base y) - y) (dist, junk))
  | [x; y; z] =>                                                          (* Cellular.inl:99-188 *)
      let* jitter := fv kJitter3D * gsv (clGrid cl) sourceSeed pos in
      let* sizeJitter := gsv (clSize cl) sourceSeed pos * fv kSize3 in
      let* x := x * fv (clFrequency cl) in
      let* y := y * fv (clFrequency cl) in
      let* z := z * fv (clFrequency cl) in
      ret (cells3 (fun st hash d => insert_value mValueIndex (fst st) (snd st) (SizeJitter3 active sizeJitter hash (cellDistance false cl sourceSeed d)) hash)
        seed jitter (fun a => a) (fun a => a) (fun a => a) (imul (base x) prX) (imul (base y) prY) (imul (base z) prZ)
        (of_int (base x) - x) (of_int (base y) - y) (of_int (base z) - z) (dist, junk))
  | [x; y; z; w] =>                                                       (* Cellular.inl:190-291 *)
      let* jitter := fv kJitter4D * gsv (clGrid cl) sourceSeed pos in
      let* sizeJitter := gsv (clSize cl) sourceSeed pos * fv kSize4 in
      let* x := x * fv (clFrequency cl) in
      let* y := y * fv (clFrequency cl) in
      let* z := z * fv (clFrequency cl) in
      let* w := w * fv (clFrequency cl) in
      ret (cells4 (fun st hash d => insert_value mValueIndex (fst st) (snd st) (SizeJitter4 active sizeJitter hash (cellDistance false cl sourceSeed d)) hash)
        seed jitter (fun a => a) (fun a => a) (fun a => a) (fun a => a) (imul (base x) prX) (imul (base y) prY) (imul (base z) prZ) (imul (base w) prW)
        (of_int (base x) - x) (of_int (base y) - y) (of_int (base z) - z) (of_int (base w) - w) (dist, junk))
  | _ => num 0
  end.

(** ** CellularDistance *)
(** Cellular.inl:341-346: for( i = 3; i > 0; i-- ) distance[i] = Max( Min( distance[i], new ), distance[i-1] ) *)
Fixpoint insert_loop (i : nat) (dist : list F) (newDistance : F) : list F :=
  match i with
  | O => dist
  | S i' => insert_loop i' (upd dist i (fmax (fmin (nth i dist (num 0)) newDistance) (nth i' dist (num 0)))) newDistance
  end.
Definition insert_dist (dist : list F) (newDistance : F) : list F :=
  let dist := insert_loop 3 dist newDistance in
  upd dist 0 (fmin (nth 0 dist (num 0)) newDistance).
(** Cellular.h:93-100 *)
Inductive ReturnType := Index0 | Index0Add1 | Index0Sub1 | Index0Mul1 | Index0Div1.
(** Cellular.inl:531-565 GetReturn *)
Definition isEuclidean (d : DistanceFunction) : bool := match d with Euclidean => true | _ => false end.
Definition GetReturn (cl : cellular) (r : range s) (rt : ReturnType) (i0 i1 : nat) (dist : list F) (maxDist : V) : F :=
  let at_ d i := nth i d (num 0) in
  let dist :=
    if isEuclidean (clDist cl) then
      let dist := upd dist i0 (at_ dist i0 * finvsqrt (at_ dist i0)) in
      upd dist i1 (at_ dist i1 * finvsqrt (at_ dist i1))
    else dist in
  let maxDist := s_mul maxDist maxDist in
  match rt with
  | Index0 => ScaleOutput r (at_ dist i0) (lit 0 0) maxDist
  | Index0Add1 => ScaleOutput r (at_ dist i0 + at_ dist i1) (lit 0 0) (s_mul maxDist (lit 2 0))
  | Index0Sub1 => ScaleOutput r (fabs (at_ dist i0 - at_ dist i1)) (lit 0 0) maxDist
  | Index0Mul1 => ScaleOutput r (at_ dist i0 * at_ dist i1) (lit 0 0) (s_mul maxDist maxDist)
  | Index0Div1 => ScaleOutput r (at_ dist i0 * frecip (at_ dist i1)) (lit 0 0) maxDist
  end.
Definition CellularDistanceGen (cl : cellular) (r : range s) (rt : ReturnType) (i0 i1 : nat) : source := fun seed pos =>
  let* sourceSeed := seed in
  let* seed := iadd seed (iv (clSeedOffset cl)) in
  let active := sizeJitterActive (clSize cl) in
  let dist := repeat (fv s_inf) 4 in
  match pos with
  | [x; y] =>                                                             (* Cellular.inl:297-360 *)
      let* jitter := fv kJitter2D * gsv (clGrid cl) sourceSeed pos in
      let* sizeJitter := gsv (clSize cl) sourceSeed pos * fv kSize2 in
      let* x := x * fv (clFrequency cl) in
      let* y := y * fv (clFrequency cl) in
      GetReturn cl r rt i0 i1
        (cells2 (fun st hash d => insert_dist st (SizeJitter2 active sizeJitter hash (cellDistance false cl sourceSeed d)))
        seed jitter (fun a => a - x) (fun a => a - y) (imul (base x) prX) (imul (base y) prY)
        (of_int (base x)) (of_int (base y)) dist) (s_add (lit 1 0) kJitter2D)
  | [x; y; z] =>                                                          (* Cellular.inl:362-438 *)
      let* jitter := fv kJitter3D * gsv (clGrid cl) sourceSeed pos in
      let* sizeJitter := gsv (clSize cl) sourceSeed pos * fv kSize3 in
      let* x := x * fv (clFrequency cl) in
      let* y := y * fv (clFrequency cl) in
      let* z := z * fv (clFrequency cl) in
      GetReturn cl r rt i0 i1
        (cells3 (fun st hash d => insert_dist st (SizeJitter3 active sizeJitter hash (cellDistance false cl sourceSeed d)))
        seed jitter (fun a => a - x) (fun a => a - y) (fun a => a - z) (imul (base x) prX) (imul (base y) prY) (imul (base z) prZ)
        (of_int (base x)) (of_int (base y)) (of_int (base z)) dist) (s_add (lit 1 0) kJitter3D)
  | [x; y; z; w] =>                                                       (* Cellular.inl:440-529 *)
      let* jitter := fv kJitter4D * gsv (clGrid cl) sourceSeed pos in
      let* sizeJitter := gsv (clSize cl) sourceSeed pos * fv kSize4 in
      let* x := x * fv (clFrequency cl) in
      let* y := y * fv (clFrequency cl) in
      let* z := z * fv (clFrequency cl) in
      let* w := w * fv (clFrequency cl) in
      GetReturn cl r rt i0 i1
        (cells4 (fun st hash d => insert_dist st (SizeJitter4 active sizeJitter hash (cellDistance false cl sourceSeed d)))
        seed jitter (fun a => a - x) (fun a => a - y) (fun a => a - z) (fun a => a - w) (imul (base x) prX) (imul (base y) prY) (imul (base z) prZ) (imul (base w) prW)
        (of_int (base x)) (of_int (base y)) (of_int (base z)) (of_int (base w)) dist) (s_add (lit 1 0) kJitter4D)
  | _ => num 0
  end.

(** ** CellularLookup *)
(** Cellular.inl:618-622: keep the closest cell's feature point. The offset used for the distance is
    the feature point minus the position (608-609). *)
Definition lookup_visit (newDistance : list F -> I -> F) (pos : list F) (st : F * list F) (hash : I) (cell : list F) : F * list F :=
  let* nd := newDistance (zipw fsub cell pos) hash in
  let* closer := flt nd (fst st) in
  (fmin nd (fst st), zipw (fun l c => fsel closer l c) cell (snd st)).
(** <cfloat> FLT_MAX *)
Definition FLT_MAX : V := lit 16777215 104.
(** [junk]: the uninitialised cellX, cellY, ... (Cellular.inl:584) *)
Definition CellularLookupGen (junk : list F) (cl : cellular) (lookup : source) : source := fun seed pos =>
  let* sourceSeed := seed in
  let* seed := iadd seed (iv (clSeedOffset cl)) in
  let active := sizeJitterActive (clSize cl) in
  let ret (st : F * list F) := lookup (isub sourceSeed (iv (-1))) (map (fun c => c * fv (clScale cl)) (snd st)) in
  let id_ := fun a : F => a in
  match pos with
  | [x; y] =>                                                             (* Cellular.inl:571-634 *)
      let* jitter := fv kJitter2D * gsv (clGrid cl) sourceSeed pos in
      let* sizeJitter := gsv (clSize cl) sourceSeed pos * fv kSize2 in
      let* x := x * fv (clFrequency cl) in
      let* y := y * fv (clFrequency cl) in
      ret (cells2 (lookup_visit (fun d hash => SizeJitter2 active sizeJitter hash (cellDistance false cl sourceSeed d)) [x; y])
        seed jitter id_ id_ (imul (base x) prX) (imul (base y) prY)
        (of_int (base x)) (of_int (base y)) (fv FLT_MAX, firstn 2 junk))
  | [x; y; z] =>                                                          (* Cellular.inl:636-713 *)
      let* jitter := fv kJitter3D * gsv (clGrid cl) sourceSeed pos in
      let* sizeJitter := gsv (clSize cl) sourceSeed pos * fv kSize3 in
      let* x := x * fv (clFrequency cl) in
      let* y := y * fv (clFrequency cl) in
      let* z := z * fv (clFrequency cl) in
      ret (cells3 (lookup_visit (fun d hash => SizeJitter3 active sizeJitter hash (cellDistance false cl sourceSeed d)) [x; y; z])
        seed jitter id_ id_ id_ (imul (base x) prX) (imul (base y) prY) (imul (base z) prZ)
        (of_int (base x)) (of_int (base y)) (of_int (base z)) (fv FLT_MAX, firstn 3 junk))
  | [x; y; z; w] =>                                                       (* Cellular.inl:715-806 *)
      let* jitter := fv kJitter4D * gsv (clGrid cl) sourceSeed pos in
      let* sizeJitter := gsv (clSize cl) sourceSeed pos * fv kSize4 in
      let* x := x * fv (clFrequency cl) in
      let* y := y * fv (clFrequency cl) in
      let* z := z * fv (clFrequency cl) in
      let* w := w * fv (clFrequency cl) in
      ret (cells4 (lookup_visit (fun d hash => SizeJitter4 active sizeJitter hash (cellDistance false cl sourceSeed d)) [x; y; z; w])
        seed jitter id_ id_ id_ id_ (imul (base x) prX) (imul (base y) prY) (imul (base z) prZ) (imul (base w) prW)
        (of_int (base x)) (of_int (base y)) (of_int (base z)) (of_int (base w)) (fv FLT_MAX, firstn 4 junk))
  | _ => num 0
  end.
End Cellular.
Arguments cellular s W : clear implicits.
