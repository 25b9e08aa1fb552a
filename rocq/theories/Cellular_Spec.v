(** What the cellular nodes should compute, independently of how they loop, and the traversal lemmas. *)
From Coq Require Import Reals ZArith List Bool Lia Lra Psatz Permutation Sorting.Sorted.
From Verif Require Import Prelude Simd_Model Utils_Model Nodes_Model Cellular_Model Simd_R Bits P_Hash P_Blend OrderStats.
Import ListNotations.
Open Scope R_scope.

(** ** Specification *)
(** The lattice points around a lattice point: each coordinate differs by at most one. *)
Fixpoint neighbours (centre : list Z) : list (list Z) :=
  match centre with
  | [] => [[]]
  | c :: cs => flat_map (fun c' => map (cons c') (neighbours cs)) [c - 1; c; c + 1]%Z
  end.
Definition sumsq (v : list R) : R := fold_right (fun x a => x * x + a) 0 v.
Definition norm (v : list R) : R := sqrt (sumsq v).
(** the direction in which a cell's feature point is displaced, from disjoint groups of bits of its hash *)
Definition raw_dir (h : Z) (n : nat) : list R :=
  match n with
  | 2%nat => [IZR (h mod 2^11) - 1023.5; IZR (u32 h / 2^21) - 1023.5]
  | 3%nat => [IZR (h mod 2^10) - 511.5; IZR ((h / 2^11) mod 2^10) - 511.5; IZR (u32 h / 2^22) - 511.5]
  | 4%nat => [IZR (h mod 2^8) - 127.5; IZR ((h / 2^8) mod 2^8) - 127.5; IZR ((h / 2^16) mod 2^8) - 127.5; IZR (u32 h / 2^24) - 127.5]
  | _ => []
  end.
Definition direction (h : Z) (n : nat) : list R := map (fun x => x / norm (raw_dir h n)) (raw_dir h n).
(** the feature point of the cell at the lattice point [c], displaced by [j] *)
Definition feature (seed : Z) (j : R) (c : list Z) : list R :=
  zipw (fun ci d => IZR ci + j * d) c (direction (hash_hb seed c) (length c)).
(** the displacement for grid jitter 1: 0.437016f, 0.396144f, 0.366025f *)
Definition max_jitter (n : nat) : R :=
  match n with 2%nat => 916489 / 2097152 | 3%nat => 13292387 / 33554432 | _ => 12281761 / 33554432 end.
(** distance of a vector from the origin *)
Definition metric (df : DistanceFunction) (p : R) (v : list R) : R :=
  match df with
  | Euclidean => norm v
  | EuclideanSquared => sumsq v
  | Manhattan => fold_right (fun x a => Rabs x + a) 0 v
  | Hybrid => fold_right (fun x a => (x * x + Rabs x) + a) 0 v
  | MaxAxis => fold_right (fun x a => Rmax (Rabs x) a) 0 v
  | Minkowski => Rpow_pos (fold_right (fun x a => Rpow_pos (Rabs x) p + a) 0 v) (/ p)
  end.
(** Fraction in [0,1] drawn from the hash that scales a cell's distance when the size jitter is on. *)
Definition size_fraction (h : Z) (n : nat) : R :=
  match n with
  | 2%nat => IZR ((h / 2^11) mod 2^10) / 1023
  | 3%nat => IZR (h mod 2^16) / 65535
  | _ => IZR (h mod 2^20) / 1048575
  end.

(** ** Traversal *)
Section T.
Variable inf : R.
Variable bits : R -> Z.
Notation S := (Rops inf bits).
Notation cellular := (cellular S scalar).

Definition in_range (x : R) : Prop := (- 2^31 + 1 <= Rnear x <= 2^31 - 2)%Z.

Lemma axis3 : forall (A : Type) (body : R -> Z -> A -> A) (xf0 : R) (b P : Z) (acc : A), (- 2^31 <= b <= 2^31 - 3)%Z ->
  snd (iter 3 (fun st : R * Z * A => let '(xf, xc, acc) := st in (fadd (s:=S) (W:=scalar) xf (num 1), iadd (W:=scalar) xc (iv P), body xf xc acc)) (xf0, z_mul b P, acc)) =
  fold_left (fun acc k => body (xf0 + IZR k) (z_mul (b + k) P) acc) [0; 1; 2]%Z acc.
Proof.
  intros A body xf0 b P acc Hb. cbn [iter fold_left snd]. sunf. rlit. rewrite !C31_neighbour.
  replace (z_add b 1) with (b + 1)%Z by (unfold z_add; symmetry; apply s32_id; unfold in32; lia).
  replace (z_add (b + 1) 1) with (b + 2)%Z by (unfold z_add; rewrite s32_id by (unfold in32; lia); lia).
  replace (xf0 + 1 + 1) with (xf0 + 2) by ring. rewrite Rplus_0_r, Z.add_0_r. reflexivity.
Qed.
Lemma fold_ext : forall (A B : Type) (f g : A -> B -> A) l a, (forall a b, f a b = g a b) -> fold_left f l a = fold_left g l a.
Proof. induction l; intros; cbn; auto. rewrite H. apply IHl; auto. Qed.
Lemma fold_flat : forall (A B C : Type) (f : A -> B -> A) (g : C -> list B) l a,
  fold_left f (flat_map g l) a = fold_left (fun a c => fold_left f (g c) a) l a.
Proof. induction l; intros; cbn; auto. rewrite fold_left_app. apply IHl. Qed.
Lemma fold_map : forall (A B C : Type) (f : A -> B -> A) (g : C -> B) l a,
  fold_left f (map g l) a = fold_left (fun a c => f a (g c)) l a.
Proof. induction l; intros; cbn; auto. Qed.
Lemma fold_shift : forall (A : Type) (f g : A -> Z -> A) c a, (forall a k, f a k = g a (c - 1 + k)%Z) ->
  fold_left f [0; 1; 2]%Z a = fold_left g [c - 1; c; c + 1]%Z a.
Proof.
  intros A f g c a H. cbn. rewrite !H. replace (c - 1 + 0)%Z with (c - 1)%Z by lia. replace (c - 1 + 1)%Z with c by lia.
  replace (c - 1 + 2)%Z with (c + 1)%Z by lia. reflexivity.
Qed.

Lemma land_low : forall h n, (0 < n)%Z -> Z.land h (2 ^ n - 1) = (h mod 2 ^ n)%Z.
Proof. intros. rewrite <- Z.land_ones by lia. rewrite Z.ones_equiv. reflexivity. Qed.
Lemma ushr_s32 : forall h k, (1 <= k < 32)%Z -> z_ushr k h = (u32 h / 2 ^ k)%Z.
Proof.
  intros h k Hk. unfold z_ushr. apply s32_id. unfold in32.
  assert (0 <= u32 h < 2^32)%Z by (apply Z.mod_pos_bound; lia).
  assert (2 ^ 1 <= 2 ^ k)%Z by (apply Z.pow_le_mono_r; lia).
  split; [|].
  - apply Z.le_trans with 0%Z; [lia|]. apply Z.div_pos; lia.
  - apply Z.div_lt_upper_bound; [lia|]. nia.
Qed.

Definition vec (seed : Z) (j : R) (xs : list R) (c : list Z) : list R := zipw Rminus (feature seed j c) xs.

Lemma invmag : forall x j m c, x * (j * / m) + c = c + j * (x / m).
Proof. intros. unfold Rdiv. ring. Qed.

Lemma cell2_eq : forall seed j cx cy (fx fy : R),
  cell2 (s:=S) (W:=scalar) seed j (z_mul cx PrimeX) (z_mul cy PrimeY) fx fy =
  (hash_hb seed [cx; cy], zipw (fun f d => f + j * d) [fx; fy] (direction (hash_hb seed [cx; cy]) 2)).
Proof.
  intros. unfold cell2, direction, raw_dir, norm, sumsq. cbn [map zipw fold_right].
  change (HashPrimesHB (W:=scalar) seed [z_mul cx PrimeX; z_mul cy PrimeY]) with (hash_hb seed [cx; cy]).
  set (h := hash_hb seed [cx; cy]). sunf. rlit.
  change (s32 2047) with (2 ^ 11 - 1)%Z. rewrite (land_low h 11) by lia. rewrite ushr_s32 by lia.
  replace (2047 * / 2) with 1023.5 by lra. rewrite Rplus_0_r.
  f_equal. f_equal; [apply invmag|f_equal; apply invmag].
Qed.
Lemma cell3_eq : forall seed j cx cy cz (fx fy fz : R),
  cell3 (s:=S) (W:=scalar) seed j (z_mul cx PrimeX) (z_mul cy PrimeY) (z_mul cz PrimeZ) fx fy fz =
  (hash_hb seed [cx; cy; cz], zipw (fun f d => f + j * d) [fx; fy; fz] (direction (hash_hb seed [cx; cy; cz]) 3)).
Proof.
  intros. unfold cell3, direction, raw_dir, norm, sumsq. cbn [map zipw fold_right].
  change (HashPrimesHB (W:=scalar) seed [z_mul cx PrimeX; z_mul cy PrimeY; z_mul cz PrimeZ]) with (hash_hb seed [cx; cy; cz]).
  set (h := hash_hb seed [cx; cy; cz]). sunf. rlit.
  change (s32 1023) with (2 ^ 10 - 1)%Z. rewrite !(land_low _ 10) by lia. rewrite ushr_s32 by lia.
  replace (1023 * / 2) with 511.5 by lra. rewrite Rplus_0_r. unfold z_shr.
  f_equal. f_equal; [apply invmag|f_equal; [apply invmag|f_equal; apply invmag]].
Qed.
Lemma cell4_eq : forall seed j cx cy cz cw (fx fy fz fw : R),
  cell4 (s:=S) (W:=scalar) seed j (z_mul cx PrimeX) (z_mul cy PrimeY) (z_mul cz PrimeZ) (z_mul cw PrimeW) fx fy fz fw =
  (hash_hb seed [cx; cy; cz; cw], zipw (fun f d => f + j * d) [fx; fy; fz; fw] (direction (hash_hb seed [cx; cy; cz; cw]) 4)).
Proof.
  intros. unfold cell4, direction, raw_dir, norm, sumsq. cbn [map zipw fold_right].
  change (HashPrimesHB (W:=scalar) seed [z_mul cx PrimeX; z_mul cy PrimeY; z_mul cz PrimeZ; z_mul cw PrimeW]) with (hash_hb seed [cx; cy; cz; cw]).
  set (h := hash_hb seed [cx; cy; cz; cw]). sunf. rlit.
  change (s32 255) with (2 ^ 8 - 1)%Z. rewrite !(land_low _ 8) by lia. rewrite ushr_s32 by lia.
  replace (255 * / 2) with 127.5 by lra. rewrite Rplus_0_r. unfold z_shr.
  f_equal. f_equal; [apply invmag|f_equal; [apply invmag|f_equal; [apply invmag|f_equal; apply invmag]]].
Qed.

(** The three classes hand the visitor a vector relative to an origin [o]: the position for value and distance, 0 for lookup.
    [rx a] turns the running coordinate into the relative one. *)
Section Visit.
Context {A : Type} (visit : A -> Z -> list R -> A).
Lemma cells2_eq : forall seed j (rx ry : R -> R) (nx ny : Z) (xf yf ox oy : R) acc,
  (- 2^31 + 1 <= nx <= 2^31 - 2)%Z -> (- 2^31 + 1 <= ny <= 2^31 - 2)%Z ->
  (forall k : Z, rx (xf + IZR k) = IZR (nx - 1 + k) - ox) -> (forall k : Z, ry (yf + IZR k) = IZR (ny - 1 + k) - oy) ->
  cells2 (s:=S) (W:=scalar) visit seed j rx ry (z_mul (nx - 1) PrimeX) (z_mul (ny - 1) PrimeY) xf yf acc =
  fold_left (fun acc c => visit acc (hash_hb seed c) (vec seed j [ox; oy] c)) (neighbours [nx; ny]) acc.
Proof.
  intros seed j rx ry nx ny xf yf ox oy acc Hx Hy Rx Ry. unfold cells2.
  etransitivity; [apply (axis3 A (fun xcf xc acc => snd (iter 3 (fun st : R * Z * A => let '(ycf, yc, acc) := st in
      let '(hash, d) := cell2 (s:=S) (W:=scalar) seed j xc yc (rx xcf) (ry ycf) in
      (fadd (s:=S) (W:=scalar) ycf (num 1), iadd (W:=scalar) yc (iv PrimeY), visit acc hash d)) (yf, z_mul (ny - 1) PrimeY, acc)))); lia|].
  cbn [neighbours]. rewrite fold_flat. apply fold_shift. intros a kx.
  etransitivity.
  { apply (axis3 A (fun ycf yc acc => let '(hash, d) := cell2 (s:=S) (W:=scalar) seed j (z_mul (nx - 1 + kx) PrimeX) yc (rx (xf + IZR kx)) (ry ycf) in visit acc hash d)). lia. }
  rewrite fold_map, fold_flat. apply fold_shift. intros a' ky.
  cbn [map fold_left]. rewrite cell2_eq, Rx, Ry. f_equal. unfold vec, feature. cbn [length direction raw_dir map zipw].
  f_equal; [ring|f_equal; ring].
Qed.
Lemma cells3_eq : forall seed j (rx ry rz : R -> R) (nx ny nz : Z) (xf yf zf ox oy oz : R) acc,
  (- 2^31 + 1 <= nx <= 2^31 - 2)%Z -> (- 2^31 + 1 <= ny <= 2^31 - 2)%Z -> (- 2^31 + 1 <= nz <= 2^31 - 2)%Z ->
  (forall k : Z, rx (xf + IZR k) = IZR (nx - 1 + k) - ox) -> (forall k : Z, ry (yf + IZR k) = IZR (ny - 1 + k) - oy) ->
  (forall k : Z, rz (zf + IZR k) = IZR (nz - 1 + k) - oz) ->
  cells3 (s:=S) (W:=scalar) visit seed j rx ry rz (z_mul (nx - 1) PrimeX) (z_mul (ny - 1) PrimeY) (z_mul (nz - 1) PrimeZ) xf yf zf acc =
  fold_left (fun acc c => visit acc (hash_hb seed c) (vec seed j [ox; oy; oz] c)) (neighbours [nx; ny; nz]) acc.
Proof.
  intros seed j rx ry rz nx ny nz xf yf zf ox oy oz acc Hx Hy Hz Rx Ry Rz. unfold cells3.
  etransitivity; [apply (axis3 A (fun xcf xc acc => snd (iter 3 (fun st : R * Z * A => let '(ycf, yc, acc) := st in
      (fadd (s:=S) (W:=scalar) ycf (num 1), iadd (W:=scalar) yc (iv PrimeY),
       snd (iter 3 (fun st : R * Z * A => let '(zcf, zc, acc) := st in
        let '(hash, d) := cell3 (s:=S) (W:=scalar) seed j xc yc zc (rx xcf) (ry ycf) (rz zcf) in
        (fadd (s:=S) (W:=scalar) zcf (num 1), iadd (W:=scalar) zc (iv PrimeZ), visit acc hash d)) (zf, z_mul (nz - 1) PrimeZ, acc)))) (yf, z_mul (ny - 1) PrimeY, acc)))); lia|].
  cbn [neighbours]. rewrite fold_flat. apply fold_shift. intros a kx.
  etransitivity.
  { apply (axis3 A (fun ycf yc acc => snd (iter 3 (fun st : R * Z * A => let '(zcf, zc, acc) := st in
        let '(hash, d) := cell3 (s:=S) (W:=scalar) seed j (z_mul (nx - 1 + kx) PrimeX) yc zc (rx (xf + IZR kx)) (ry ycf) (rz zcf) in
        (fadd (s:=S) (W:=scalar) zcf (num 1), iadd (W:=scalar) zc (iv PrimeZ), visit acc hash d)) (zf, z_mul (nz - 1) PrimeZ, acc)))). lia. }
  rewrite fold_map, fold_flat. apply fold_shift. intros a' ky.
  etransitivity.
  { apply (axis3 A (fun zcf zc acc => let '(hash, d) := cell3 (s:=S) (W:=scalar) seed j (z_mul (nx - 1 + kx) PrimeX) (z_mul (ny - 1 + ky) PrimeY) zc (rx (xf + IZR kx)) (ry (yf + IZR ky)) (rz zcf) in visit acc hash d)). lia. }
  rewrite fold_map, fold_flat. apply fold_shift. intros a'' kz.
  cbn [map fold_left]. rewrite cell3_eq, Rx, Ry, Rz. f_equal. unfold vec, feature. cbn [length direction raw_dir map zipw].
  f_equal; [ring|f_equal; [ring|f_equal; ring]].
Qed.
Lemma cells4_eq : forall seed j (rx ry rz rw : R -> R) (nx ny nz nw : Z) (xf yf zf wf ox oy oz ow : R) acc,
  (- 2^31 + 1 <= nx <= 2^31 - 2)%Z -> (- 2^31 + 1 <= ny <= 2^31 - 2)%Z -> (- 2^31 + 1 <= nz <= 2^31 - 2)%Z -> (- 2^31 + 1 <= nw <= 2^31 - 2)%Z ->
  (forall k : Z, rx (xf + IZR k) = IZR (nx - 1 + k) - ox) -> (forall k : Z, ry (yf + IZR k) = IZR (ny - 1 + k) - oy) ->
  (forall k : Z, rz (zf + IZR k) = IZR (nz - 1 + k) - oz) -> (forall k : Z, rw (wf + IZR k) = IZR (nw - 1 + k) - ow) ->
  cells4 (s:=S) (W:=scalar) visit seed j rx ry rz rw (z_mul (nx - 1) PrimeX) (z_mul (ny - 1) PrimeY) (z_mul (nz - 1) PrimeZ) (z_mul (nw - 1) PrimeW) xf yf zf wf acc =
  fold_left (fun acc c => visit acc (hash_hb seed c) (vec seed j [ox; oy; oz; ow] c)) (neighbours [nx; ny; nz; nw]) acc.
Proof.
  intros seed j rx ry rz rw nx ny nz nw xf yf zf wf ox oy oz ow acc Hx Hy Hz Hw Rx Ry Rz Rw. unfold cells4.
  pose (w4 := fun (xc yc zc : Z) (xcf ycf zcf : R) (acc : A) => snd (iter 3 (fun st : R * Z * A => let '(wcf, wc, acc) := st in
        let '(hash, d) := cell4 (s:=S) (W:=scalar) seed j xc yc zc wc (rx xcf) (ry ycf) (rz zcf) (rw wcf) in
        (fadd (s:=S) (W:=scalar) wcf (num 1), iadd (W:=scalar) wc (iv PrimeW), visit acc hash d)) (wf, z_mul (nw - 1) PrimeW, acc))).
  pose (z4 := fun (xc yc : Z) (xcf ycf : R) (acc : A) => snd (iter 3 (fun st : R * Z * A => let '(zcf, zc, acc) := st in
        (fadd (s:=S) (W:=scalar) zcf (num 1), iadd (W:=scalar) zc (iv PrimeZ), w4 xc yc zc xcf ycf zcf acc)) (zf, z_mul (nz - 1) PrimeZ, acc))).
  pose (y4 := fun (xc : Z) (xcf : R) (acc : A) => snd (iter 3 (fun st : R * Z * A => let '(ycf, yc, acc) := st in
        (fadd (s:=S) (W:=scalar) ycf (num 1), iadd (W:=scalar) yc (iv PrimeY), z4 xc yc xcf ycf acc)) (yf, z_mul (ny - 1) PrimeY, acc))).
  etransitivity; [apply (axis3 A (fun xcf xc acc => y4 xc xcf acc)); lia|].
  cbn [neighbours]. rewrite fold_flat. apply fold_shift. intros a kx.
  etransitivity; [apply (axis3 A (fun ycf yc acc => z4 (z_mul (nx - 1 + kx) PrimeX) yc (xf + IZR kx) ycf acc)); lia|].
  rewrite fold_map, fold_flat. apply fold_shift. intros a' ky.
  etransitivity; [apply (axis3 A (fun zcf zc acc => w4 (z_mul (nx - 1 + kx) PrimeX) (z_mul (ny - 1 + ky) PrimeY) zc (xf + IZR kx) (yf + IZR ky) zcf acc)); lia|].
  rewrite fold_map, fold_flat. apply fold_shift. intros a'' kz.
  etransitivity.
  { apply (axis3 A (fun wcf wc acc => let '(hash, d) := cell4 (s:=S) (W:=scalar) seed j (z_mul (nx - 1 + kx) PrimeX) (z_mul (ny - 1 + ky) PrimeY) (z_mul (nz - 1 + kz) PrimeZ) wc (rx (xf + IZR kx)) (ry (yf + IZR ky)) (rz (zf + IZR kz)) (rw wcf) in visit acc hash d)). lia. }
  rewrite fold_map, fold_flat. apply fold_shift. intros a3 kw.
  cbn [map fold_left]. rewrite cell4_eq, Rx, Ry, Rz, Rw. f_equal. unfold vec, feature. cbn [length direction raw_dir map zipw].
  f_equal; [ring|f_equal; [ring|f_equal; [ring|f_equal; ring]]].
Qed.
End Visit.
End T.
