(** SuperSimplex 4D: at most one lattice vertex within reach is not visited. *)
From Coq Require Import Reals ZArith List Bool Lia Lra Psatz.
From Verif Require Import Prelude Simd_Model Utils_Model Nodes_Model Setters_Model Simd_R Bits P_Hash P_Grad P_Blend P_Lattice Lattice Simplex_Model Simplex_Spec Simplex_Geom Simplex_2D P_Simplex Simplex_3D P_Simplex3 Simplex_Cells Simplex_4D.
Import ListNotations.
Open Scope R_scope.

Definition far (a : R) : Z := if Rltb (3/10) a then 1 else if Rltb a (-3/10) then -1 else 0.
(** the only vertex within reach that the code may not visit, relative to the base vertex *)
Definition missed4 (n m l o : Z) (X Y Z W : R) := let s := (X + Y + Z + W) / 5 in
  [n + (far (X - s) - far (- s)); m + (far (Y - s) - far (- s)); l + (far (Z - s) - far (- s)); o + (far (W - s) - far (- s))]%Z.
Lemma sq_hi : forall p t, p <= 2/5 -> 2/5 <= t -> (t - 2/5) * (t - 2/5) <= (p - t) * (p - t).
Proof. intros. nra. Qed.
Lemma sq_lo : forall p t, -2/5 <= p -> t <= -2/5 -> (t + 2/5) * (t + 2/5) <= (p - t) * (p - t).
Proof. intros. nra. Qed.
Lemma sq_0 : forall a : R, 0 <= a * a. Proof. intros. apply Rle_0_sqr. Qed.
Lemma wide_bound : forall a b c d e, 0 <= c -> 0 <= d -> 0 <= e -> a * a + b * b + c + d + e < 4/5 -> -13/10 < a - b < 13/10.
Proof. intros a b c d e Hc Hd He H. pose proof (Rle_0_sqr (a + b)) as P. unfold Rsqr in P. split; nra. Qed.
Lemma sq_lt : forall a b, 0 <= b -> a * a < b * b -> - b < a < b. Proof. intros. split; nra. Qed.
Lemma far_p : forall a, 3/10 < a -> far a = 1%Z. Proof. intros. unfold far, Rltb. destruct (Rlt_dec _ _); auto; lra. Qed.
Lemma far_m : forall a, a < -3/10 -> far a = (-1)%Z. Proof. intros. unfold far, Rltb. repeat destruct (Rlt_dec _ _); auto; lra. Qed.
Lemma far_0 : forall a, -3/10 <= a <= 3/10 -> far a = 0%Z. Proof. intros. unfold far, Rltb. repeat destruct (Rlt_dec _ _); auto; lra. Qed.

(** the five coordinates of an offset, of sum 0 *)
Lemma Q4_five : forall X Y Z W i j k h, let s := (X + Y + Z + W) / 5 in let q := (i + j + k + h) / 5 in
  Q4 (X - i) (Y - j) (Z - k) (W - h) = (X - s - (i - q)) * (X - s - (i - q)) + (Y - s - (j - q)) * (Y - s - (j - q)) + (Z - s - (k - q)) * (Z - s - (k - q)) + (W - s - (h - q)) * (W - s - (h - q)) + (- s - (- q)) * (- s - (- q)).
Proof. intros. unfold Q4, s, q. field. Qed.

Ltac bd p t := first [pose proof (sq_hi p t ltac:(lra) ltac:(lra)) | pose proof (sq_lo p t ltac:(lra) ltac:(lra)) | pose proof (sq_0 (p - t))].
Ltac sgl p t := let HH := fresh in first [assert (HH : (p - t) * (p - t) < 3/10 * (3/10)) by lra | assert (HH : (p - t) * (p - t) < 7/10 * (7/10)) by lra]; apply sq_lt in HH; [|lra].
Ltac pkl := left; unfold Rltb; destruct (Rlt_dec _ _); cbn [sg]; first [reflexivity|exfalso; lra].
Ltac pkr := first [pkl | right; pkr].
Ltac fr := first [rewrite far_p by lra | rewrite far_m by lra | rewrite far_0 by lra].

Lemma ss4_miss : forall n m l o (x y z w : R), cell4 (x - IZR n) (y - IZR m) (z - IZR l) (w - IZR o) ->
  let X := x - IZR n in let Y := y - IZR m in let Z := z - IZR l in let W := w - IZR o in let s := (X + Y + Z + W) / 5 in
  forall v, length v = 4%nat -> sqlen (offset (unskew 4) [x; y; z; w] v) < 4/5 ->
  In v (ss4_vertices n m l o (Rltb s 0) (Rltb s (W - s)) (Rltb s (Z - s)) (Rltb s (Y - s)) (Rltb s (X - s)) (Rltb (X - s) 0) (Rltb (X - s) (- (Y - s))) (Rltb (X - s) (- (Z - s))) (Rltb (X - s) (- (W - s))) (Rltb (Y - s) 0) (Rltb (Y - s) (- (Z - s))) (Rltb (Y - s) (- (W - s))) (Rltb (Z - s) 0) (Rltb (Z - s) (- (W - s))) (Rltb (W - s) 0)) \/ v = missed4 n m l o X Y Z W.
Proof.
  intros n m l o x y z w HC X Y Z W s.
  intros [|a [|b [|c [|d [|? ?]]]]] L D; try discriminate L. clear L. rewrite sqlen4 in D.
  assert (exists i, a = (n + i)%Z) as [i ->] by (exists (a - n)%Z; lia). assert (exists j, b = (m + j)%Z) as [j ->] by (exists (b - m)%Z; lia). assert (exists k, c = (l + k)%Z) as [k ->] by (exists (c - l)%Z; lia). assert (exists h, d = (o + h)%Z) as [h ->] by (exists (d - o)%Z; lia).
  rewrite !plus_IZR in D. fold X Y Z W in HC.
  replace (x - (IZR n + IZR i)) with (X - IZR i) in D by (unfold X; ring). replace (y - (IZR m + IZR j)) with (Y - IZR j) in D by (unfold Y; ring). replace (z - (IZR l + IZR k)) with (Z - IZR k) in D by (unfold Z; ring). replace (w - (IZR o + IZR h)) with (W - IZR h) in D by (unfold W; ring).
  clearbody X Y Z W. unfold missed4. fold s. unfold cell4 in HC. cbv zeta in HC. fold s in HC.
  pose proof (Q4_five X Y Z W (IZR i) (IZR j) (IZR k) (IZR h)) as D'. cbv zeta in D'. fold s in D'. rewrite D' in D.
  pose proof (Q4_pos X Y Z W) as QP. rewrite Q4_diff in QP. fold s in QP.
  assert (HS : X + Y + Z + W = 5 * s) by (unfold s; field). clear D'. clearbody s.
  set (px := X - s) in *. set (py := Y - s) in *. set (pz := Z - s) in *. set (pw := W - s) in *. set (pv := - s) in *.
  assert (HP : px + py + pz + pw + pv = 0) by (unfold px, py, pz, pw, pv; lra).
  replace s with (- pv) in * by (unfold pv; ring). clearbody px py pz pw pv. clear X Y Z W HS x y z w s.
  set (q := (IZR i + IZR j + IZR k + IZR h) / 5) in D.
  set (ax := px - (IZR i - q)) in *. set (ay := py - (IZR j - q)) in *. set (az := pz - (IZR k - q)) in *. set (aw := pw - (IZR h - q)) in *. set (av := pv - - q) in *.
  assert (-13/10 < ax - ay < 13/10) by (apply (wide_bound ax ay (az * az) (aw * aw) (av * av)); try apply sq_0; lra).
  assert (-13/10 < ax - az < 13/10) by (apply (wide_bound ax az (ay * ay) (aw * aw) (av * av)); try apply sq_0; lra).
  assert (-13/10 < ax - aw < 13/10) by (apply (wide_bound ax aw (ay * ay) (az * az) (av * av)); try apply sq_0; lra).
  assert (-13/10 < ax - av < 13/10) by (apply (wide_bound ax av (ay * ay) (az * az) (aw * aw)); try apply sq_0; lra).
  assert (-13/10 < ay - az < 13/10) by (apply (wide_bound ay az (ax * ax) (aw * aw) (av * av)); try apply sq_0; lra).
  assert (-13/10 < ay - aw < 13/10) by (apply (wide_bound ay aw (ax * ax) (az * az) (av * av)); try apply sq_0; lra).
  assert (-13/10 < ay - av < 13/10) by (apply (wide_bound ay av (ax * ax) (az * az) (aw * aw)); try apply sq_0; lra).
  assert (-13/10 < az - aw < 13/10) by (apply (wide_bound az aw (ax * ax) (ay * ay) (av * av)); try apply sq_0; lra).
  assert (-13/10 < az - av < 13/10) by (apply (wide_bound az av (ax * ax) (ay * ay) (aw * aw)); try apply sq_0; lra).
  assert (-13/10 < aw - av < 13/10) by (apply (wide_bound aw av (ax * ax) (ay * ay) (az * az)); try apply sq_0; lra).
  unfold ax, ay, az, aw, av in *. clear ax ay az aw av.
  assert (Ri : (-3 < i < 3)%Z) by (split; apply lt_IZR; lra). assert (Rj : (-3 < j < 3)%Z) by (split; apply lt_IZR; lra). assert (Rk : (-3 < k < 3)%Z) by (split; apply lt_IZR; lra). assert (Rh : (-3 < h < 3)%Z) by (split; apply lt_IZR; lra).
  assert (Rij : (-3 < i - j < 3)%Z) by (split; apply lt_IZR; rewrite minus_IZR; lra). assert (Rik : (-3 < i - k < 3)%Z) by (split; apply lt_IZR; rewrite minus_IZR; lra). assert (Rih : (-3 < i - h < 3)%Z) by (split; apply lt_IZR; rewrite minus_IZR; lra).
  assert (Rjk : (-3 < j - k < 3)%Z) by (split; apply lt_IZR; rewrite minus_IZR; lra). assert (Rjh : (-3 < j - h < 3)%Z) by (split; apply lt_IZR; rewrite minus_IZR; lra). assert (Rkh : (-3 < k - h < 3)%Z) by (split; apply lt_IZR; rewrite minus_IZR; lra).
  repeat match goal with H : -13/10 < _ < 13/10 |- _ => clear H end.
  assert (Ci : i = (-2)%Z \/ i = (-1)%Z \/ i = 0%Z \/ i = 1%Z \/ i = 2%Z) by lia. assert (Cj : j = (-2)%Z \/ j = (-1)%Z \/ j = 0%Z \/ j = 1%Z \/ j = 2%Z) by lia. assert (Ck : k = (-2)%Z \/ k = (-1)%Z \/ k = 0%Z \/ k = 1%Z \/ k = 2%Z) by lia. assert (Ch : h = (-2)%Z \/ h = (-1)%Z \/ h = 0%Z \/ h = 1%Z \/ h = 2%Z) by lia.
  clear Ri Rj Rk Rh. unfold q in D. clear q.
  destruct Ci as [->|[->|[->|[->| ->]]]], Cj as [->|[->|[->|[->| ->]]]]; try (exfalso; clear - Rij; lia); destruct Ck as [->|[->|[->|[->| ->]]]]; try (exfalso; clear - Rik Rjk; lia); destruct Ch as [->|[->|[->|[->| ->]]]]; try (exfalso; clear - Rih Rjh Rkh; lia); clear Rij Rik Rih Rjk Rjh Rkh.
  all: match type of D with (_ - ?t1) * _ + (_ - ?t2) * _ + (_ - ?t3) * _ + (_ - ?t4) * _ + (_ - ?t5) * _ < _ =>
    first [exfalso; clear - D HC HP; bd px t1; bd py t2; bd pz t3; bd pw t4; bd pv t5; lra
          |right; clear - D HC HP; bd px t1; bd py t2; bd pz t3; bd pw t4; bd pv t5; sgl px t1; sgl py t2; sgl pz t3; sgl pw t4; sgl pv t5; fr; fr; fr; fr; fr; reflexivity
          |left; clear - D HC HP QP; rewrite ?Z.add_0_r; unfold ss4_vertices; cbn [In]; first [left; reflexivity | right; pkr]] end.
Qed.
