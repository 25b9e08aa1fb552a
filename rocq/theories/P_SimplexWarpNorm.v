(** C63: with the scheme OrthogonalGradientMatrix the vector a lattice vertex contributes has a length that
    depends only on the falloff and the length of the offset: the matrix is a rotation or a reflection times
    a constant, up to the rounding of its float entries. *)
From Coq Require Import Reals ZArith List Bool Lia Lra Psatz.
From Verif Require Import Prelude Simd_Model Utils_Model Nodes_Model Simplex_Model Warp_Model SimplexWarp_Model Simd_R Bits P_Hash P_Grad SimplexWarp_Spec P_SimplexWarpOrtho.
Import ListNotations.
Open Scope R_scope.

(** ** Specification *)
Definition sq2 (v : R * R) : R := let '(a, b) := v in a * a + b * b.
Definition sq3 (v : R * R * R) : R := let '(a, b, c) := v in a * a + b * b + c * c.
Definition sq4 (v : R * R * R * R) : R := let '(a, b, c, d) := v in a * a + b * b + c * c + d * d.

Lemma e20 : / 2^20 = / 1048576. Proof. f_equal. ring. Qed.
Lemma e18 : / 2^18 = / 262144. Proof. f_equal. ring. Qed.
Ltac nthz := repeat match goal with |- context [Z.to_nat ?z] => let n := eval compute in (Z.to_nat z) in change (Z.to_nat z) with n end.
Section C63.
Variable inf : R.
Variable bits : R -> Z.
Notation S := (Rops inf bits).

Theorem C63_length2 : forall ft h (x y m : R), (0 <= h < 2^31)%Z ->
  Rabs (sq2 (ApplyOrthogonalGradientMatrixVectorProductSimplex2 (s:=S) (W:=scalar) ft h x y m 0 0) - 2 * (m * m) * sq2 (x, y))
    <= / 2^20 * ((m * m) * sq2 (x, y)).
Proof.
  intros ft h x y m H. rewrite C62_ortho2 by exact H. unfold ortho2_rows.
  pose proof (simplex2_index_range h H) as Hj.
  assert (exists g, 2 - / 2^20 <= g <= 2 + / 2^20 /\ fst (ortho2_grad h) * fst (ortho2_grad h) + snd (ortho2_grad h) * snd (ortho2_grad h) = g) as [g [Hg E]].
  { eexists. split; [|reflexivity]. unfold ortho2_grad. set (j := simplex2_index h) in *. clearbody j.
    rewrite e20. enum j Hj; nthz; cbn [nth fst snd]; unfold skew2; cbn [Z.pow Z.pow_pos Pos.iter Z.mul Pos.mul]; lra. }
  destruct (ortho2_grad h) as [a b]. cbn [fst snd] in E.
  assert (sq2 (0 + m * dot2 (a, b) x y, 0 + m * dot2 (snd ((a, b), (if Z.odd h then (b, - a) else (- b, a)))) x y) = g * ((m * m) * sq2 (x, y))) as K.
  { rewrite <- E. unfold sq2, dot2. cbn [fst snd]. destruct (Z.odd h); cbn [fst snd]; ring. }
  cbn [fst snd] in K |- *. rewrite K.
  assert (0 <= m * m * sq2 (x, y)) by (unfold sq2; apply Rmult_le_pos; nra).
  set (q := m * m * sq2 (x, y)) in *. replace (g * q - 2 * (m * m) * sq2 (x, y)) with ((g - 2) * q) by (unfold q; ring).
  rewrite Rabs_mult, (Rabs_right q) by lra. apply Rmult_le_compat_r; [lra|]. apply Rabs_le. lra.
Qed.
Lemma sq3_perm : forall a b c, sq3 (a, b, c) = a*a + b*b + c*c. Proof. reflexivity. Qed.
Lemma core3 : forall u v w,
  Rabs ((compA * u + compB * v - w)^2 + (compB * u + compA * v - w)^2 + (u + v + 2 * w)^2 - 6 * (u*u + v*v + w*w)) <= / 2^18 * (u*u + v*v + w*w).
Proof.
  intros u v w. rewrite e18. unfold compA, compB. cbn [Z.pow Z.pow_pos Pos.iter Z.mul Pos.mul].
  pose proof (pow2_ge_0 (u + v)). pose proof (pow2_ge_0 (u - v)). pose proof (pow2_ge_0 (u + w)). pose proof (pow2_ge_0 (u - w)).
  pose proof (pow2_ge_0 (v + w)). pose proof (pow2_ge_0 (v - w)). pose proof (pow2_ge_0 u). pose proof (pow2_ge_0 v). pose proof (pow2_ge_0 w).
  apply Rabs_le. split; nra.
Qed.
Theorem C63_length3 : forall ft h (x y z m : R), (0 <= h < 2^31)%Z ->
  Rabs (sq3 (ApplyOrthogonalGradientMatrixVectorProductCommon3 (s:=S) (W:=scalar) ft h x y z m 0 0 0) - 6 * (m * m) * sq3 (x, y, z))
    <= / 2^18 * ((m * m) * sq3 (x, y, z)).
Proof.
  intros ft h x y z m H. rewrite C62_ortho3 by exact H. unfold ortho3_rows.
  set (s0 := sgn (Z.testbit (3 * (h / 2)) 0)). set (s1 := sgn (Z.testbit (3 * (h / 2)) 1)). set (s := sgn (Z.odd h)).
  assert (forall b, sgn b * sgn b = 1) as Hs by (intros []; unfold sgn; lra).
  assert (s0 * s0 = 1) as H0 by apply Hs. assert (s1 * s1 = 1) as H1 by apply Hs. assert (s * s = 1) as H2 by apply Hs.
  assert (exists u v w, u*u + v*v + w*w = sq3 (x, y, z) /\
    forall a b c, dot3 (place ((2 * (h / 2)) mod 3) (s * (s0 * a)) (s * (s1 * b)) (s * c)) x y z = s * (a * u + b * v + c * w)) as (u & v & w & E & D).
  { unfold place. destruct ((2 * (h / 2)) mod 3)%Z as [|[| |]|].
    1: exists (s0 * x), (s1 * z), y.
    2: exists (s0 * y), (s1 * z), x.
    3: exists (s0 * y), (s1 * z), x.
    4: exists (s0 * x), (s1 * y), z.
    5: exists (s0 * y), (s1 * z), x.
    all: (split; [unfold sq3|intros; unfold dot3; ring]).
    all: replace (s0 * x * (s0 * x)) with (s0 * s0 * (x * x)) by ring; replace (s0 * y * (s0 * y)) with (s0 * s0 * (y * y)) by ring;
         replace (s1 * y * (s1 * y)) with (s1 * s1 * (y * y)) by ring; replace (s1 * z * (s1 * z)) with (s1 * s1 * (z * z)) by ring;
         rewrite ?H0, ?H1; ring. }
  clearbody s0 s1 s. set (hs := (h / 2)%Z) in *. rewrite <- E.
  pose proof (core3 u v w) as K.
  set (Q := (compA * u + compB * v - w)^2 + (compB * u + compA * v - w)^2 + (u + v + 2 * w)^2) in *.
  match goal with |- context [sq3 ?T] => assert (sq3 T = (m * m) * Q) as -> end.
  { unfold Q. destruct (Z.testbit (3 * hs) 2), (3 * hs / 2^30)%Z as [|[| |]|]; unfold sq3; rewrite !D;
      ((match goal with |- ?L = _ => transitivity ((s * s) * ((m * m) * ((compA * u + compB * v - w)^2 + (compB * u + compA * v - w)^2 + (u + v + 2 * w)^2))) end); [ring|rewrite H2; ring]). }
  assert (0 <= m * m) by nra. set (q := u * u + v * v + w * w) in *.
  replace (m * m * Q - 6 * (m * m) * q) with ((m * m) * (Q - 6 * q)) by ring.
  rewrite Rabs_mult, (Rabs_right (m * m)) by lra. replace (/ 2^18 * (m * m * q)) with ((m * m) * (/ 2^18 * q)) by ring.
  apply Rmult_le_compat_l; [lra|exact K].
Qed.
End C63.
Print Assumptions C63_length2.
Print Assumptions C63_length3.
(** a hash of a vertex is in range *)
Example C63_case : (0 <= hash31 7 [3; -4; 12] < 2^31)%Z /\ (hash31 7 [3; -4; 12] mod 3 = 0)%Z. Proof. vm_compute. repeat split; discriminate. Qed.
