(** C62, gradient outer product in 4D: the vector a lattice vertex contributes to a simplex domain warp. Every SIMD
    code path applies the same matrix, given by explicit tables. *)
From Coq Require Import Reals ZArith List Bool Lia Lra.
From Verif Require Import Prelude Simd_Model Utils_Model Nodes_Model Simplex_Model Warp_Model SimplexWarp_Model Simd_R Bits P_Hash P_Grad SimplexWarp_Spec.
Import ListNotations.
Open Scope Z_scope.

Section C62.
Variable inf : R.
Variable bits : R -> Z.
Notation S := (Rops inf bits).

(** the 20 vectors *)
Definition vec20 (j : Z) : R * R * R * R :=
  (let k := skew4 in let l := skew4 + 1 in
  nth (Z.to_nat j)
    [(l,k,k,k); (k,l,k,k); (k,k,l,k); (k,k,k,l);
     (-1,1,0,0); (1,-1,0,0); (0,0,-1,1); (0,0,1,-1);
     (-1,0,1,0); (0,-1,0,1); (1,0,-1,0); (0,1,0,-1);
     (-1,0,0,1); (0,-1,1,0); (0,1,-1,0); (1,0,0,-1);
     (-l,-k,-k,-k); (-k,-l,-k,-k); (-k,-k,-l,-k); (-k,-k,-k,-l)] (0,0,0,0))%R.
(** the vector selected by an index whose top five bits hold [j] < 20, outside AVX512 *)
Lemma outer4_vector_eq : forall X j, (0 <= X)%Z -> (X / 2^27 = j)%Z -> (0 <= j < 20)%Z ->
  outer4_vector (s:=S) (W:=scalar) (s32 X) = vec20 j.
Proof.
  intros X j HX E Hj. unfold outer4_vector. rewrite sk4. sunf. rewrite !pow2_0, !Rmult_1_r.
  assert (Z.land (s32 X) (s32 (3 * 2^27)) = (X / 2^27) mod 4 * 2^27)%Z as ->.
  { change (s32 (3 * 2^27))%Z with ((2^2 - 1) * 2^27)%Z. rewrite land_field by lia. rewrite s32_div_mod by lia. reflexivity. }
  assert (Z.land (z_shr 2 (s32 X)) (s32 (7 * 2^27)) = (X / 2^27) / 4 mod 8 * 2^27)%Z as ->.
  { change (s32 (7 * 2^27))%Z with ((2^3 - 1) * 2^27)%Z. rewrite land_field by lia. unfold z_shr.
    rewrite Z.div_div by lia. change (2^2 * 2^27)%Z with (2^29)%Z. rewrite s32_div_mod by lia.
    rewrite Z.div_div by lia. reflexivity. }
  rewrite E. clear E X HX.
  enum j Hj; cbv -[IZR Rmult Rplus Rminus Ropp root2 root3 skew4]; repeat apply (f_equal2 pair); ring.
Qed.
Lemma grad20_ushr : forall X, (0 <= X < 2^32)%Z -> (z_ushr 27 (s32 X) mod Z.of_nat 32 = X / 2^27)%Z.
Proof.
  intros X H. unfold z_ushr. change (Z.of_nat 32) with (2^5)%Z.
  rewrite <- (Z.div_1_r (s32 (u32 _ / _))). change 1%Z with (2^0)%Z at 1. rewrite s32_div_mod by lia.
  change (2^0)%Z with 1%Z. rewrite Z.div_1_r. unfold u32. rewrite s32_mod.
  rewrite (Z.mod_small X) by lia. apply Z.mod_small. split; [apply Z.div_pos; lia|apply Z.div_lt_upper_bound; lia].
Qed.

(** the AVX512 tables *)
Lemma tab20 : forall j, (0 <= j < 20)%Z ->
  vec20 j =
  (let k := skew4 in let k1 := skew4 + 1 in
   let tX := [k1; k; k; k; -1; 1; 0; 0; -1; 0; 1; 0; -1; 0; 0; 1] in
   let tY := [k; k1; k; k; 1; -1; 0; 0; 0; -1; 0; 1; 0; -1; 1; 0] in
   let tZ := [k; k; k1; k; 0; 0; -1; 1; 1; 0; -1; 0; 0; 1; -1; 0] in
   let tW := [k; k; k; k1; 0; 0; 1; -1; 0; 1; 0; -1; 1; 0; 0; -1] in
   (nth (Z.to_nat j) (tX ++ map Ropp tX) 0, nth (Z.to_nat j) (tY ++ map Ropp tY) 0,
    nth (Z.to_nat j) (tZ ++ map Ropp tZ) 0, nth (Z.to_nat j) (tW ++ map Ropp tW) 0))%R.
Proof.
  intros j Hj. enum j Hj; cbv -[IZR Rmult Rplus Rminus Ropp root2 root3 skew4]; reflexivity.
Qed.

Theorem C62_outer4 : forall ft (h : Z) (fX fY fZ fW m vX vY vZ vW : R), (0 <= h < 2^31)%Z ->
  ApplyGradientOuterProductVectorProductSimplex4 (s:=S) (W:=scalar) ft h fX fY fZ fW m vX vY vZ vW =
    let e := (m * dot4 (simplex4_grad h) fX fY fZ fW)%R in let '(a, b, c, d) := outer4_vec h in
    (vX + e * a, vY + e * b, vZ + e * c, vW + e * d)%R.
Proof.
  intros ft h fX fY fZ fW m vX vY vZ vW H.
  assert (0 <= h / 2^2 < 2^29)%Z as Hh by (split; [apply Z.div_pos; lia|apply Z.div_lt_upper_bound; lia]).
  pose proof (outer4_index_range h) as Hk. pose proof (simplex4_index_range h H) as Hj.
  assert (0 <= outer4_index h mod 4 < 4)%Z as Hm by (apply Z.mod_pos_bound; lia).
  assert (h / 2^2 * 5 / 2^27 = simplex4_index h)%Z as E by (unfold simplex4_index; f_equal; rewrite Z.mul_comm; reflexivity).
  assert ((outer4_index h * 2^27 + 3 * (outer4_index h mod 4)) / 2^27 = outer4_index h)%Z as E2.
  { rewrite Z.div_add_l by lia. rewrite (Z.div_small (3 * _)) by lia. lia. }
  unfold ApplyGradientOuterProductVectorProductSimplex4.
  unfold slet at 1 2 3 4. unfold imul, iand, iushr, iv. cbn [map1 map2 pure scalar].
  rewrite !(ushr_small h) by lia. change (s32 5) with 5%Z. unfold z_mul. rewrite outer4_masked by lia.
  destruct (avx512 ft).
  - pose proof (tab20 _ Hj) as Tj. pose proof (tab20 _ Hk) as Tk.
    change (vec20 (simplex4_index h)) with (simplex4_grad h) in Tj. change (vec20 (outer4_index h)) with (outer4_vec h) in Tk.
    rewrite Tj, Tk. clear Tj Tk.
    unfold ftable. rewrite sk4. sunf. rewrite !pow2_0, !Rmult_1_r. cbn [length app map].
    rewrite !grad20_ushr by lia. rewrite E, E2. unfold dot4. cbn [app map].
    repeat apply (f_equal2 pair); ring.
  - rewrite (outer4_vector_eq (h / 2^2 * 5) (simplex4_index h)) by lia.
    rewrite (outer4_vector_eq _ (outer4_index h)) by lia. change (vec20 (simplex4_index h)) with (simplex4_grad h). change (vec20 (outer4_index h)) with (outer4_vec h).
    destruct (simplex4_grad h) as [[[? ?] ?] ?], (outer4_vec h) as [[[? ?] ?] ?]. unfold dot4. sunf.
    repeat apply (f_equal2 pair); ring.
Qed.
End C62.
Print Assumptions C62_outer4.
