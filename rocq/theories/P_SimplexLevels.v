(** C32 for the Simplex nodes: every SIMD level computes the same noise (real arithmetic, one lane). *)
From Coq Require Import Reals ZArith List Bool Lia Lra.
From Verif Require Import Prelude Simd_Model Utils_Model Nodes_Model Simd_R P_Grad Simplex_Model.
Import ListNotations.
Open Scope R_scope.
Section L.
Variable inf : R.
Variable bits : R -> Z.
Notation S_ := (Rops inf bits).
Lemma ramp_level : forall ft ft' seed (c : contrib S_ scalar), ramp (s:=S_) (W:=scalar) ft seed c = ramp (s:=S_) (W:=scalar) ft' seed c.
Proof.
  intros ft ft' seed [p d f]. unfold ramp. cbn [cd cp]. destruct d as [|x [|y [|z [|w [|? ?]]]]]; auto.
  - rewrite !C32_perlin2. reflexivity.
  - rewrite !C32_common. reflexivity.
  - rewrite !C32_perlin4. reflexivity.
Qed.
Lemma acc_level : forall ft ft' seed (l : list (contrib S_ scalar)), value_acc (s:=S_) (W:=scalar) ft seed l = value_acc (s:=S_) (W:=scalar) ft' seed l.
Proof.
  intros ft ft' seed [|c l]; auto. cbn [value_acc]. rewrite (ramp_level ft ft'). generalize (fmul (s:=S_) (W:=scalar) (cf c) (ramp (s:=S_) (W:=scalar) ft' seed c)).
  induction l as [|c' l IH]; intros a; auto. cbn [fold_left]. rewrite (ramp_level ft ft'). apply IH.
Qed.
Theorem C32_simplex_nodes_agree : forall ft ft' so freq r seed pos,
  SimplexGen (s:=S_) (W:=scalar) ft so freq r seed pos = SimplexGen (s:=S_) (W:=scalar) ft' so freq r seed pos /\
  SuperSimplexGen (s:=S_) (W:=scalar) ft so freq r seed pos = SuperSimplexGen (s:=S_) (W:=scalar) ft' so freq r seed pos.
Proof.
  intros ft ft' so freq r seed pos. destruct pos as [|x [|y [|z [|w [|? ?]]]]]; split; try reflexivity; cbn [SimplexGen SuperSimplexGen].
  - unfold SimplexGen2, slet. f_equal. unfold value2. destruct (simplex2 _ _ _) as [|? [|? [|? [|? ?]]]]; auto. rewrite !(ramp_level ft ft'). reflexivity.
  - unfold SuperSimplexGen2, slet. f_equal. apply acc_level.
  - unfold SimplexGen3, slet. f_equal. unfold value3. destruct (simplex3 _ _ _ _) as [|? [|? [|? [|? [|? ?]]]]]; auto. rewrite !(ramp_level ft ft'). reflexivity.
  - unfold SuperSimplexGen3, slet. f_equal. apply acc_level.
  - unfold SimplexGen4, slet. f_equal. unfold value4. destruct (simplex4 _ _ _ _ _) as [|? [|? [|? [|? [|? [|? ?]]]]]]; auto. rewrite !(ramp_level ft ft'). reflexivity.
  - unfold SuperSimplexGen4, slet. f_equal. apply acc_level.
Qed.
End L.
Print Assumptions C32_simplex_nodes_agree.
