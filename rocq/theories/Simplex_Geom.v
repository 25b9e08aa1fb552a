(** General facts about sums of bumps over the simplex lattices. *)
From Coq Require Import Reals ZArith List Bool Lia Lra Psatz Permutation.
From Verif Require Import Prelude Simd_Model Utils_Model Simd_R P_Grad P_Lattice Lattice Simplex_Spec.
Import ListNotations.
Open Scope R_scope.

Lemma sum_cons : forall a b, sum (a :: b) = a + sum b. Proof. reflexivity. Qed.
Lemma sum_nil : sum [] = 0. Proof. reflexivity. Qed.
Lemma sum_perm : forall a b, Permutation a b -> sum a = sum b.
Proof. intros a b H. induction H; rewrite ?sum_cons; lra. Qed.
(** a sum over a list depends only on the elements with nonzero terms *)
Lemma sum_support : forall {A} (dec : forall x y : A, {x = y} + {x <> y}) (f : A -> R) (L M : list A), NoDup L -> NoDup M ->
  (forall x, f x <> 0 -> (In x L <-> In x M)) -> sum (map f L) = sum (map f M).
Proof.
  intros A dec f L M NL NM H.
  set (p := fun x => if Req_EM_T (f x) 0 then false else true).
  assert (F : forall K, sum (map f K) = sum (map f (filter p K))).
  { induction K as [|a K IH]; [reflexivity|]. cbn [map filter]. unfold p at 1. destruct (Req_EM_T (f a) 0).
    - rewrite sum_cons, IH. lra.
    - cbn [map]. rewrite !sum_cons, IH. reflexivity. }
  rewrite (F L), (F M). apply sum_perm, Permutation_map, NoDup_Permutation; try (apply NoDup_filter; auto).
  intros x. rewrite !filter_In. unfold p. destruct (Req_EM_T (f x) 0); [intuition discriminate|]. rewrite (H x n). reflexivity.
Qed.
Definition vdec : forall x y : list Z, {x = y} + {x <> y} := list_eq_dec Z.eq_dec.

Lemma falloff_out : forall r2 os, r2 <= sqlen os -> falloff r2 os = 0.
Proof. intros. unfold falloff. rewrite Rmax_left by lra. ring. Qed.
Lemma bump_out : forall r2 u seed qs v, r2 <= sqlen (offset u qs v) -> bump r2 u seed qs v = 0.
Proof. intros. unfold bump. rewrite falloff_out by auto. ring. Qed.
(** any two lists with all the vertices that reach the position give the same sum *)
Lemma bumps_reaching : forall r2 u seed qs L M, reaching r2 u qs L -> reaching r2 u qs M -> bumps r2 u seed qs L = bumps r2 u seed qs M.
Proof.
  intros r2 u seed qs L M (NL & HL & CL) (NM & HM & CM). unfold bumps. apply (sum_support vdec); auto.
  intros v Hv. destruct (Rlt_le_dec (sqlen (offset u qs v)) r2) as [D|D]; [|exfalso; apply Hv, bump_out; auto]. intuition.
Qed.

(** ** Continuity of a sum of bumps *)
Lemma cont_max0 : forall f xs, continuous_at f xs -> continuous_at (fun ys => Rmax 0 (f ys)) xs.
Proof.
  intros f xs Hf e He. destruct (Hf e He) as (d & Pd & Q). exists d. split; auto. intros ys N. specialize (Q ys N).
  apply Rabs_def2 in Q. apply Rabs_def1; unfold Rmax; repeat destruct (Rle_dec _ _); lra.
Qed.
Lemma cont_pow : forall n f xs, continuous_at f xs -> continuous_at (fun ys => f ys ^ n) xs.
Proof. induction n; intros f xs H; cbn [pow]; [apply cont_const|apply cont_mult; auto]. Qed.
Lemma cont_sum : forall {A} (f : A -> list R -> R) L xs, (forall a, In a L -> continuous_at (f a) xs) ->
  continuous_at (fun ys => sum (map (fun a => f a ys) L)) xs.
Proof.
  intros A f L xs. induction L as [|a L IH]; intros H; cbn [map].
  - apply cont_const.
  - apply (cont_ext (fun ys => f a ys + sum (map (fun a => f a ys) L))); [reflexivity|]. apply cont_plus; [apply H; left; auto|].
    apply IH. intros; apply H; right; auto.
Qed.
