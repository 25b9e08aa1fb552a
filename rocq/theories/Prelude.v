(** Shared vocabulary of all models: the outcome type of C++ code (with
    undefined behaviour and loop divergence as distinct outcomes), checked
    array accesses and fixed-width integer wrap-around. *)
From Coq Require Import ZArith List Lia Bool.
Import ListNotations.
Open Scope Z_scope.

(** Outcome of running a piece of C++:
    [Ok a]      it finished and produced [a];
    [UB]        it performed an out-of-bounds access, null dereference, ...;
    [NoFuel]    the model's loop counter ran out (no statement about the code;
                theorems show it is not reached, or that no fuel suffices). *)
Inductive res (A : Type) : Type :=
| Ok (a : A)
| UB
| NoFuel.
Arguments Ok {A} a.
Arguments UB {A}.
Arguments NoFuel {A}.

Definition bind {A B} (x : res A) (f : A -> res B) : res B :=
  match x with Ok a => f a | UB => UB | NoFuel => NoFuel end.

Declare Scope res_scope.
Notation "x <- e ; k" := (bind e (fun x => k))
  (at level 61, e at next level, right associativity) : res_scope.
Notation "' p <- e ; k" := (bind e (fun p => k))
  (at level 61, p pattern, e at next level, right associativity) : res_scope.
Open Scope res_scope.

(** Checked array read [a[i]]. *)
Definition rd {A} (l : list A) (i : nat) : res A :=
  match nth_error l i with Some x => Ok x | None => UB end.

(** Checked array write [a[i] = x]. *)
Fixpoint upd {A} (l : list A) (i : nat) (x : A) : list A :=
  match l, i with
  | [], _ => []
  | _ :: t, O => x :: t
  | h :: t, S i' => h :: upd t i' x
  end.

Definition wr {A} (l : list A) (i : nat) (x : A) : res (list A) :=
  if (i <? length l)%nat then Ok (upd l i x) else UB.

(** Unsigned and two's-complement wrap-around. *)
Definition u8  (z : Z) : Z := z mod 2^8.
Definition u16 (z : Z) : Z := z mod 2^16.
Definition u32 (z : Z) : Z := z mod 2^32.
Definition u64 (z : Z) : Z := z mod 2^64.
Definition s32 (z : Z) : Z := (z + 2^31) mod 2^32 - 2^31.

Definition is_byte (z : Z) : Prop := 0 <= z < 256.

(** ** Lemmas *)
Lemma rd_Ok : forall A (l : list A) i x, nth_error l i = Some x -> rd l i = Ok x.
Proof. intros A l i x H. unfold rd. rewrite H. reflexivity. Qed.

Lemma rd_app_l : forall A (l l' : list A) i, (i < length l)%nat -> rd (l ++ l') i = rd l i.
Proof. intros. unfold rd. rewrite nth_error_app1; auto. Qed.

Lemma rd_mid : forall A (l l' : list A) x i, i = length l -> rd (l ++ x :: l') i = Ok x.
Proof. intros; subst. unfold rd. rewrite nth_error_app2 by lia. rewrite Nat.sub_diag. reflexivity. Qed.

Lemma upd_length : forall A (l : list A) i x, length (upd l i x) = length l.
Proof. induction l; destruct i; simpl; intros; auto. Qed.

Lemma upd_mid : forall A (l l' : list A) x y i, i = length l -> upd (l ++ x :: l') i y = l ++ y :: l'.
Proof. intros A l l' x y i ->. induction l; simpl; auto. rewrite IHl. reflexivity. Qed.

Lemma wr_mid : forall A (l l' : list A) x y i, i = length l -> wr (l ++ x :: l') i y = Ok (l ++ y :: l').
Proof.
  intros. unfold wr. rewrite upd_mid by assumption.
  replace (i <? length (l ++ x :: l'))%nat with true; [reflexivity|].
  symmetry. apply Nat.ltb_lt. rewrite app_length. simpl. lia.
Qed.

Lemma nth_error_upd_eq : forall A (l : list A) i x, (i < length l)%nat -> nth_error (upd l i x) i = Some x.
Proof. induction l; intros [|i] x H; simpl in *; try lia; auto. apply IHl. lia. Qed.

Lemma nth_error_upd_neq : forall A (l : list A) i j x, i <> j -> nth_error (upd l i x) j = nth_error l j.
Proof. induction l; intros [|i] [|j] x H; simpl in *; try congruence; auto. Qed.

Lemma bind_Ok_inv : forall A B (x : res A) (f : A -> res B) b,
  bind x f = Ok b -> exists a, x = Ok a /\ f a = Ok b.
Proof. intros A B [a| |] f b H; simpl in H; try discriminate. eauto. Qed.

Lemma s32_range : forall z, - 2^31 <= s32 z < 2^31.
Proof. intros. unfold s32. pose proof (Z.mod_pos_bound (z + 2^31) (2^32)). lia. Qed.

Lemma s32_id : forall z, - 2^31 <= z < 2^31 -> s32 z = z.
Proof. intros. unfold s32. rewrite Z.mod_small by lia. lia. Qed.
