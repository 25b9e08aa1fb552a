(** Independent specification for the encoded text format.
    Plain base64 is RFC 4648; the only FastNoise2 extension is that a run of
    'A's may be written '@c', meaning (value of c) + 3 copies of 'A'. *)
From Coq Require Import String Ascii.
From Coq Require Import ZArith List Bool.
Import ListNotations.
Open Scope Z_scope.

Definition alphabet : list Z :=
  List.map (fun c => Z.of_nat (nat_of_ascii c))
    (list_ascii_of_string "ABCDEFGHIJKLMNOPQRSTUVWXYZabcdefghijklmnopqrstuvwxyz0123456789+/").

(** the character of a 6-bit value *)
Definition sym (v : Z) : Z := nth (Z.to_nat v) alphabet 0.

(** RFC 4648 base64 text of a byte sequence, with '=' (61) padding. *)
Fixpoint b64_text (d : list Z) : list Z :=
  match d with
  | a :: b :: c :: t =>
      sym (a / 4) :: sym (a mod 4 * 16 + b / 16) :: sym (b mod 16 * 4 + c / 64) :: sym (c mod 64) :: b64_text t
  | [a; b] => [sym (a / 4); sym (a mod 4 * 16 + b / 16); sym (b mod 16 * 4); 61]
  | [a] => [sym (a / 4); sym (a mod 4 * 16); 61; 61]
  | [] => []
  end.

(** [l] contains [n] consecutive copies of [x]. *)
Definition has_run (x : Z) (n : nat) (l : list Z) : Prop :=
  exists p q, l = p ++ repeat x n ++ q.

(** Meaning of the compressed text: [means s x] iff [s] abbreviates [x]. *)
Inductive means : list Z -> list Z -> Prop :=
| means_nil : means [] []
| means_char : forall c s x, c <> 64 -> means s x -> means (c :: s) (c :: x)
| means_run : forall v s x, 0 <= v < 64 -> means s x ->
    means (64 :: sym v :: s) (repeat 65 (Z.to_nat v + 3) ++ x).
