(** Display names. Models src/FastNoise/Metadata.cpp:634-685 and kDim_Strings
    (include/FastNoise/Generators/Generator.h:30-33). Strings are lists of bytes (Z in [0,256));
    isdigit, isupper, islower are those of the "C" locale and undefined for bytes >= 128 (char is
    signed: a negative argument), which the model reports as UB. *)
From Coq Require Import ZArith String Ascii List Bool.
From Verif Require Import Prelude Registry_Model.
Import ListNotations.
Open Scope Z_scope.

Definition bytes (s : string) : list Z := map (fun c => Z.of_nat (nat_of_ascii c)) (list_ascii_of_string s).
Definition ctype (p : Z -> bool) (c : Z) : res bool := if (0 <=? c) && (c <? 128) then Ok (p c) else UB.
Definition isdigit (c : Z) : bool := (48 <=? c) && (c <=? 57).
Definition isupper (c : Z) : bool := (65 <=? c) && (c <=? 90).
Definition islower (c : Z) : bool := (97 <=? c) && (c <=? 122).

(** std::string::insert( i, 1, c ) *)
Definition insert_at (s : list Z) (i : nat) (c : Z) : list Z := firstn i s ++ c :: skipn i s.

(** 644-650: the loop from index i; && and || as short-circuit *)
Fixpoint space_loop (fuel : nat) (s : list Z) (i : nat) : res (list Z) :=
  match fuel with
  | O => NoFuel
  | S fuel =>
      if (i <? length s)%nat then
        c <- rd s i ;
        d <- ctype isdigit c ;
        u <- (if d then Ok true else ctype isupper c) ;
        b <- (if u : bool then p <- rd s (i - 1) ; ctype islower p else Ok false) ;
        if b : bool then space_loop fuel (insert_at s i 32) (S (S i)) else space_loop fuel s (S i)
      else Ok s
  end.

(** std::string::find: index of the first occurrence *)
Fixpoint is_prefix (g s : list Z) : bool :=
  match g, s with [], _ => true | a :: g, b :: s => (a =? b) && is_prefix g s | _, _ => false end.
Fixpoint find (g s : list Z) : option nat :=
  if is_prefix g s then Some O else match s with [] => None | _ :: r => match find g r with Some k => Some (S k) | None => None end end.
(** std::string::erase( pos, n ) *)
Definition erase (s : list Z) (pos n : nat) : list Z := firstn pos s ++ skipn (pos + n) s.

(** 655-663 *)
Fixpoint remove_groups (s : list Z) (groups : list (list Z)) : list Z :=
  match groups with
  | [] => s
  | g :: r => remove_groups (match find g s with Some p => erase s p (length g + 1) | None => s end) r
  end.

(** 634-672; [formattedName]: nullptr for every node of the library (Metadata.h:282) *)
Definition FormatMetadataNodeName (formattedName : option (list Z)) (name : list Z) (groups : list (list Z)) (removeGroups : bool) : res (list Z) :=
  string <- match formattedName with Some f => Ok f | None => space_loop (S (2 * length name)) name 1 end ;
  let string := if removeGroups then remove_groups string groups else string in
  match string with [] => Ok name | _ => Ok string end.

Definition kDim_Strings : list (list Z) := [[88]; [89]; [90]; [87]].
(** 674-685 *)
Definition FormatMetadataMemberName (name : list Z) (dimensionIdx : Z) : res (list Z) :=
  if 0 <=? dimensionIdx then p <- rd kDim_Strings (Z.to_nat dimensionIdx) ; Ok (p ++ 32 :: name) else Ok name.
