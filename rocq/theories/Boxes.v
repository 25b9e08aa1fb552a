(** A verified branch-and-bound with first order Taylor models, in any dimension: an upper bound, over all
    positions of the unit cell with descending coordinates, of a sum of bumps max(0, R - |offset|^2)^4 * h over
    lattice vertices. The computation is in integers (fixed point, [B] binary digits); the soundness theorem
    [check_sound] speaks about reals. Used for the output range of simplex noise (C67) and the reach of the
    simplex warps (C66). *)
From Coq Require Import Reals ZArith List Bool Lia Lra Psatz.
Import ListNotations.
Open Scope Z_scope.

Definition B : Z := 20.
(** [(c, ls, r)] stands for the functions within [r] of c + sum l_i s_i, for |s_i| <= 1 *)
Definition form : Type := Z * list Z * Z.
Definition mag (l : list Z) : Z := fold_right (fun x acc => Z.abs x + acc) 0 l.
Definition rnd (k : Z) (f : form) : form :=
  let '(c, l, r) := f in (Z.shiftr c k, map (fun x => Z.shiftr x k) l, Z.shiftr r k + Z.of_nat (length l) + 2).
Fixpoint zadd (l m : list Z) : list Z := match l, m with x :: l', y :: m' => x + y :: zadd l' m' | _, _ => [] end.
Definition fadd (f g : form) : form := let '(c, l, r) := f in let '(d, m, t) := g in (c + d, zadd l m, r + t).
Definition fmul (f g : form) : form :=
  let '(c, l, r) := f in let '(d, m, t) := g in
  let ml := mag l in let mm := mag m in
  rnd B (c * d, zadd (map (Z.mul c) m) (map (Z.mul d) l), ml * mm + r * (Z.abs d + mm + t) + t * (Z.abs c + ml)).
Definition hi (f : form) : Z := let '(c, l, r) := f in c + mag l + r.
Definition lo (f : form) : Z := let '(c, l, r) := f in c - mag l - r.
(** max(0, .) *)
Definition clamp (f : form) : form :=
  if 0 <=? lo f then f else let '(c, l, r) := f in let h := Z.shiftr (hi f + 1) 1 in (h, map (fun _ => 0) l, h).
Definition zsum (l : list Z) : Z := fold_right Z.add 0 l.
Definition sqsum (l : list Z) : Z := fold_right (fun x acc => x * x + acc) 0 l.
Fixpoint zmul (l m : list Z) : list Z := match l, m with x :: l', y :: m' => x * y :: zmul l' m' | _, _ => [] end.
(** R - ((n+1) sum p_i^2 - (sum p_i)^2) for p = (ps + ws s) / 2^B; [RR] is R in units of 2^-2B *)
Definition falloff_form (RR : Z) (ps ws : list Z) : form :=
  let n1 := Z.of_nat (length ps) + 1 in let s := zsum ps in let e := n1 * sqsum ws in
  rnd (B + 1) (2 * (RR - (n1 * sqsum ps - s * s)) - e, zmul (map (fun p => 4 * (s - n1 * p)) ps) ws, e).
Section Check.
Variable RR : Z.
(** upper model of the height *)
Variable height_form : list Z -> list Z -> form.
Fixpoint zsub_un (cs v : list Z) : list Z := match cs, v with x :: cs', y :: v' => x - Z.shiftl y B :: zsub_un cs' v' | _, _ => [] end.
Fixpoint total_form (vs : list (list Z)) (cs ws : list Z) : list (list Z) * form :=
  match vs with
  | [] => ([], (0, map (fun _ => 0) ws, 0))
  | v :: vs' =>
      let rest := total_form vs' cs ws in
      let ps := zsub_un cs v in
      let f := falloff_form RR ps ws in
      if hi f <=? 0 then rest else
      let f := clamp f in let f2 := fmul f f in let f4 := fmul f2 f2 in
      (v :: fst rest, fadd (fmul f4 (height_form ps ws)) (snd rest))
  end.
Fixpoint descending (cs ws : list Z) : bool :=
  match cs, ws with
  | x :: ((y :: _) as cs'), w :: ((u :: _) as ws') => ((y - u <=? x + w) && descending cs' ws')%bool
  | _, _ => true
  end.
Fixpoint setk (k : nat) (g : Z -> Z) (l : list Z) : list Z :=
  match l, k with [], _ => [] | x :: l', O => g x :: l' | x :: l', S k' => x :: setk k' g l' end.
Fixpoint check (n fuel k : nat) (lim : Z) (vs : list (list Z)) (cs ws : list Z) : bool :=
  if negb (descending cs ws) then true else
  let t := total_form vs cs ws in
  if hi (snd t) <=? lim then true else
  match fuel with
  | O => false
  | S m => let h := Z.shiftr (nth k ws 0 + 1) 1 in let ws' := setk k (fun _ => h) ws in let k' := if Nat.eqb (S k) n then O else S k in
    (check n m k' lim (fst t) (setk k (fun x => x - h) cs) ws' && check n m k' lim (fst t) (setk k (fun x => x + h) cs) ws')%bool
  end.
End Check.
Definition cell (n : nat) : list Z := repeat (2^(B - 1)) n.

(** heights: the sum of all |o_i| but the smallest, where o_i = p_i + U sum p; [UU] is U in units of 2^-B *)
Definition zneg_if (b : bool) (l : list Z) : list Z := if b then map Z.opp l else l.
Definition coords (UU : Z) (ps ws : list Z) : list (Z * list Z) :=
  let su := UU * zsum ps in let ul := map (fun w => UU * w) ws in
  map (fun iz => let '(i, p) := iz in (Z.shiftl p B + su, setk i (fun x => x + Z.shiftl (nth i ws 0) B) ul)) (combine (seq 0 (length ps)) ps).
Fixpoint argmin (z : Z * list Z) (l : list (Z * list Z)) : Z * list Z :=
  match l with [] => z | o :: l' => argmin (if fst o <? fst z then o else z) l' end.
Definition drop_form (UU : Z) (ps ws : list Z) : form :=
  let e := Z.abs (zsum ps) + zsum ws in
  let os := map (fun o => (Z.abs (fst o), zneg_if (fst o <? 0) (snd o))) (coords UU ps ws) in
  match os with
  | [] => (0, [], 0)
  | o :: os' =>
    let z := argmin o os' in
    let zeros := map (fun _ => 0) ws in
    let c := fold_right (fun o acc => fst o + acc) 0 os in
    let l := fold_right (fun o acc => zadd (snd o) acc) zeros os in
    let n := fold_right (fun o acc => 2 * Z.max 0 (mag (snd o) - fst o) + acc) 0 os in
    let d := fold_right (fun o acc => Z.max (fst z - fst o + mag (zadd (snd z) (map Z.opp (snd o)))) acc) 0 os in
    rnd B (c - fst z + n + d + (Z.of_nat (length os) + 1) * e, zadd l (map Z.opp (snd z)), 0)
  end.
(** heights: the largest of some linear forms (with coefficients in units of 2^-B) *)
Definition lin_form (ws ps g : list Z) : Z * list Z := (zsum (zmul g ps), zmul g ws).
Definition max_form (gs : list (list Z)) (ps ws : list Z) : form :=
  let os := map (lin_form ws ps) gs in
  match os with
  | [] => (0, [], 0)
  | o :: os' =>
    let z := argmin (- fst o, snd o) (map (fun o => (- fst o, snd o)) os') in
    let d := fold_right (fun o acc => Z.max (fst o + fst z + mag (zadd (snd o) (map Z.opp (snd z)))) acc) 0 os in
    rnd B (- fst z + d + mag ps + zsum ws, snd z, 0)
  end.
(** heights: the square root of (n+1) sum p_i^2 - (sum p_i)^2 *)
Definition root_form (ps ws : list Z) : form :=
  let n1 := Z.of_nat (length ps) + 1 in let s := zsum ps in
  let q := n1 * sqsum ps - s * s + n1 * sqsum ws in
  let m := Z.sqrt q + 1 in
  (((q + m * m) / (2 * m)) + 1 + Z.of_nat (length ws), map (fun l => l / (2 * m)) (zmul (map (fun p => 2 * (n1 * p - s)) ps) ws), 0).
