(** Setters that derive members (the values the node bodies read). [s] gives the float operations. *)
From Coq Require Import ZArith List Bool.
From Verif Require Import Prelude Simd_Model Utils_Model Nodes_Model.
Import ListNotations.
Open Scope Z_scope.

Section Setters.
Context {s : sops}.
Notation V := (V s).

(** ** VariableRange *)
(** BasicGenerators.h:111-112 defaults *)
Definition range_default : range s := {| rMin := lit (-1) 0; rScale := lit 2 0 |}.
(** BasicGenerators.h:96-100 SetOutputMin: mRangeScale += mRangeMin - value; mRangeMin = value *)
Definition SetOutputMin (r : range s) (value : V) : range s :=
  {| rMin := value; rScale := s_add (rScale r) (s_sub (rMin r) value) |}.
(** BasicGenerators.h:105-108 SetOutputMax *)
Definition SetOutputMax (r : range s) (value : V) : range s :=
  {| rMin := rMin r; rScale := s_sub value (rMin r) |}.

(** ** Terrace, Modifiers.h:288-299; the smoothness here is the constant one *)
Record terrace_c := { tcSmoothness : V; tcSmoothnessRecip : V; tcStepCount : V; tcStepCountRecip : V }.
Definition terrace_default : terrace_c :=
  {| tcSmoothness := lit 0 0; tcSmoothnessRecip := lit 0 0; tcStepCount := lit 1 0; tcStepCountRecip := lit 1 0 |}.
(** Modifiers.h:288 *)
Definition SetStepCount (t : terrace_c) (v : V) : terrace_c :=
  {| tcSmoothness := tcSmoothness t; tcSmoothnessRecip := tcSmoothnessRecip t; tcStepCount := v; tcStepCountRecip := s_div (lit 1 0) v |}.
(** Modifiers.h:290 *)
Definition SetSmoothness (t : terrace_c) (v : V) : terrace_c :=
  {| tcSmoothness := v;
     tcSmoothnessRecip := if negb (s_eq v (lit 0 0)) then s_add (lit 1 0) (s_div (lit 1 0) v) else tcSmoothnessRecip t;
     tcStepCount := tcStepCount t; tcStepCountRecip := tcStepCountRecip t |}.
Definition terrace_of {W : simd} (t : terrace_c) : terrace s W :=
  {| tSmoothness := HConst (tcSmoothness t); tSmoothnessRecip := tcSmoothnessRecip t; tStepCount := tcStepCount t; tStepCountRecip := tcStepCountRecip t |}.

(** ** DomainRotate, Modifiers.h:84-120 *)
Definition rotation_default : rotation s :=
  {| mYawCos := lit 1 0; mYawSin := lit 0 0; mPitchCos := lit 1 0; mPitchSin := lit 0 0; mRollCos := lit 1 0; mRollSin := lit 0 0;
     mXa := lit 1 0; mXb := lit 0 0; mXc := lit 0 0; mYa := lit 0 0; mYb := lit 1 0; mYc := lit 0 0; mZa := lit 0 0; mZb := lit 0 0; mZc := lit 1 0 |}.
(** Modifiers.h:108-120 CalculateRotation, from the six cosines and sines *)
Definition CalculateRotation (yc ys pc ps rc rs : V) : rotation s :=
  {| mYawCos := yc; mYawSin := ys; mPitchCos := pc; mPitchSin := ps; mRollCos := rc; mRollSin := rs;
     mXa := s_mul yc pc;
     mXb := s_sub (s_mul (s_mul yc ps) rs) (s_mul ys rc);
     mXc := s_add (s_mul (s_mul yc ps) rc) (s_mul ys rs);
     mYa := s_mul ys pc;
     mYb := s_add (s_mul (s_mul ys ps) rs) (s_mul yc rc);
     mYc := s_sub (s_mul (s_mul ys ps) rc) (s_mul yc rs);
     mZa := s_neg ps;
     mZb := s_mul pc rs;
     mZc := s_mul pc rc |}.
(** Modifiers.h:84-86 *)
Definition SetYaw (m : rotation s) (v : V) := CalculateRotation (s_cos v) (s_sin v) (mPitchCos m) (mPitchSin m) (mRollCos m) (mRollSin m).
Definition SetPitch (m : rotation s) (v : V) := CalculateRotation (mYawCos m) (mYawSin m) (s_cos v) (s_sin v) (mRollCos m) (mRollSin m).
Definition SetRoll (m : rotation s) (v : V) := CalculateRotation (mYawCos m) (mYawSin m) (mPitchCos m) (mPitchSin m) (s_cos v) (s_sin v).
End Setters.
Arguments terrace_c s : clear implicits.
