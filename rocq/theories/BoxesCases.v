(** The bounds that are computed: which radius, heights and limit. Integers; [lim_of k e n] is (k (1+e)) (n+1)^4
    in units of 2^-20, for k the constant of the code and e the tolerance. *)
From Coq Require Import ZArith List.
From Verif Require Import Boxes BoxesAll.
Import ListNotations.
Open Scope Z_scope.
(** (n+1) (a/b), in units of 2^-40, rounded up *)
Definition radius_of (n : Z) (a b : Z) : Z := (((n + 1) * a * 2^40) / b) + 1.
(** (n+1)^4 (kn/kd) (1 + en/ed), in units of 2^-20, rounded down *)
Definition lim_of (n kn kd en ed : Z) : Z := ((n + 1)^4 * kn * (ed + en) * 2^20) / (kd * ed).
(** the eight gradients of 2D Perlin, as functions of skewed coordinates, in units of 2^-20 *)
Definition octagon : list (list Z) :=
  [[1774930; 292020]; [-2218111; 1361952]; [2218111; -1361952]; [-1774930; -292020];
   [292020; 1774930]; [-1361952; 2218111]; [1361952; -2218111]; [-292020; -1774930]].
Definition half_off : Z := - 2^19.
Definition off4 : Z := -144910.
Definition run (RR : Z) (hf : list Z -> list Z -> form) (n fuel : nat) (lim : Z) : bool := check RR hf n fuel 0 lim (around n) (cell n) (cell n).
Notation sx2_run := (run (radius_of 2 1 2) (max_form octagon) 2 40 (lim_of 2 7011751 268435456 1 1000)) (only parsing).
Notation ss2_run := (run (radius_of 2 2 3) (max_form octagon) 2 40 (lim_of 2 9452225 67108864 1 1000)) (only parsing).
Notation sx3_run := (run (radius_of 3 10066330 16777216) (drop_form half_off) 3 60 (lim_of 3 4105237 134217728 1 100)) (only parsing).
Notation ss3_run := (run (radius_of 3 3 4) (drop_form half_off) 3 60 (lim_of 3 14837205 134217728 1 100)) (only parsing).
Notation sx4_run := (run (radius_of 4 10066330 16777216) (drop_form off4) 4 80 (lim_of 4 4929823 134217728 1 50)) (only parsing).
Notation ss4_run := (run (radius_of 4 4 5) (drop_form off4) 4 80 (lim_of 4 12144035 67108864 1 20)) (only parsing).

(** The domain warps: the limit is (n+1)^4 m / kBounding in units of 2^-20, for m = 1 + tolerance divided by the
    length of the vectors of a vertex *)
(** the twelve gradients of the 2D outer product, as functions of skewed coordinates, in units of 2^-20 *)
Definition dodecagon : list (list Z) :=
  [[1210791; 443180]; [-1210791; -443180]; [443180; 1210791]; [-443180; -1210791]; [1653972; -1210791]; [-1653972; 1210791]; [-1210791; 1653972]; [1210791; -1653972]; [1653972; -443180]; [-1653972; 443180]; [-443180; 1653972]; [443180; -1653972]].
(** the twenty gradients of the 4D outer product *)
Definition roots4 : list (list Z) :=
  [[1048576; 0; 0; 0]; [0; 1048576; 0; 0]; [0; 0; 1048576; 0]; [0; 0; 0; 1048576]; [-1048576; 1048576; 0; 0]; [1048576; -1048576; 0; 0]; [0; 0; -1048576; 1048576]; [0; 0; 1048576; -1048576]; [-1048576; 0; 1048576; 0]; [0; -1048576; 0; 1048576]; [1048576; 0; -1048576; 0]; [0; 1048576; 0; -1048576]; [-1048576; 0; 0; 1048576]; [0; -1048576; 1048576; 0]; [0; 1048576; -1048576; 0]; [1048576; 0; 0; -1048576]; [-1048576; 0; 0; 0]; [0; -1048576; 0; 0]; [0; 0; -1048576; 0]; [0; 0; 0; -1048576]].
Notation sxw2_ortho_run := (run (radius_of 2 1 2) root_form 2 40 1484393) (only parsing).
Notation ssw2_ortho_run := (run (radius_of 2 2 3) root_form 2 40 8125770) (only parsing).
Notation sxw2_outer_run := (run (radius_of 2 1 2) (max_form dodecagon) 2 40 1701467) (only parsing).
Notation ssw2_outer_run := (run (radius_of 2 2 3) (max_form dodecagon) 2 40 9151794) (only parsing).
Notation sxw3_ortho_run := (run (radius_of 3 10066330 16777216) root_form 3 60 13596204) (only parsing).
Notation ssw3_ortho_run := (run (radius_of 3 3 4) root_form 3 60 47053374) (only parsing).
Notation sxw4_outer_run := (run (radius_of 4 10066330 16777216) (max_form roots4) 4 80 19863451) (only parsing).
Notation ssw4_outer_run := (run (radius_of 4 4 5) (max_form roots4) 4 80 95559853) (only parsing).
