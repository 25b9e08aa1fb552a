(** Bounds computed by [check] (BoxesCases), through its version on machine integers (Boxes63). *)
From Coq Require Import ZArith List Lia.
From Verif Require Import Boxes BoxesCases Boxes63.
Open Scope Z_scope.
Lemma ssw4_outer_checked : ssw4_outer_run = true.
Proof. apply (irun_sound _ (imax_form (map (map toint) roots4))); [vok|lia|vok|apply max_refined; [lia|reflexivity]|vm_compute; reflexivity]. Qed.
