(** Bounds computed by [check] (BoxesCases), through its version on machine integers (Boxes63). *)
From Coq Require Import ZArith List Lia.
From Verif Require Import Boxes BoxesCases Boxes63.
Open Scope Z_scope.
Lemma ss4_checked : ss4_run = true.
Proof. apply (irun_sound _ (idrop_form (toint off4))); [vok|lia|vok|apply drop_refined; [lia|vok]|vm_compute; reflexivity]. Qed.
