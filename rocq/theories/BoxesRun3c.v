(** Bounds computed by [check] (BoxesCases), through its version on machine integers (Boxes63). *)
From Coq Require Import ZArith List Lia.
From Verif Require Import Boxes BoxesCases Boxes63.
Open Scope Z_scope.
Lemma sxw3_ortho_checked : sxw3_ortho_run = true.
Proof. apply (irun_sound _ (iroot_form)); [vok|lia|vok|apply root_refined; lia|vm_compute; reflexivity]. Qed.
Lemma ssw3_ortho_checked : ssw3_ortho_run = true.
Proof. apply (irun_sound _ (iroot_form)); [vok|lia|vok|apply root_refined; lia|vm_compute; reflexivity]. Qed.
