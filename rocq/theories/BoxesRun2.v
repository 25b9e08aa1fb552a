(** Bounds computed by [check] (BoxesCases), through its version on machine integers (Boxes63). *)
From Coq Require Import ZArith List Lia.
From Verif Require Import Boxes BoxesCases Boxes63.
Open Scope Z_scope.
Lemma sx2_checked : sx2_run = true.
Proof. apply (irun_sound _ (imax_form (map (map toint) octagon))); [vok|lia|vok|apply max_refined; [lia|reflexivity]|vm_compute; reflexivity]. Qed.
Lemma ss2_checked : ss2_run = true.
Proof. apply (irun_sound _ (imax_form (map (map toint) octagon))); [vok|lia|vok|apply max_refined; [lia|reflexivity]|vm_compute; reflexivity]. Qed.
Lemma sxw2_ortho_checked : sxw2_ortho_run = true.
Proof. apply (irun_sound _ (iroot_form)); [vok|lia|vok|apply root_refined; lia|vm_compute; reflexivity]. Qed.
Lemma ssw2_ortho_checked : ssw2_ortho_run = true.
Proof. apply (irun_sound _ (iroot_form)); [vok|lia|vok|apply root_refined; lia|vm_compute; reflexivity]. Qed.
Lemma sxw2_outer_checked : sxw2_outer_run = true.
Proof. apply (irun_sound _ (imax_form (map (map toint) dodecagon))); [vok|lia|vok|apply max_refined; [lia|reflexivity]|vm_compute; reflexivity]. Qed.
Lemma ssw2_outer_checked : ssw2_outer_run = true.
Proof. apply (irun_sound _ (imax_form (map (map toint) dodecagon))); [vok|lia|vok|apply max_refined; [lia|reflexivity]|vm_compute; reflexivity]. Qed.
