(** Properties C01, C02, C03: the encoded text format. *)
From Coq Require Import ZArith List Bool Lia.
From Verif Require Import Prelude Base64_Model Base64_Spec Base64_Proofs.
Import ListNotations.
Open Scope Z_scope.

(** C01, exact characterisation: encoding never fails, and decoding gives the
    data back if and only if its plain base64 text (RFC 4648) contains no run of
    66 'A' characters. *)
Theorem C01_roundtrip_iff : forall data : list Z,
  (2 <= length data)%nat -> Z.of_nat (length data) < 2^64 -> Forall is_byte data ->
  exists s, encode data = Ok s /\ (decode s = Ok data <-> ~ has_run 65 66 (b64_text data)).
Proof. exact roundtrip_iff. Qed.
Print Assumptions C01_roundtrip_iff.

(** C01 restricted to data without 45 consecutive zero bytes; missing with respect
    to the full claim: the data with longer runs, for which it is false (below). *)
Theorem C01_roundtrip_partial : forall data : list Z,
  (2 <= length data)%nat -> Z.of_nat (length data) < 2^64 -> Forall is_byte data ->
  ~ has_run 0 45 data ->
  exists s, encode data = Ok s /\ decode s = Ok data.
Proof. exact roundtrip_no_zero_run. Qed.
Print Assumptions C01_roundtrip_partial.

(** the hypotheses are met by non-trivial data, and a compressed run occurs *)
Example C01_witness : let data := [1;0;0;0;0;0;0;7;255] in
  (2 <= length data)%nat /\ Forall is_byte data /\ ~ has_run 65 66 (b64_text data) /\
  exists s, encode data = Ok s /\ In 64 s /\ decode s = Ok data.
Proof.
  cbv zeta. split; [simpl; lia|]. split; [repeat constructor; unfold is_byte; lia|]. split.
  - intros (p & q & H). apply (f_equal (@length Z)) in H. rewrite !app_length, repeat_length in H. simpl in H. lia.
  - eexists. split; [vm_compute; reflexivity|]. split; [vm_compute; tauto|vm_compute; reflexivity].
Qed.

(** C01 as stated for all data is false: 51 zero bytes do not survive. *)
Theorem C01_lossless_refuted :
  ~ (forall data : list Z, (2 <= length data)%nat -> Forall is_byte data ->
       exists s, encode data = Ok s /\ decode s = Ok data).
Proof.
  intros H. destruct (H (repeat 0 51)) as (s & E & D).
  - simpl; lia.
  - apply Forall_forall. intros x Hx. apply repeat_spec in Hx. subst. unfold is_byte. lia.
  - vm_compute in E. injection E; intros; subst s. vm_compute in D. discriminate.
Qed.
Print Assumptions C01_lossless_refuted.

(** Encoding an empty or one-byte stream reads out of bounds (size_t underflow of
    [inLen - 2]); no serialised node tree is that short (see P_NodeTree). *)
Theorem C01_short_input_refuted : encode [] = UB /\ forall b, encode [b] = UB.
Proof. split; [reflexivity|]. intros b. unfold encode. simpl. reflexivity. Qed.
Print Assumptions C01_short_input_refuted.

(** C02: for every NUL-terminated string ([s] are the characters before the
    terminator) decoding finishes ([Ok], i.e. without loop divergence) without any
    read past the terminator or table, and without any write outside the result
    (these are [UB] in the model), and produces bytes. *)
Theorem C02_decode_safe : forall s : list Z, Forall (fun c => c <> 0) s ->
  exists out, decode s = Ok out /\ Forall is_byte out /\ (length out <= 51 * length s)%nat.
Proof. exact decode_total. Qed.
Print Assumptions C02_decode_safe.

Example C02_witness : decode [64;66;65;65;90;61] = Ok [0;0;0;0;6] /\ decode [64;66;64;66] = Ok [0;0;0;0;0;0] /\ decode [64] = Ok [].
Proof. repeat split; vm_compute; reflexivity. Qed.

(** C03: printable characters only, padding only at the end, never longer than
    plain base64, never empty. *)
Theorem C03_charset : forall data s : list Z,
  (2 <= length data)%nat -> Z.of_nat (length data) < 2^64 -> Forall is_byte data ->
  encode data = Ok s ->
  exists body k, s = body ++ repeat 61 k /\ (k <= 2)%nat /\
    Forall (fun c => In c alphabet \/ c = 64) body /\
    (length s <= length (b64_text data))%nat /\ s <> [].
Proof.
  intros data s H2 H64 HB E. destruct (encode_charset data s H2 H64 HB E) as (body & E1 & F & L & N).
  exists body, (pad_of data). repeat split; auto. unfold pad_of. destruct (length data mod 3)%nat as [|[|?]]; lia.
Qed.
Print Assumptions C03_charset.

Example C03_witness : encode [0;0;0;0;0;0;0;3] = Ok [64; 72; 77; 61].
Proof. vm_compute. reflexivity. Qed.
