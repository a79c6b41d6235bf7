(** Property C03.  A reader is the bytes buffered now plus the (non-empty)
    chunks delivered by later refills; [flat] is the byte stream it denotes. *)
From Verif Require Import Spec Vli VliProofs.

Theorem C03_roundtrip : forall v rest r,
  v < 2^64 -> reader_ok r -> Forall is_byte rest -> flat r = write_u64 v ++ rest ->
  exists r', read_u64 r = Some (v, r') /\ flat r' = rest /\ reader_ok r'.
Proof. exact read_u64_write. Qed.
Print Assumptions C03_roundtrip.

Theorem C03_sequence_any_refill : forall vs rest r,
  Forall (fun v => v < 2^64) vs -> reader_ok r -> Forall is_byte rest ->
  flat r = flat_map write_u64 vs ++ rest ->
  exists r', read_many (length vs) r = Some (vs, r') /\ flat r' = rest /\ reader_ok r'.
Proof. exact read_many_write. Qed.
Print Assumptions C03_sequence_any_refill.

(** On any bytes, also malformed or truncated ones, the result does not depend
    on the buffering, and hence not on which decoder path ran. *)
Theorem C03_decoding_independent_of_buffering : forall r1 r2,
  reader_ok r1 -> reader_ok r2 -> Forall is_byte (flat r1) -> flat r1 = flat r2 ->
  match read_u64 r1, read_u64 r2 with
  | Some (v1, q1), Some (v2, q2) => v1 = v2 /\ flat q1 = flat q2
  | None, None => True
  | _, _ => False
  end.
Proof.
  intros r1 r2 O1 O2 B E. pose proof (read_u64_spec r1 O1 B) as H1.
  rewrite E in B. pose proof (read_u64_spec r2 O2 B) as H2. rewrite E in H1.
  destruct (vli_decode (flat r2)) as [[v s]|].
  - destruct H1 as (q1&->&F1&_). destruct H2 as (q2&->&F2&_). rewrite F1, F2. split; reflexivity.
  - rewrite H1, H2. exact I.
Qed.
Print Assumptions C03_decoding_independent_of_buffering.

Theorem C03_encoding_size : forall v, v < 2^64 ->
  (1 <= length (write_u64 v) <= 10)%nat /\ Forall is_byte (write_u64 v).
Proof. intros v H. split; [apply write_u64_length|apply write_u64_bytes]; exact H. Qed.
Print Assumptions C03_encoding_size.

(** Non-vacuity: the same three values through one big buffer and byte by byte. *)
Example C03_ex :
  let vs := [300; 2^64 - 1; 0] in
  let bs := flat_map write_u64 vs ++ [7; 7; 7; 7; 7; 7; 7; 7; 7; 7; 7; 7; 7; 7; 7; 7] in
  option_map fst (read_many 3 (bs, [])) = Some vs /\
  option_map fst (read_many 3 ([], map (fun b => [b]) bs)) = Some vs /\
  length (write_u64 (2^64 - 1)) = 10%nat /\ write_u64 300 = [178; 4].
Proof. repeat split; vm_compute; reflexivity. Qed.
