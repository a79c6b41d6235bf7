(** Model of the clause storage: varisat/src/clause/header.rs and clause/alloc.rs.

    The buffer is a list of 32 bit words.  Unsafe accesses outside of the buffer, which would be
    undefined behaviour, and failed assertions are [None]. *)
From Verif Require Import Spec Lit.

(** [ClauseHeader] (header.rs:34-38): the activity, the bit fields and the length *)
Record header := Header { hw_act : N; hw_bits : N; hw_len : N }.

(** [ClauseHeader::new] (header.rs:42-44) *)
Definition header_new : header := Header 0 0 0.

Definition word_max : N := 2^32 - 1.
(** [(word >> offset) & mask] *)
Definition get_field (offset mask word : N) : N := N.land (N.shiftr word offset) mask.
(** [(word & !(mask << offset)) | (value << offset)] *)
Definition set_field (offset mask word value : N) : N :=
  N.lor (N.land word (N.lxor word_max (N.shiftl mask offset))) (N.shiftl value offset).
Definition b2n (b : bool) : N := if b then 1 else 0.

(** [len], [set_len] (header.rs:47-58), [length as LitIdx] truncates *)
Definition hd_len (h : header) : N := hw_len h.
Definition hd_set_len (h : header) (n : N) : header := Header (hw_act h) (hw_bits h) (n mod 2^32).
(** [deleted], [set_deleted] (header.rs:61-69) *)
Definition hd_deleted (h : header) : bool := negb (get_field 2 1 (hw_bits h) =? 0).
Definition hd_set_deleted (h : header) (b : bool) : header :=
  Header (hw_act h) (set_field 2 1 (hw_bits h) (b2n b)) (hw_len h).
(** [tier], [set_tier] (header.rs:72-80) by the index of the tier *)
Definition hd_tier (h : header) : N := get_field 0 3 (hw_bits h).
Definition hd_set_tier (h : header) (t : N) : header :=
  Header (hw_act h) (set_field 0 3 (hw_bits h) t) (hw_len h).
(** [mark], [set_mark] (header.rs:91-101) *)
Definition hd_mark (h : header) : bool := negb (get_field 3 1 (hw_bits h) =? 0).
Definition hd_set_mark (h : header) (b : bool) : header :=
  Header (hw_act h) (set_field 3 1 (hw_bits h) (b2n b)) (hw_len h).
(** [active], [set_active] (header.rs:106-114) *)
Definition hd_active (h : header) : bool := negb (get_field 10 1 (hw_bits h) =? 0).
Definition hd_set_active (h : header) (b : bool) : header :=
  Header (hw_act h) (set_field 10 1 (hw_bits h) (b2n b)) (hw_len h).
(** [glue], [set_glue] (header.rs:117-127) *)
Definition hd_glue (h : header) : N := get_field 4 63 (hw_bits h).
Definition hd_set_glue (h : header) (g : N) : header :=
  Header (hw_act h) (set_field 4 63 (hw_bits h) (N.min g 63)) (hw_len h).
(** [activity], [set_activity] (header.rs:130-137), as the bits of the float *)
Definition hd_act (h : header) : N := hw_act h.
Definition hd_set_act (h : header) (a : N) : header := Header a (hw_bits h) (hw_len h).

(** * The buffer *)
Definition words (h : header) : list N := [hw_act h; hw_bits h; hw_len h].
Definition read (buf : list N) (off : N) (k : nat) : list N := firstn k (skipn (N.to_nat off) buf).
Definition write (buf : list N) (off : N) (ws : list N) : list N :=
  firstn (N.to_nat off) buf ++ ws ++ skipn (N.to_nat off + length ws) buf.

(** [max_offset] (alloc.rs:190-193) with 64 bit [usize] *)
Definition max_offset : N := 2^32 - 1.

(** [add_clause] (alloc.rs:48-76) *)
Definition alloc_add (buf : list N) (h : header) (lits : list N) : option (list N * N) :=
  let offset := N.of_nat (length buf) in
  if (N.of_nat (length lits) <? 3) || (max_offset <? offset) then None
  else Some (buf ++ words (hd_set_len h (N.of_nat (length lits))) ++ lits, offset).

(** [header] and [header_mut] (alloc.rs:79-96) *)
Definition alloc_header (buf : list N) (cref : N) : option header :=
  match read buf cref 3 with
  | [a; b; l] => Some (Header a b l)
  | _ => None
  end.
Definition alloc_set_header (buf : list N) (cref : N) (h : header) : option (list N) :=
  match alloc_header buf cref with
  | Some _ => Some (write buf cref (words h))
  | None => None
  end.

(** [clause] (alloc.rs:112-123) with [lits] (clause.rs:54-59) *)
Definition alloc_lits (buf : list N) (cref : N) : option (list N) :=
  match alloc_header buf cref with
  | Some h =>
      if N.of_nat (length buf) <? cref + 3 + hd_len h then None
      else Some (read buf (cref + 3) (N.to_nat (hd_len h)))
  | None => None
  end.
(** [clause_mut] with [lits_mut] (alloc.rs:126-137, clause.rs:62-67): the literals are overwritten
    by as many others. *)
Definition alloc_set_lits (buf : list N) (cref : N) (lits : list N) : option (list N) :=
  match alloc_lits buf cref with
  | Some old => if Nat.eqb (length old) (length lits) then Some (write buf (cref + 3) lits) else None
  | None => None
  end.
