(** Model of varisat-internal-proof/src/vli_enc.rs.  Bytes are [N] below 256. *)
From Verif Require Import Spec.

Definition u64 (x : N) : N := x mod 2^64.

(** [value.to_le()] transmuted to 8 bytes (vli_enc.rs:31, 35, 37): the [n] low
    bytes, least significant first. *)
Fixpoint le_bytes (n : nat) (x : N) : list N :=
  match n with
  | O => []
  | S n => x mod 256 :: le_bytes n (x / 256)
  end.

(** [u64::from_le] of a byte array (vli_enc.rs:46-48, 59-61). *)
Fixpoint le_val (bs : list N) : N :=
  match bs with [] => 0 | b :: r => b + 256 * le_val r end.

(** [trailing_zeros] of a non-zero word. *)
Fixpoint ctz_pos (p : positive) : N :=
  match p with xO p => 1 + ctz_pos p | _ => 0 end.
Definition ctz (x : N) : N := match x with 0 => 64 | Npos p => ctz_pos p end.

(** [write_u64] (vli_enc.rs:26-42): the bytes appended to the target. *)
Definition write_u64 (value : N) : list N :=
  let bits := N.size value in
  let blocks := (bits * (64 / 7)) / 64 in
  if value <? 2^(8 * 7) then
    let value := u64 (N.shiftl (N.lor (u64 (N.shiftl value 1)) 1) blocks) in
    firstn (N.to_nat (blocks + 1)) (le_bytes 8 value)
  else
    let lo_data := u64 (N.shiftl (N.lor (u64 (N.shiftl value 1)) 1) blocks) in
    let hi_data := N.shiftr value (64 - (blocks + 1)) in
    le_bytes 8 lo_data ++ firstn (N.to_nat (blocks + 1 - 8)) (le_bytes 8 hi_data).

(** [read_u64_fast] (vli_enc.rs:45-69) on exactly 16 bytes: value and length. *)
Definition read_u64_fast (bytes : list N) : N * N :=
  let lo_data := le_val (firstn 8 bytes) in
  let len := ctz (N.lor lo_data (N.shiftl 1 9)) + 1 in
  if len <=? 8 then
    let result := N.land lo_data (N.shiftr (2^64 - 1) (64 - 8 * len)) in
    (N.shiftr result len, len)
  else
    let hi_data := le_val (skipn 8 bytes) in
    let hi_data := N.land hi_data (N.shiftr (2^64 - 1) (64 - 8 * (len - 8))) in
    (N.lor (N.shiftr lo_data len) (u64 (N.shiftl hi_data (64 - len))), len).

(** A [BufRead] source: the buffered bytes and the chunks that later refills
    deliver.  I/O errors other than end of file are not modelled. *)
Definition reader := (list N * list (list N))%type.

(** [fill_buf]: refill only when the buffer is empty. *)
Definition fill_buf (r : reader) : reader :=
  match r with
  | ([], c :: rest) => (c, rest)
  | _ => r
  end.

(** [consume] (vli_enc.rs:80). *)
Definition consume (n : nat) (r : reader) : reader := (skipn n (fst r), snd r).

(** [read_exact] of one byte; [None] is the unexpected-end-of-file error. *)
Definition read_byte (r : reader) : option (N * reader) :=
  match fill_buf r with
  | (b :: buf, rest) => Some (b, (buf, rest))
  | ([], _) => None
  end.

(** The loop at vli_enc.rs:99-102: [n] iterations starting at index [i]. *)
Fixpoint read_rest (n : nat) (i len result : N) (r : reader) : option (N * reader) :=
  match n with
  | O => Some (result, r)
  | S n =>
      match read_byte r with
      | None => None
      | Some (b, r) => read_rest n (i + 1) len (N.lor result (u64 (N.shiftl b (8 * i - len)))) r
      end
  end.

(** Slow path of [read_u64] (vli_enc.rs:83-104). *)
Definition read_u64_slow (r : reader) : option (N * reader) :=
  match read_byte r with
  | None => None
  | Some (b0, r) =>
      if b0 =? 0 then
        match read_byte r with
        | None => None
        | Some (b1, r) =>
            let result := N.lor b0 (N.shiftl b1 8) in
            let scan := N.lor (N.lor (N.shiftl 1 9) b0) (N.shiftl b1 8) in
            let len := ctz scan + 1 in
            read_rest (N.to_nat (len - 2)) 2 len (N.shiftr result len) r
        end
      else
        let scan := N.lor (N.shiftl 1 9) b0 in
        let len := ctz scan + 1 in
        read_rest (N.to_nat (len - 1)) 1 len (N.shiftr b0 len) r
  end.

(** [read_u64] (vli_enc.rs:75-106). *)
Definition read_u64 (r : reader) : option (N * reader) :=
  let r := fill_buf r in
  if Nat.leb 16 (length (fst r)) then
    let (value, advance) := read_u64_fast (firstn 16 (fst r)) in
    Some (value, consume (N.to_nat advance) r)
  else read_u64_slow r.
