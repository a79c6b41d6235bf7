(** Model of the hash functions of varisat-internal-proof/src/lib.rs. *)
From Verif Require Import Spec Lit.

(** [lit_code_hash] (lib.rs:21-24): [!x] on u64 followed by [wrapping_mul]. *)
Definition lit_code_hash (code : N) : N :=
  ((2^64 - 1 - code mod 2^64) * 0x61c8864680b583eb) mod 2^64.

(** [lit_hash] (lib.rs:14-16). *)
Definition lit_hash (l : N) : N := lit_code_hash l.

(** [clause_hash] (lib.rs:30-36). *)
Definition clause_hash (lits : list N) : N :=
  fold_left (fun hash l => N.lxor hash (lit_hash l)) lits 0.
