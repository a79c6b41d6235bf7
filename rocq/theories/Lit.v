(** Model of varisat-formula/src/lit.rs. *)
From Coq Require Import ZArith.
From Verif Require Import Spec.

(** The backing type [LitIdx = u32] (lit.rs:5): a store truncates to 32 bits. *)
Definition u32 (x : N) : N := x mod 2^32.

(** [Var::max_var] (lit.rs:58-63): [u32::MAX >> 4]. *)
Definition max_var : N := N.shiftr (2^32 - 1) 4.

(** [Var::max_count] (lit.rs:68-70). *)
Definition max_count : N := max_var + 1.

(** [Var::from_index] (lit.rs:35-40).  The index is cast to u32; in builds with
    debug assertions an index above [max_var] panics ([var_from_index_dbg]). *)
Definition var_from_index (i : N) : N := u32 i.
Definition var_from_index_dbg (i : N) : option N :=
  if i <=? max_var then Some (u32 i) else None.

(** [Var::from_dimacs] (lit.rs:26-29): [(number - 1) as usize], i.e. modulo 2^64. *)
Definition var_from_dimacs (n : Z) : N :=
  var_from_index (Z.to_N ((n - 1) mod 2^64)).

(** [Var::to_dimacs] (lit.rs:44-46): the addition happens in u32. *)
Definition var_to_dimacs (v : N) : Z := Z.of_N (u32 (v + 1)).

(** [Lit::from_litidx] / [Lit::from_var] (lit.rs:132-134, 165-170). *)
Definition lit_from_var (v : N) (polarity : bool) : N :=
  N.lor (u32 (N.shiftl v 1)) (if polarity then 0 else 1).

(** [Lit::positive], [Lit::negative] (lit.rs:138-146). *)
Definition lit_positive (v : N) : N := lit_from_var v true.
Definition lit_negative (v : N) : N := lit_from_var v false.

(** [Lit::from_index] (lit.rs:151-153). *)
Definition lit_from_index (i : N) (polarity : bool) : N :=
  lit_from_var (var_from_index i) polarity.

(** [Lit::from_code] (lit.rs:157-162); [lit_from_code_dbg] with debug assertion. *)
Definition lit_from_code (c : N) : N := u32 c.
Definition lit_from_code_dbg (c : N) : option N :=
  if c <=? max_var * 2 + 1 then Some (u32 c) else None.

(** [Lit::from_dimacs] (lit.rs:177-179). *)
Definition lit_from_dimacs (n : Z) : N :=
  lit_from_var (var_from_dimacs (Z.abs n)) (0 <? n)%Z.

(** [Lit::index]/[Lit::var] (lit.rs:193-203). *)
Definition lit_var (l : N) : N := N.shiftr l 1.

(** [Lit::is_negative], [Lit::is_positive] (lit.rs:207-215). *)
Definition is_negative (l : N) : bool := negb (N.land l 1 =? 0).
Definition is_positive (l : N) : bool := negb (is_negative l).

(** [Lit::to_dimacs] (lit.rs:183-189). *)
Definition lit_to_dimacs (l : N) : Z :=
  let number := var_to_dimacs (lit_var l) in
  if is_negative l then (- number)%Z else number.

(** [Lit::map_var] (lit.rs:227-229). *)
Definition map_var (f : N -> N) (l : N) : N :=
  lit_from_var (f (lit_var l)) (is_positive l).

(** [Not for Lit] (lit.rs:232-241). *)
Definition lnot (l : N) : N := N.lxor l 1.

(** [BitXor<bool> for Lit] (lit.rs:243-252). *)
Definition lxor_bool (l : N) (b : bool) : N := N.lxor l (if b then 1 else 0).

(** Range of valid codes (documentation of [Var], [Lit], lit.rs:13-14, 122). *)
Definition valid_lit (l : N) : bool := l <=? max_var * 2 + 1.
Definition valid_var (v : N) : bool := v <=? max_var.
