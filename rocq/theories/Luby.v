(** Model of varisat/src/schedule/luby.rs. *)
From Verif Require Import Spec.

(** [LubySequence] (luby.rs:6-9) *)
Record luby := Luby { lb_u : N; lb_v : N }.

(** [Default] (luby.rs:11-15) *)
Definition luby_default : luby := Luby 1 1.

(** [u64::wrapping_neg] *)
Definition wneg64 (x : N) : N := (2^64 - x mod 2^64) mod 2^64.

(** [advance] (luby.rs:19-31).  [u += 1] and [v <<= 1] are taken modulo 2^64; in a
    build with overflow checks the former would panic, after 2^64 - 1 steps of
    the outer sequence. *)
Definition luby_advance (l : luby) : N * luby :=
  let result := lb_v l in
  (result,
   if N.land (lb_u l) (wneg64 (lb_u l)) =? lb_v l
   then Luby ((lb_u l + 1) mod 2^64) 1
   else Luby (lb_u l) (N.shiftl (lb_v l) 1 mod 2^64)).

(** The first [n] values returned by repeated calls. *)
Fixpoint luby_take (n : nat) (l : luby) : list N :=
  match n with
  | O => []
  | S n => let '(x, l) := luby_advance l in x :: luby_take n l
  end.
