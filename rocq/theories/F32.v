(** Single precision floats, as used for variable and clause activities.

    The arithmetic is the IEEE 754 specification of the standard library
    ([Coq.Floats.SpecFloat]) at precision 24 and exponent bound 128.  No axiom
    about primitive floats is involved. *)
From Coq Require Import SpecFloat ZArith.
From Verif Require Import Spec.

Definition f32 := spec_float.

Definition f32_add : f32 -> f32 -> f32 := SFadd 24 128.
Definition f32_mul : f32 -> f32 -> f32 := SFmul 24 128.
Definition f32_div : f32 -> f32 -> f32 := SFdiv 24 128.

(** [a >= b], [a > b] and [a < b] on plain [f32]: false if one of them is NaN. *)
Definition f32_ge (a b : f32) : bool := SFleb b a.
Definition f32_gt (a b : f32) : bool := SFltb b a.
Definition f32_lt (a b : f32) : bool := SFltb a b.

(** [0.0], [1.0] *)
Definition f32_zero : f32 := S754_zero false.
Definition f32_one : f32 := S754_finite false 8388608 (-23).
(** [1.0 / 16.0] *)
Definition f32_sixteenth : f32 := S754_finite false 8388608 (-27).
(** [0.5] *)
Definition f32_half : f32 := S754_finite false 8388608 (-24).
(** [std::f32::MAX / 16.0], where [MAX] is [(2^24 - 1) * 2^104] *)
Definition f32_max : f32 := S754_finite false 16777215 104.
Definition rescale_limit : f32 := f32_div f32_max (S754_finite false 8388608 (-19)).
(** the floats nearest to the literals [0.95] and [0.999] *)
Definition f32_0_95 : f32 := S754_finite false 15938355 (-24).
Definition f32_0_999 : f32 := S754_finite false 16760439 (-24).

(** [OrderedFloat]'s [Ord] (crate ordered-float 2.0.0): NaN is equal to itself and
    above everything else. *)
Definition is_nan (a : f32) : bool := match a with S754_nan => true | _ => false end.

Definition of_cmp (a b : f32) : comparison :=
  match SFcompare a b with
  | Some c => c
  | None => if is_nan a then (if is_nan b then Eq else Gt) else Lt
  end.

Definition of_ge (a b : f32) : bool := match of_cmp a b with Lt => false | _ => true end.
Definition of_lt (a b : f32) : bool := match of_cmp a b with Lt => true | _ => false end.
