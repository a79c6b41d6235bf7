(** Model of varisat-checker/src/sorted_lits.rs. *)
From Verif Require Import Spec Lit.

(** [slice::sort]: literals are ordered by code and equal ones are identical, so
    the result does not depend on the algorithm; insertion sort here. *)
Fixpoint insert_lit (x : N) (l : list N) : list N :=
  match l with
  | [] => [x]
  | y :: r => if x <=? y then x :: l else y :: insert_lit x r
  end.
Fixpoint sort_lits (l : list N) : list N :=
  match l with
  | [] => []
  | x :: r => insert_lit x (sort_lits r)
  end.

(** [Vec::dedup]: keep the first of consecutive equal elements. *)
Fixpoint dedup_from (x : N) (l : list N) : list N :=
  match l with
  | [] => [x]
  | y :: r => if x =? y then dedup_from x r else x :: dedup_from y r
  end.
Definition dedup (l : list N) : list N :=
  match l with [] => [] | x :: r => dedup_from x r end.

(** the [any] closure (lib.rs:17-21) with its captured [last] *)
Fixpoint taut_from (last : option N) (l : list N) : bool :=
  match l with
  | [] => false
  | x :: r =>
      match last with
      | Some y => (y =? lnot x) || taut_from (Some x) r
      | None => taut_from (Some x) r
      end
  end.

(** [copy_canonical] (sorted_lits.rs:9-22): new target and "is a tautology". *)
Definition copy_canonical (src : list N) : list N * bool :=
  let target := dedup (sort_lits src) in
  (target, taut_from None target).

(** [is_subset] (sorted_lits.rs:27-56). *)
Fixpoint is_subset_loop (sub : list N) (is_strict : bool) (sup : list N) : bool :=
  match sup with
  | [] => match sub with [] => is_strict | _ => false end
  | y :: sup' =>
      match sub with
      | [] => true
      | x :: sub' =>
          match x ?= y with
          | Lt => false
          | Gt => is_subset_loop sub true sup'
          | Eq => is_subset_loop sub' is_strict sup'
          end
      end
  end.
Definition is_subset (sub sup : list N) (strict : bool) : bool :=
  is_subset_loop sub (negb strict) sup.
