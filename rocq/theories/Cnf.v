(** Model of varisat-formula/src/cnf.rs. *)
From Verif Require Import Spec Lit.

(** [CnfFormula] (cnf.rs:10-14): one literal buffer and a range per clause. *)
Record cnf := mkCnf {
  var_count : N;
  literals : list N;
  clause_ranges : list (nat * nat) }.

(** [CnfFormula::new] / [Default] (cnf.rs:9, 18-20). *)
Definition cnf_new : cnf := mkCnf 0 [] [].

(** Slice indexing [&v[begin..end]]: panics ([None]) unless
    [begin <= end <= len]. *)
Definition slice {A} (l : list A) (r : nat * nat) : option (list A) :=
  let (b, e) := r in
  if (Nat.leb b e && Nat.leb e (length l))%bool
  then Some (firstn (e - b) (skipn b l)) else None.

Arguments slice : simpl never.

(** [CnfFormula::set_var_count] (cnf.rs:33-35). *)
Definition cnf_set_var_count (f : cnf) (count : N) : cnf :=
  mkCnf (N.max (var_count f) count) (literals f) (clause_ranges f).

(** [CnfFormula::len] / [is_empty] (cnf.rs:38-45). *)
Definition cnf_len (f : cnf) : nat := length (clause_ranges f).
Definition cnf_is_empty (f : cnf) : bool :=
  match clause_ranges f with [] => true | _ => false end.

Fixpoint sequence {A} (l : list (option A)) : option (list A) :=
  match l with
  | [] => Some []
  | None :: _ => None
  | Some x :: r => match sequence r with None => None | Some y => Some (x :: y) end
  end.

(** [CnfFormula::iter] (cnf.rs:48-53), collected; [None] is a slice panic. *)
Definition cnf_iter (f : cnf) : option (list (list N)) :=
  sequence (map (slice (literals f)) (clause_ranges f)).

(** [add_clause] (cnf.rs:169-179). *)
Definition cnf_add_clause (f : cnf) (clause : list N) : cnf :=
  let b := length (literals f) in
  let lits := literals f ++ clause in
  let e := length lits in
  let vc := fold_left (fun vc l => N.max (lit_var l + 1) vc)
                      (match slice lits (b, e) with Some s => s | None => [] end)
                      (var_count f) in
  mkCnf vc lits (clause_ranges f ++ [(b, e)]).

(** [new_var] (cnf.rs:181-185): the new variable and the formula. *)
Definition cnf_new_var (f : cnf) : N * cnf :=
  (var_from_index (var_count f),
   mkCnf (var_count f + 1) (literals f) (clause_ranges f)).

(** [From] (cnf.rs:57-69). *)
Definition cnf_from (cs : list (list N)) : cnf := fold_left cnf_add_clause cs cnf_new.

Fixpoint list_eqb (a b : list N) : bool :=
  match a, b with
  | [], [] => true
  | x :: a, y :: b => (x =? y) && list_eqb a b
  | _, _ => false
  end.

(** [PartialEq] (cnf.rs:78-90); [None] is a slice panic. *)
Fixpoint ranges_eq (la lb : list N) (ra rb : list (nat * nat)) : option bool :=
  match ra, rb with
  | x :: ra, y :: rb =>
      match slice la x, slice lb y with
      | Some sa, Some sb => if list_eqb sa sb then ranges_eq la lb ra rb else Some false
      | _, _ => None
      end
  | _, _ => Some true
  end.
Definition cnf_eq (f g : cnf) : option bool :=
  if (var_count f =? var_count g) && (Nat.eqb (length (clause_ranges f)) (length (clause_ranges g)))
  then ranges_eq (literals f) (literals g) (clause_ranges f) (clause_ranges g)
  else Some false.

(** Calls that build a formula. *)
Inductive cnf_op :=
| OpAddClause (c : list N)
| OpSetVarCount (n : N)
| OpNewVar.
Definition cnf_step (f : cnf) (o : cnf_op) : cnf :=
  match o with
  | OpAddClause c => cnf_add_clause f c
  | OpSetVarCount n => cnf_set_var_count f n
  | OpNewVar => snd (cnf_new_var f)
  end.
Definition cnf_run (ops : list cnf_op) : cnf := fold_left cnf_step ops cnf_new.
