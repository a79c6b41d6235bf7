(** Model of the provided methods of [ExtendFormula] (varisat-formula/src/cnf.rs:93-164, 188-227): several new variables or literals at once. *)
From Verif Require Import Spec Lit Cnf BinFormat SolverCtx Solver.
Local Open Scope N_scope.

(** [ExtendFormula::new_var] of the two implementations (cnf.rs:181-185, varisat/src/solver.rs:279-283) *)
Definition formula_new_var (f : cnf) : out (cnf * N) := let '(v, f) := cnf_new_var f in Ret (f, v).
Definition solver_new_var (c : ctx) : out (ctx * N) := new_user_var (set_empty c false).

(** [new_lit] (cnf.rs:101-103) *)
Definition new_lit {F} (new_var : F -> out (F * N)) (f : F) : out (F * N) := do (f, v) <- new_var f ; Ret (f, lit_positive v).

(** [NewVarIter] (cnf.rs:144-148) is the number of variables left and the formula; [NewVarIter::next] (cnf.rs:157-165).  [conv] is [V::from]: the identity for
    variables, [Lit::from] (lit.rs:254-259) for literals. *)
Definition iter_next {F} (new_var : F -> out (F * N)) (conv : N -> N) (rest : nat) (f : F) : out (nat * F * option N) :=
  match rest with
  | O => Ret (O, f, None)
  | S rest => do (f, v) <- new_var f ; Ret (rest, f, Some (conv v))
  end.
(** [k] calls of [next] *)
Fixpoint iter_nexts {F} (new_var : F -> out (F * N)) (conv : N -> N) (k rest : nat) (f : F) : out (F * list (option N)) :=
  match k with
  | O => Ret (f, [])
  | S k => do (rest, f, x) <- iter_next new_var conv rest f ; do (f, r) <- iter_nexts new_var conv k rest f ; Ret (f, x :: r)
  end.

(** [new_var_iter] and [new_lit_iter] (cnf.rs:106-121), of which [k] items are taken *)
Definition new_var_iter {F} (new_var : F -> out (F * N)) (count k : nat) (f : F) : out (F * list (option N)) := iter_nexts new_var (fun v => v) k count f.
Definition new_lit_iter {F} (new_var : F -> out (F * N)) (count k : nat) (f : F) : out (F * list (option N)) := iter_nexts new_var lit_positive k count f.

(** [tuple_from_iter] (cnf.rs:200-209): one [next().unwrap()] per component; [None] is the panic of [unwrap] *)
Definition unwrap_all (l : list (option N)) : option (list N) := sequence l.
(** [new_vars] and [new_lits] (cnf.rs:127-138) for tuples of [n] components, as lists; tuples have between 2 and 21 components. *)
Definition new_vars {F} (new_var : F -> out (F * N)) (n : nat) (f : F) : out (F * option (list N)) :=
  do (f, l) <- new_var_iter new_var n n f ; Ret (f, unwrap_all l).
Definition new_lits {F} (new_var : F -> out (F * N)) (n : nat) (f : F) : out (F * option (list N)) :=
  do (f, l) <- new_lit_iter new_var n n f ; Ret (f, unwrap_all l).
