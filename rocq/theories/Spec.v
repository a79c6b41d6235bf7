(** Semantics used by the property statements.  Nothing in this file models code:
    it is the independent specification of propositional logic over literal
    codes.  A literal code [2*v] is the variable [v], [2*v+1] its negation. *)
From Coq Require Export List NArith Bool Lia.
Export ListNotations.
Open Scope N_scope.

Definition asg := N -> bool.

Definition lit_holds (a : asg) (l : N) : bool := xorb (a (N.div2 l)) (N.odd l).

Definition clause_holds (a : asg) (c : list N) : bool := existsb (lit_holds a) c.

Definition formula_holds (a : asg) (f : list (list N)) : bool :=
  forallb (clause_holds a) f.

(** all literals of a list hold (a cube: assumptions, a partial model) *)
Definition cube_holds (a : asg) (c : list N) : bool := forallb (lit_holds a) c.

Definition entails (f : list (list N)) (c : list N) : Prop :=
  forall a, formula_holds a f = true -> clause_holds a c = true.

Definition unsat (f : list (list N)) : Prop :=
  forall a, formula_holds a f = false.

(** the literal with opposite sign *)
Definition opp (l : N) : N := if N.odd l then l - 1 else l + 1.
