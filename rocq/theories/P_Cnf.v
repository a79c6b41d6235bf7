(** Property C02.  [op_clauses] lists the clauses passed to add_clause in order;
    [spec_var_count] is the running maximum (plus one per new_var). *)
From Verif Require Import Spec Lit Cnf CnfProofs.

Theorem C02_history_refines_list : forall ops : list cnf_op,
  cnf_iter (cnf_run ops) = Some (op_clauses ops) /\
  var_count (cnf_run ops) = spec_var_count 0 ops /\
  cnf_len (cnf_run ops) = length (op_clauses ops).
Proof. exact cnf_run_spec. Qed.
Print Assumptions C02_history_refines_list.
Example C02_ex :
  let ops := [OpAddClause [0; 5]; OpSetVarCount 7; OpAddClause []; OpNewVar; OpAddClause [40]] in
  cnf_iter (cnf_run ops) = Some [[0; 5]; []; [40]] /\ var_count (cnf_run ops) = 21 /\
  literals (cnf_run ops) = [0; 5; 40].
Proof. repeat split; vm_compute; reflexivity. Qed.

Theorem C02_equality : forall ops1 ops2, exists b,
  cnf_eq (cnf_run ops1) (cnf_run ops2) = Some b /\
  (b = true <-> var_count (cnf_run ops1) = var_count (cnf_run ops2) /\
                op_clauses ops1 = op_clauses ops2).
Proof.
  intros ops1 ops2. destruct (cnf_eq_spec ops1 ops2) as (b&H&E). exists b. split; [exact H|].
  destruct (cnf_run_spec ops1) as (_&->&_). destruct (cnf_run_spec ops2) as (_&->&_). exact E.
Qed.
Print Assumptions C02_equality.
Example C02_equality_ex :
  cnf_eq (cnf_run [OpAddClause [2]; OpAddClause [0]]) (cnf_run [OpSetVarCount 2; OpAddClause [2]; OpAddClause [0]]) = Some true
  /\ cnf_eq (cnf_run [OpAddClause [2;0]]) (cnf_run [OpAddClause [2]; OpAddClause [0]]) = Some false.
Proof. split; vm_compute; reflexivity. Qed.

Theorem C02_var_count_covers : forall ops c l,
  In c (op_clauses ops) -> In l c -> N.div2 l < var_count (cnf_run ops).
Proof. exact var_count_bounds. Qed.
Print Assumptions C02_var_count_covers.

Theorem C02_new_var_fresh : forall ops, var_count (cnf_run ops) < 2^28 ->
  let v := fst (cnf_new_var (cnf_run ops)) in
  v = var_count (cnf_run ops) /\
  (forall c l, In c (op_clauses ops) -> In l c -> N.div2 l <> v) /\
  cnf_run (ops ++ [OpNewVar]) = snd (cnf_new_var (cnf_run ops)).
Proof. exact new_var_fresh. Qed.
Print Assumptions C02_new_var_fresh.

Theorem C02_from_iterable : forall cs, cnf_iter (cnf_from cs) = Some cs.
Proof. exact cnf_iter_from. Qed.
Print Assumptions C02_from_iterable.
