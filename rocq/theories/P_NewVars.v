(** C52: several new variables at once. *)
From Coq Require Import Lia Arith ZArith ZifyBool ZifyNat ZifyN.
From Coq Require FinFun.
From Verif Require Import Spec Lit LitProofs Cnf CnfProofs BinFormat Hash F32 Vsids VsidsProofs Luby Config Search SearchBase ClauseDb
  Analyze SolverCtx CtxFrame VarsProofs Solver P_Vars NewVars.
Local Open Scope N_scope.

(** The state after taking [n] new variables one by one, and the variables *)
Fixpoint taken {F} (new_var : F -> out (F * N)) (n : nat) (f : F) : out (F * list N) :=
  match n with O => Ret (f, []) | S n => do (f, v) <- new_var f ; do (f, r) <- taken new_var n f ; Ret (f, v :: r) end.
Lemma nexts_taken {F} (new_var : F -> out (F * N)) conv : forall k rest f, iter_nexts new_var conv k rest f =
  do (f, vs) <- taken new_var (Nat.min k rest) f ; Ret (f, map (fun v => Some (conv v)) vs ++ repeat None (k - rest)).
Proof.
  induction k as [|k IH]; intros rest f; [reflexivity|]. cbn [iter_nexts]. unfold iter_next. destruct rest as [|rest]; cbn [bind].
  - rewrite IH. rewrite !Nat.min_0_r, !Nat.sub_0_r. reflexivity.
  - cbn [Nat.min taken Nat.sub]. destruct (new_var f) as [[f1 v]|p|]; cbn [bind]; try reflexivity. rewrite IH.
    destruct (taken new_var (Nat.min k rest) f1) as [[f2 vs]|p|]; reflexivity.
Qed.
Lemma unwrap_map (vs : list N) conv : unwrap_all (map (fun v => Some (conv v)) vs) = Some (map conv vs).
Proof. unfold unwrap_all. induction vs as [|v vs IH]; [reflexivity|]. cbn [map sequence]. rewrite IH. reflexivity. Qed.
Lemma taken_length {F} (new_var : F -> out (F * N)) : forall n f f' vs, taken new_var n f = Ret (f', vs) -> length vs = n.
Proof.
  induction n as [|n IH]; intros f f' vs E; cbn [taken] in E; [injection E as _ <-; reflexivity|]. destruct (new_var f) as [[f1 v]|p|]; cbn [bind] in E; try discriminate.
  destruct (taken new_var n f1) as [[f2 r]|p|] eqn:E2; cbn [bind] in E; try discriminate. injection E as _ <-. cbn [length]. rewrite (IH _ _ _ E2). reflexivity.
Qed.

(** However many of the [count] items are asked for, each one is what a call of [new_var] returns, in this order; afterwards the iterator only returns [None], and no
    further variable is created.  The literals are those of the same variables.  Tuples get as many items as they have components. *)
Theorem C52_iterator : forall F (new_var : F -> out (F * N)) count k f,
  new_var_iter new_var count k f = (do (f, vs) <- taken new_var (Nat.min k count) f ; Ret (f, map Some vs ++ repeat None (k - count))) /\
  new_lit_iter new_var count k f = (do (f, vs) <- taken new_var (Nat.min k count) f ; Ret (f, map (fun v => Some (lit_positive v)) vs ++ repeat None (k - count))) /\
  (forall n, new_vars new_var n f = do (f, vs) <- taken new_var n f ; Ret (f, Some vs)) /\
  (forall n, new_lits new_var n f = do (f, vs) <- taken new_var n f ; Ret (f, Some (map lit_positive vs))) /\
  new_lits new_var 1 f = do (f, l) <- new_lit new_var f ; Ret (f, Some [l]).
Proof.
  intros F new_var count k f. split; [apply nexts_taken|]. split; [apply nexts_taken|].
  split; [|split; [|unfold new_lits, new_lit_iter, new_lit; rewrite nexts_taken; cbn [Nat.min taken]; destruct (new_var f) as [[f1 v]|p|]; reflexivity]]; intros n; unfold new_vars, new_lits, new_var_iter, new_lit_iter; rewrite nexts_taken, Nat.min_id, Nat.sub_diag; destruct (taken new_var n f) as [[f1 vs]|p|]; cbn [bind]; try reflexivity; cbn [repeat]; rewrite app_nil_r, unwrap_map, ?map_id; reflexivity.
Qed.
Print Assumptions C52_iterator.

Lemma taken_cnf : forall n f, var_count f + N.of_nat n <= 2^28 ->
  taken formula_new_var n f = Ret (mkCnf (var_count f + N.of_nat n) (literals f) (clause_ranges f), map (fun i => var_count f + N.of_nat i) (seq 0 n)).
Proof.
  induction n as [|n IH]; intros f H; cbn [taken].
  - cbn [seq map]. rewrite N.add_0_r. destruct f; reflexivity.
  - unfold formula_new_var at 1. unfold cnf_new_var. cbn [bind]. rewrite IH by (cbn [var_count]; lia). cbn [bind var_count literals clause_ranges]. cbn [seq map]. rewrite <- seq_shift, map_map.
    f_equal. f_equal; [f_equal; lia|]. f_equal; [unfold var_from_index, u32; rewrite N.mod_small by (change (2^28) with 268435456 in H; change (2^32) with 4294967296; lia); lia|].
    apply map_ext. intros i. lia.
Qed.
(** New variables of a formula: distinct, counted, used by none of its clauses, which stay as they are. *)
Theorem C52_formula : forall ops n, var_count (cnf_run ops) + N.of_nat n <= 2^28 ->
  exists f vs, new_vars formula_new_var n (cnf_run ops) = Ret (f, Some vs) /\ length vs = n /\ NoDup vs /\
    cnf_iter f = Some (op_clauses ops) /\ var_count f = var_count (cnf_run ops) + N.of_nat n /\
    (forall v, In v vs -> v < var_count f /\ v < 2^28 /\ forall c l, In c (op_clauses ops) -> In l c -> N.div2 l <> v).
Proof.
  intros ops n H. destruct (C52_iterator _ formula_new_var 0 0 (cnf_run ops)) as (_ & _ & X & _). rewrite X. rewrite taken_cnf by exact H. cbn [bind]. eexists _, _. split; [reflexivity|].
  split; [rewrite map_length; apply seq_length|]. split; [|split; [|split; [reflexivity|]]].
  - apply FinFun.Injective_map_NoDup; [|apply seq_NoDup]. intros i j E. lia.
  - destruct (cnf_run_spec ops) as (E & _). exact E.
  - intros v I. apply in_map_iff in I as (i & <- & I). apply in_seq in I. cbn [var_count]. split; [lia|]. split; [lia|]. intros c l I1 I2. pose proof (var_count_bounds ops c l I1 I2). lia.
Qed.
Print Assumptions C52_formula.

Lemma taken_calls fuel : forall n c c' vs, taken solver_new_var n c = Ret (c', vs) -> run_all fuel (repeat CNewVar n) c = Ret (c', map AVar vs).
Proof.
  induction n as [|n IH]; intros c c' vs E; cbn [taken repeat run_all] in *; [injection E as <- <-; reflexivity|]. cbn [run]. unfold solver_new_var in E.
  destruct (new_user_var (set_empty c false)) as [[c1 v]|p|]; cbn [bind] in *; try discriminate. fold solver_new_var in E.
  destruct (taken solver_new_var n c1) as [[c2 r]|p|] eqn:E2; cbn [bind] in E; try discriminate. injection E as <- <-. rewrite (IH _ _ _ E2). reflexivity.
Qed.
(** New variables of a solver: distinct names that were not in use, for variables that did not exist; no other name changes. *)
Theorem C52_solver : forall n c c' r, reachable c -> new_vars solver_new_var n c = Ret (c', r) ->
  exists vs, r = Some vs /\ length vs = n /\ NoDup vs /\ (forall fuel, run_all fuel (repeat CNewVar n) c = Ret (c', map AVar vs)) /\
    (forall u, In u vs -> v_gu (c_v c) u = None /\ exists g, v_gu (c_v c') u = Some g /\ forall w, w <> u -> v_gu (c_v c') w <> Some g) /\
    (forall u, ~ In u vs -> v_gu (c_v c') u = v_gu (c_v c) u).
Proof.
  intros n c c' r R E. destruct (C52_iterator _ solver_new_var 0 0 c) as (_ & _ & X & _). rewrite X in E. clear X.
  destruct (taken solver_new_var n c) as [[c1 vs]|p|] eqn:Et; cbn [bind] in E; try discriminate. injection E as -> <-. exists vs. split; [reflexivity|]. split; [exact (taken_length _ _ _ _ _ Et)|].
  assert (K : NoDup vs /\ vars_ok (c_v c') /\ (forall u, In u vs -> v_gu (c_v c) u = None /\ exists g, v_gu (c_v c') u = Some g) /\ forall u, ~ In u vs -> v_gu (c_v c') u = v_gu (c_v c) u).
  { pose proof (reachable_ok c R) as K. clear R. revert c c' vs K Et. induction n as [|n IH]; intros c c' vs K Et; cbn [taken] in Et; [injection Et as <- <-; split; [constructor|]; split; [exact K|]; split; [intros u []|reflexivity]|].
    unfold solver_new_var in Et at 1. pose proof (new_var_post (set_empty c false) K) as P. destruct (new_user_var (set_empty c false)) as [[d v]|p|]; cbn [bind] in Et; try discriminate.
    destruct (P _ eq_refl) as (K1 & Fr & (g & Eg & _) & Ot). clear P. cbn [set_empty cw_st c_v] in Fr, Ot.
    destruct (taken solver_new_var n d) as [[e r]|p|] eqn:E2; cbn [bind] in Et; try discriminate. injection Et as <- <-. destruct (IH _ _ _ K1 E2) as (Nd & K2 & In2 & Ot2).
    assert (Nv : ~ In v r) by (intros I; destruct (In2 v I) as [Z _]; congruence). split; [constructor; assumption|]. split; [exact K2|]. split.
    - intros u [<-|I]; [split; [exact Fr|exists g; rewrite (Ot2 _ Nv); exact Eg]|]. destruct (In2 u I) as [Z Q]. split; [|exact Q]. rewrite <- (Ot u); [exact Z|intros ->; exact (Nv I)].
    - intros u NI. rewrite (Ot2 u), (Ot u); [reflexivity|intros ->; apply NI; left; reflexivity|intros I; apply NI; right; exact I]. }
  destruct K as (Nd & K & Kin & Ko). split; [exact Nd|]. split; [intros fuel; apply taken_calls; exact Et|]. split; [|exact Ko].
  intros u I. destruct (Kin u I) as [Z (g & Eg)]. split; [exact Z|]. exists g. split; [exact Eg|]. intros w Nw Ew. apply Nw. apply (vo_ug _ K) in Eg, Ew. congruence.
Qed.
Print Assumptions C52_solver.

(** A formula over three variables with two new literals, and a solver that recycles the name of a hidden variable *)
Example C52_case :
  new_lits formula_new_var 2 (cnf_run [OpAddClause [0; 5]]) = Ret (mkCnf 5 [0; 5] [(0%nat, 2%nat)], Some [6; 8]) /\
  match run_all 9 [CAdd [0; 3]; CHide 0] ex_start with
  | Ret (c, _) => match new_vars solver_new_var 3 c with Ret (_, r) => r = Some [0; 2; 3] | _ => False end
  | _ => False
  end.
Proof. split; vm_compute; reflexivity. Qed.
