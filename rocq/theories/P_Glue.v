(** C37 in the states of the solver. *)
From Coq Require Import Lia Arith PeanoNat NArith.
From Verif Require Import Spec Lit LitProofs BinFormat Hash F32 Vsids VsidsProofs VsidsWf Luby Config P_Config Search SearchBase
  Propagate P_Search ClauseDb DbProofs Analyze AnalyzeProofs P_Analyze SolverCtx CtxFrame VarsProofs Solver SolverInv SolverSimplify
  SolverAdd SolverLoad SolverFailed SolverSearch SolverSolve P_Solver.
From Verif Require P_SelfCheck.
Local Open Scope nat_scope.

(** Between two calls, the glue computed for any literals is their number of distinct levels, if no call of [solve] failed with a core of one
    literal.
    Partial: see [C37_reachable_refuted] for the other histories. *)
Theorem C37_reachable_partial : forall fuel pick judge io ks c answers lits, no_single fuel ks (ctx_default pick judge io) ->
  run_all fuel ks (ctx_default pick judge io) = Ret (c, answers) ->
  snd (compute_glue (c_s c) (c_tmp c) lits) = N.of_nat (length (nodup Nat.eq_dec (map (fun l => s_level (c_s c) (lit_var l)) lits))) /\
  forall x, fst (compute_glue (c_s c) (c_tmp c) lits) x = false.
Proof.
  intros fuel pick judge io ks c answers lits Ns E. destruct (history_good _ _ _ _ _ _ _ E) as (S & _ & _ & (fr & vis & Fr & _ & G) & _).
  destruct G as (_ & Fs & _). destruct (Fs (Fr Ns)) as [Cl _].
  destruct (compute_glue (c_s c) (c_tmp c) lits) as [flags glue] eqn:Eg. exact (C37_compute_glue _ _ _ _ _ Cl Eg).
Qed.
(** In particular without assumptions *)
Theorem C37_reachable_plain : forall fuel pick judge io ks c answers lits, (forall l, ~ In (CAssume l) ks) ->
  run_all fuel ks (ctx_default pick judge io) = Ret (c, answers) ->
  snd (compute_glue (c_s c) (c_tmp c) lits) = N.of_nat (length (nodup Nat.eq_dec (map (fun l => s_level (c_s c) (lit_var l)) lits))) /\
  forall x, fst (compute_glue (c_s c) (c_tmp c) lits) x = false.
Proof.
  intros fuel pick judge io ks c answers lits H E. eapply C37_reachable_partial; [|exact E]. apply P_SelfCheck.no_assume_single.
  apply forallb_forall. intros k I. destruct k; try reflexivity. destruct (H _ I).
Qed.
Print Assumptions C37_reachable_partial.
Print Assumptions C37_reachable_plain.

(** A state with two levels *)
Example C37_reachable_case : match run_all 100 [CAdd [P 0; P 1; P 2]; CAdd [P 3; P 4]; CAdd [M 3; P 4; P 1]; CAdd [P 0; M 4]; CSolve] plain_ctx with
  | Ret (c, _) => (map (fun v => s_level (c_s c) v) [0; 1; 2; 3; 4]%N, snd (compute_glue (c_s c) (c_tmp c) [P 0; M 4; P 2; P 1]), clevel (c_s c))
  | _ => ([], 0%N, 0) end = ([1; 1; 2; 1; 1], 2%N, 2).
Proof. vm_compute. reflexivity. Qed.
