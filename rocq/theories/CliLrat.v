(** Model of the LRAT file of a solver with an LRAT processor: [Solver::add_proof_processor] (varisat/src/solver.rs:251-262) with
    [Proof::add_processor] (varisat/src/proof.rs:101-104), used by the options "--proof-format lrat" and "clrat" of the command line
    tool (varisat-cli/src/main.rs:123, 155-160).

    The checker inside the solver hands the steps it checked to [WriteLrat] (varisat-lrat/src/lib.rs).  The solver is declared after the processor and is therefore dropped
    first: the end of the proof is sent (solver.rs:265-269, proof.rs:267-274) before the [BufWriter] of the processor is dropped and writes what is left.

    Not modelled: failures to write the file. *)
From Verif Require Import Spec Lit BinFormat SolverCtx Solver Cli.
From Verif Require Checker Lrat.
Local Open Scope N_scope.

(** What the solver asks of the checker (proof.rs:142-145, 203-206, 280-286) *)
Definition lrat_event (k : Checker.ctx) (e : pevent) : Checker.res unit :=
  match e with
  | EvLoad cl => Checker.add_clause k cl
  | EvStep s => Checker.self_check_step k s
  | EvDelayed => Checker.self_check_delayed_steps k
  end.
(** The checker with the processor; [sh] is the order of the entries of its hash map. *)
Definition lrat_checker (sh : N -> list (N * list Checker.clause) -> list (N * list Checker.clause)) : Checker.ctx :=
  Checker.checker_new true false (fun _ => false) (fun _ => false) sh.
Definition lrat_check sh (log : list pevent) : Checker.res unit :=
  fold_left (fun r e => Checker.bind r (fun _ k => lrat_event k e)) log (Checker.ROk tt (lrat_checker sh)).
(** The bytes of the file, if no step was rejected *)
Definition lrat_written (binary : bool) sh (log : list pevent) : option (list N) :=
  match lrat_check sh log with
  | Checker.ROk _ k => Some (Lrat.w_target (Lrat.lrat_flush (Lrat.lrat_run (Lrat.lrat_new binary) (Checker.proc_log (Checker.c_proc k)))))
  | _ => None
  end.

(** The command line tool with the LRAT file it leaves behind (main.rs:123-198) *)
Definition cli_lrat (fuel : nat) (o : options) (chunks : list (list N)) sh (c : ctx) : out (ctx * (N * list N) * option (list N)) :=
  do (c, r) <- cli_solve fuel o chunks c ;
  Ret (c, r, match o_proof o with Some (ToLrat binary) => lrat_written binary sh (p_log (c_pf c)) | _ => None end).
