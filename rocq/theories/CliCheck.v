(** Model of the command line tool: checking proofs, [varisat --check] (varisat-cli/src/check.rs:24-85 and
    check/transcript.rs) with [Checker::add_dimacs_cnf] (varisat-checker/src/lib.rs:107-119).

    Not modelled: the parsing of command line arguments, failures to open or read files, the lines
    starting with "c " that go to the standard output as a log. *)
From Coq Require Import ZArith String.
From Verif Require Import Spec Lit BinFormat Vli Checker Lrat.
From Verif Require Cnf Dimacs Cli.
Local Open Scope N_scope.

(** [SummaryStep] and [Transcript] (transcript.rs:6-24); [t_out] is the standard output so far. *)
Inductive summary_step := SumWitness | SumSample | SumHide | SumObserve | SumAdd.
Record transcript := Transcript { t_last : option summary_step; t_counter : N; t_out : list N }.
Definition transcript_default : transcript := Transcript None 0 [].

Definition same_summary (a b : option summary_step) : bool :=
  match a, b with
  | None, None | Some SumWitness, Some SumWitness | Some SumSample, Some SumSample
  | Some SumHide, Some SumHide | Some SumObserve, Some SumObserve | Some SumAdd, Some SumAdd => true
  | _, _ => false
  end.

(** The text of a summary (transcript.rs:32-47) *)
Definition number (n : N) : list N := Dimacs.itoa (Z.of_N n).
Definition summary_line (s : summary_step) (n : N) : list N :=
  match s with
  | SumWitness => Cli.bytes "t WITNESS " ++ number n ++ Cli.line " VARIABLES "
  | SumSample => Cli.bytes "t SAMPLE " ++ number n ++ Cli.line " VARIABLES "
  | SumHide => Cli.bytes "t HIDE " ++ number n ++ Cli.line " VARIABLES "
  | SumObserve => Cli.bytes "t OBSERVE " ++ number n ++ Cli.line " INTERNAL VARIABLES "
  | SumAdd => Cli.bytes "t ADD " ++ number n ++ Cli.line " CLAUSES "
  end.

(** [print_summary] (transcript.rs:28-53) *)
Definition print_summary (step : option summary_step) (t : transcript) : transcript :=
  if same_summary (t_last t) step then Transcript (t_last t) (t_counter t + 1) (t_out t)
  else Transcript step 1 (t_out t ++ match t_last t with None => [] | Some s => summary_line s (t_counter t) end).
Definition print (bs : list N) (t : transcript) : transcript := Transcript (t_last t) (t_counter t) (t_out t ++ bs).

(** [process_step] (transcript.rs:56-92) *)
Definition print_step (t : transcript) (i : transcript_item) : transcript :=
  match i with
  | TWitnessVar _ => print_summary (Some SumWitness) t
  | TSampleVar _ => print_summary (Some SumSample) t
  | THideVar _ => print_summary (Some SumHide) t
  | TObserveInternalVar _ => print_summary (Some SumObserve) t
  | TAddClause _ => print_summary (Some SumAdd) t
  | TUnsat => print (Cli.line "t UNSAT") (print_summary None t)
  | TModel _ => print (Cli.line "t SAT") (print_summary None t)
  | TAssume l => print (Cli.bytes "t ASSUME " ++ number (N.of_nat (length l)) ++ Cli.line " LITERALS") (print_summary None t)
  | TFailedAssumptions l => print (Cli.bytes "t UNSAT WITH " ++ number (N.of_nat (length l)) ++ Cli.line " ASSUMPTIONS") (print_summary None t)
  end.
(** What was printed by the processor until now.  The processor is given the steps one after
    another; [Checker.processing] keeps their list. *)
Definition printed (c : ctx) : list N := t_out (fold_left print_step (trans_log (c_proc c)) transcript_default).

(** [add_dimacs_cnf] (lib.rs:107-119).  As in [Cli.add_dimacs_cnf] the chunks are parsed first;
    the pieces before an error are handed to the checker.  [CnfFormula::iter] may panic. *)
Fixpoint add_formulas (c : ctx) (fs : list Cnf.cnf) : res unit :=
  match fs with
  | [] => ROk tt c
  | f :: fs => match Cnf.cnf_iter f with
               | None => RPanic
               | Some cs => bind (add_formula c cs) (fun _ c => add_formulas c fs)
               end
  end.
(** [ROk true]: the whole input was read; [ROk false]: the parser failed. *)
Definition add_dimacs_cnf (c : ctx) (chunks : list (list N)) : res bool :=
  let '(_, fs, e) := Dimacs.parse_incremental (fun _ => true) chunks in
  bind (add_formulas c fs) (fun _ c => ROk (match e with None => true | Some _ => false end) c).

(** The options: files to convert the proof to (check.rs:17-20) *)
Record check_options := CheckOptions { k_lrat : bool; k_clrat : bool }.
(** The contents of a file that [WriteLrat] wrote until it is dropped (varisat-lrat/src/lib.rs) *)
Definition lrat_file (wanted binary : bool) (c : ctx) : option (list N) :=
  if wanted then Some (w_target (lrat_flush (lrat_run (lrat_new binary) (proc_log (c_proc c))))) else None.

(** The end of the program: the exit code of [main] (main.rs:19-28), the standard output and the
    written files, or a panic. *)
Inductive check_result :=
| Exit (code : N) (text : list N) (lrat clrat : option (list N))
| Panics.
Definition exit_with (o : check_options) (code : N) (status : list N) (c : ctx) : check_result :=
  Exit code (printed c ++ status) (lrat_file (k_lrat o) false c) (lrat_file (k_clrat o) true c).

(** [check_main] (check.rs:24-85).  [pf] says when writing the converted proof fails; the
    transcript never fails. *)
Definition check_main (o : check_options) (pf : nat -> bool) (sh : N -> list (N * list clause) -> list (N * list clause))
    (chunks : list (list N)) (proof : reader) : option check_result :=
  let c := checker_new (k_lrat o || k_clrat o) true pf (fun _ => false) sh in
  match add_dimacs_cnf c chunks with
  | RPanic => Some Panics
  | RErr _ c | ROk false c => Some (exit_with o 1 [] c)
  | ROk true c =>
      match check_proof c proof with
      | None => None
      | Some RPanic => Some Panics
      | Some (ROk _ c) => Some (exit_with o 0 (Cli.line "s VERIFIED") c)
      | Some (RErr _ c) => Some (exit_with o 1 (Cli.line "s NOT VERIFIED") c)
      end
  end.
