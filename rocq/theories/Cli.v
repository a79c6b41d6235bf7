(** Model of the command line tool: solving (varisat-cli/src/main.rs:61-198) with
    [Solver::add_dimacs_cnf] (varisat/src/solver.rs:72-96) and the [Drop] of [Solver]
    (solver.rs:265-269).

    Not modelled: the parsing of command line arguments and of TOML, failures to open files or
    to read the input (each ends the program with code 1), the lines starting with "c " that go
    to the standard output as a log, and the help texts. *)
From Coq Require Import ZArith String Ascii.
From Verif Require Import Spec Lit BinFormat Hash F32 Vsids Luby Config Search ClauseDb Analyze SolverCtx Solver.
From Verif Require Cnf Dimacs.
Local Open Scope N_scope.

(** The bytes of a text without special characters, and such a text as a line ([println!]) *)
Definition bytes (s : string) : list N := map N_of_ascii (list_ascii_of_string s).
Definition line (s : string) : list N := bytes s ++ [10].

(** The options (main.rs:62-90).  [o_updates] are the settings of the configuration file and of
    the config options in this order, as parsed (main.rs:108-121). *)
Inductive proof_option := ToFile (f : pformat) | ToLrat (binary : bool).
Record options := Options {
  o_updates : list config_update;
  o_proof : option proof_option;
  o_self_check : bool }.

(** The merged update (main.rs:108-121) *)
Definition merged (us : list config_update) : config_update := fold_left update_merge us update_new.

(** [add_formula] (solver.rs:72-77); the panic is one of [CnfFormula::iter]. *)
Fixpoint add_clauses (cs : list (list N)) (c : ctx) : out ctx :=
  match cs with
  | [] => Ret c
  | cl :: cs => do c <- load_clause cl c ; add_clauses cs c
  end.
Definition add_formula (f : Cnf.cnf) (c : ctx) : out ctx :=
  match Cnf.cnf_iter f with None => Panic PBounds | Some cs => add_clauses cs c end.
Fixpoint add_formulas (fs : list Cnf.cnf) (c : ctx) : out ctx :=
  match fs with
  | [] => Ret c
  | f :: fs => do c <- add_formula f c ; add_formulas fs c
  end.

(** [add_dimacs_cnf] (solver.rs:82-96).  The parser hands over what it has after every chunk and
    does not look at the solver, so the chunks are parsed first here. *)
Definition add_dimacs_cnf (chunks : list (list N)) (c : ctx) : out (ctx * option Dimacs.parse_error) :=
  let '(_, fs, e) := Dimacs.parse_incremental (fun _ => true) chunks in
  do c <- add_formulas fs c ; Ret (c, e).

(** The "v" line (main.rs:176-180) *)
Definition value_line (lits : list N) : list N :=
  bytes "v" ++ flat_map (fun l => bytes " " ++ Dimacs.itoa (lit_to_dimacs l)) lits ++ line " 0".

(** A method of the solver whose result is not looked at *)
Definition call_only (fuel : nat) (k : call) (c : ctx) : out ctx := do (c, _) <- run fuel k c ; Ret c.

(** [main_with_err] from main.rs:123 on, and the exit codes of [main] (main.rs:19-28): the exit
    code and the bytes of the standard output. *)
Definition main_with_err (fuel : nat) (o : options) (chunks : list (list N)) (c : ctx) : out (ctx * (N * list N)) :=
  do (c, a) <- run fuel (CConfig (merged (o_updates o))) c ;
  match a with
  | AConfig false => Ret (c, (1, []))
  | _ =>
      do c <- match o_proof o with
              | None => Ret c
              | Some (ToFile f) => call_only fuel (CWriteProof f) c
              | Some (ToLrat _) => call_only fuel CCheck c
              end ;
      do c <- (if o_self_check o then call_only fuel CCheck c else Ret c) ;
      do (c, e) <- add_dimacs_cnf chunks c ;
      match e with
      | Some _ => Ret (c, (1, []))
      | None =>
          do (c, a) <- run fuel CSolve c ;
          match a with
          | ASolved true =>
              do m <- get_model c ;
              match m with
              | None => Panic PInternal
              | Some lits => Ret (c, (10, line "s SATISFIABLE" ++ value_line lits))
              end
          | ASolved false => Ret (c, (20, line "s UNSATISFIABLE"))
          | _ => Ret (c, (0, line "s UNKNOWN"))
          end
      end
  end.

(** The solver is dropped before the program exits. *)
Definition cli_solve (fuel : nat) (o : options) (chunks : list (list N)) (c : ctx) : out (ctx * (N * list N)) :=
  do (c, r) <- main_with_err fuel o chunks c ;
  do c <- call_only fuel CCloseProof c ;
  Ret (c, r).
