(** Model of the progress report (varisat/src/schedule.rs:66-80). *)
From Verif Require Import Spec Lit BinFormat Hash F32 Vsids Luby Config Search ClauseDb Analyze SolverCtx Solver.
Local Open Scope N_scope.

(** [Trail::top_level_assignment_count] (varisat/src/prop/assignment.rs:142-149) *)
Definition top_level_count (s : search) : nat :=
  match s_decs s with n :: _ => n | [] => length (s_trail s) end + s_removed s.

(** The numbers of the report (schedule.rs:69-79).  [r_vars] is the subtraction [assignment().len() - units]: [None] if it underflows, which panics with overflow
    checks and wraps without.  The arguments of [info!] are evaluated only if that level is logged; here it always is. *)
Record report := Report { r_kilo : N; r_restarts : N; r_vars : option nat; r_bin : nat; r_tiers : list nat }.
Definition report_of (c : ctx) : report :=
  let units := top_level_count (c_s c) in
  let len := N.to_nat (v_slen (c_v c)) in
  Report (sc_conflicts (c_sc c) / 1000) (sc_restarts (c_sc c)) (if Nat.leb units len then Some (len - units)%nat else None) (c_nbin c)
    (map (d_count (c_d c)) [Irred; Core; Mid; Local]).
(** The test before the report (schedule.rs:60-67) *)
Definition due (c : ctx) : bool :=
  match st_sat (c_st c), st_error (c_st c) with
  | Unknown, None => (0 <? sc_conflicts (c_sc c)) && (sc_conflicts (c_sc c) mod 5000 =? 0)
  | _, _ => false
  end.

(** The loop of [solve] (solver.rs:147) with the reports *)
Fixpoint schedule_loop_log (fuel : nat) (steps : nat) (c : ctx) : out (ctx * list report) :=
  match steps with
  | O => NoFuel
  | S steps =>
      let reps := if due c then [report_of c] else [] in
      do (c, more) <- schedule_step fuel c ;
      if more then (do (c, l) <- schedule_loop_log fuel steps c ; Ret (c, reps ++ l)) else Ret (c, reps)
  end.

(** [solve] (solver.rs:138-158) and the other calls, which report nothing *)
Definition run_log (fuel : nat) (k : call) (c : ctx) : out (ctx * answer * list report) :=
  match k with
  | CSolve =>
      let c := set_invoked c true in
      if st_invalid (c_st c) then Panic PInvalid
      else
        do (c, reps) <- schedule_loop_log fuel fuel c ;
        do c <- solve_finished c ;
        match take_error c with
        | (c, Some e) => Ret (c, AError (Some e), reps)
        | (c, None) =>
            Ret (c, match st_sat (c_st c) with
                    | Unknown => AError None
                    | Sat => ASolved true
                    | Unsat | UnsatAssum => ASolved false
                    end, reps)
        end
  | k => do (c, a) <- run fuel k c ; Ret (c, a, [])
  end.
Fixpoint run_all_log (fuel : nat) (ks : list call) (c : ctx) : out (ctx * list answer * list report) :=
  match ks with
  | [] => Ret (c, [], [])
  | k :: ks => do (c, a, reps) <- run_log fuel k c ; do (c, l, more) <- run_all_log fuel ks c ; Ret (c, a :: l, reps ++ more)
  end.
