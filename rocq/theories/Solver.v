(** Model of the solver: loading clauses (varisat/src/load.rs), simplification at level 0
    (unit_simplify.rs, binary.rs:46-100), assumptions (assumptions.rs), conflict driven clause
    learning (cdcl.rs, decision.rs:17-39), model reconstruction (model.rs:39-87), the schedule
    (schedule.rs:34-101) and the methods of [Solver] (solver.rs:57-284).

    Logging is not modelled. *)
From Coq Require Import ZArith.
From Verif Require Import Spec Lit BinFormat Hash F32 Vsids Luby Config Search ClauseDb Analyze SolverCtx.

Definition backtrack_to (level : nat) (c : ctx) : ctx :=
  let '(s, vs) := backtrack (c_s c) (c_vs c) level in cw_vs (cw_s c s) vs.

(** [full_restart], [restart] (prop/assignment.rs:212-237) *)
Definition set_levels (n : nat) (c : ctx) : ctx :=
  cw_as c (Assum (as_lits (c_as c)) (as_core (c_as c)) (as_user (c_as c)) n (as_hashes (c_as c))).
Definition full_restart (c : ctx) : ctx := backtrack_to 0 (set_levels 0 c).
Definition restart (c : ctx) : ctx := backtrack_to (as_levels (c_as c)) c.

(** [add_binary_clause] (binary.rs:27-32) *)
Definition add_binary_clause (l0 l1 : N) (c : ctx) : ctx :=
  let b := upd (c_bin c) (lnot l0) (c_bin c (lnot l0) ++ [l1]) in
  cw_bin c (upd b (lnot l1) (b (lnot l1) ++ [l0])) (S (c_nbin c)).

(** [db::add_clause] (clause/db.rs:67-86) *)
Definition db_add_clause (h : hdr) (lits : list N) (c : ctx) : out (ctx * N) :=
  let '(s, d, cref) := add_long (c_s c) (c_d c) h lits in
  if d_full d then Panic PFull else Ret (cw_d (cw_s c s) d, cref).

(** [sort_unstable] and [dedup] on literals (load.rs:68-69), which are ordered by code *)
Fixpoint insert_n_sorted (x : N) (l : list N) : list N :=
  match l with
  | [] => [x]
  | y :: r => if x <=? y then x :: l else y :: insert_n_sorted x r
  end.
Definition sort_n (l : list N) : list N := fold_right insert_n_sorted [] l.
Fixpoint dedup_n (l : list N) : list N :=
  match l with
  | x :: ((y :: _) as r) => if x =? y then dedup_n r else x :: dedup_n r
  | _ => l
  end.

(** The search for complementary neighbours (load.rs:74-81) *)
Fixpoint tautology (l : list N) : bool :=
  match l with
  | x :: ((y :: _) as r) => (x =? lnot y) || tautology r
  | _ => false
  end.

(** The scan for assigned literals (load.rs:109-120): the literals that stay, those that were
    false, and whether a true literal was found. *)
Fixpoint scan_lits (s : search) (l : list N) : list N * list N * bool :=
  match l with
  | [] => ([], [], false)
  | x :: r =>
      if ltrue s x then (x :: r, [], true)
      else
        let '(kept, false_lits, found) := scan_lits s r in
        if lfalse s x then (kept, x :: false_lits, found) else (x :: kept, false_lits, found)
  end.

(** [load_clause] (load.rs:25-168) *)
Definition load_clause (user_lits : list N) (c : ctx) : out ctx :=
  match st_sat (c_st c) with
  | Unsat => Ret c
  | st =>
      let c := match st with Sat => set_sat c Unknown | _ => c end in
      let c := full_restart (set_empty c false) in
      do (c, lits) <- solver_from_user_lits user_lits true c ;
      let lits := dedup_n (sort_n lits) in
      do c <- proof_add_clause lits c ;
      if tautology lits then Ret c
      else
        do c <- (if Nat.ltb 1 (length lits) then map_data_lits lits (fun d => vd_set_isolated d false) c
                 else Ret c) ;
        let '(kept, false_lits, clause_is_true) := scan_lits (c_s c) lits in
        let will_conflict := match kept with [] => true | _ => false end in
        let c := cw_s c (fold_left (fun s l => resurrect_unit s (lnot l)) false_lits (c_s c)) in
        let lits := kept ++ false_lits in
        if clause_is_true then
          if Nat.ltb 1 (length lits) then add_step true (DeleteClause lits DSatisfied) c else Ret c
        else
          match lits with
          | [] => Ret (set_sat c Unsat)
          | [lit] => if will_conflict then Ret (set_sat c Unsat)
                     else Ret (cw_s c (enqueue (c_s c) lit RUnit))
          | [l0; l1] => Ret (add_binary_clause l0 l1 c)
          | _ => do (c, _) <- db_add_clause (set_tier hdr_new Irred) lits c ; Ret c
          end
  end.

(** [prove_units] (unit_simplify.rs:18-67); the second component is [new_unit]. *)
Fixpoint unit_proofs (s : search) (tr : list N) : search * list (N * N) :=
  match tr with
  | [] => (s, [])
  | lit :: tr =>
      let r := s_reason s (lit_var lit) in
      let p := if is_unit_reason r then []
               else [(lit, N.lxor (clause_hash (reason_lits s r)) (lit_hash lit))] in
      let '(s, ps) := unit_proofs (update_removed_unit s (lit_var lit)) tr in
      (s, p ++ ps)
  end.
Definition prove_units (c : ctx) : out (ctx * bool) :=
  if Nat.eqb (clevel (c_s c)) 0 then
    let new_unit := match s_trail (c_s c) with [] => false | _ => true end in
    let '(s, ps) := unit_proofs (c_s c) (s_trail (c_s c)) in
    match trail_clear s with
    | None => Panic PInternal
    | Some s =>
        let c := cw_s c s in
        do c <- match ps with [] => Ret c | _ => add_step true (UnitClauses ps) c end ;
        Ret (c, new_unit)
    end
  else Ret (c, false).

(** [simplify_binary] (binary.rs:46-100).  Lists of literals beyond the variable count are
    empty. *)
Definition simplify_bin (s : search) (bin : N -> list N) : N -> list N :=
  fun l => if lunk s l then filter (lunk s) (bin l) else [].
Definition binary_steps (s : search) (bin : N -> list N) (l : N) : list proof_step :=
  map (fun o => DeleteClause [lnot l; o] DSatisfied)
      (filter (fun o => negb (lunk s l && lunk s o) && (lnot l <? o)) (bin l)).
Fixpoint codes (n : nat) (i : N) : list N :=
  match n with O => [] | S n => i :: codes n (i + 1) end.
Definition simplify_binary (c : ctx) : out ctx :=
  let ls := codes (N.to_nat (2 * v_slen (c_v c))) 0 in
  let bin := simplify_bin (c_s c) (c_bin c) in
  let count := Nat.div2 (fold_left (fun n l => (n + length (bin l))%nat) ls 0%nat) in
  do c <- add_steps true (flat_map (binary_steps (c_s c) (c_bin c)) ls) c ;
  Ret (cw_bin c bin count).

(** The scan of a long clause (unit_simplify.rs:113-133); [None] if it has a true literal. *)
Fixpoint open_lits (s : search) (lits : list N) : option (list N) :=
  match lits with
  | [] => Some []
  | l :: lits =>
      if ltrue s l then None
      else match open_lits s lits with
           | None => None
           | Some r => Some (if lunk s l then l :: r else r)
           end
  end.

(** The closure passed to [filter_clauses] (unit_simplify.rs:109-179): whether the clause is
    kept. *)
Definition simplify_clause (cref : N) (c : ctx) : out (ctx * bool) :=
  let lits := s_lits (c_s c) cref in
  let redundant := negb (tier_eqb (h_tier (d_hdr (c_d c) cref)) Irred) in
  match open_lits (c_s c) lits with
  | None =>
      do c <- add_step true (DeleteClause lits (if redundant then DRedundant else DSatisfied)) c ;
      Ret (c, false)
  | Some new_lits =>
      if Nat.ltb (length new_lits) (length lits) then
        do c <- add_step true (AtClause (redundant && Nat.ltb 2 (length new_lits)) new_lits [clause_hash lits]) c ;
        do c <- add_step true (DeleteClause lits (if redundant then DRedundant else DSimplified)) c ;
        match new_lits with
        | [] | [_] => Panic PInternal
        | [l0; l1] => Ret (add_binary_clause l0 l1 c, false)
        | _ => Ret (cw_s c (with_lits (c_s c) (upd (s_lits (c_s c)) cref new_lits)), true)
        end
      else Ret (c, true)
  end.

(** [filter_clauses] (clause/db.rs:176-207) with that closure *)
Fixpoint filter_loop (l : list N) (c : ctx) : out (ctx * list N) :=
  match l with
  | [] => Ret (c, [])
  | cref :: l =>
      if deleted (c_d c) cref then filter_loop l c
      else
        do (c, keep) <- simplify_clause cref c ;
        let c := if keep then c else cw_d c (delete_header (c_s c) (c_d c) cref) in
        do (c, r) <- filter_loop l c ;
        Ret (c, if keep then cref :: r else r)
  end.
Definition filter_clauses (c : ctx) : out ctx :=
  let c := cw_s c (disable_watchlists (c_s c)) in
  do (c, l) <- filter_loop (d_clauses (c_d c)) c ;
  Ret (cw_d c (with_clauses (c_d c) l)).

(** The loop over the variables (unit_simplify.rs:184-197) *)
Definition simplify_var (var : N) (c : ctx) : out ctx :=
  match v_gs (c_v c) var with
  | None => Ret c
  | Some g =>
      let data := v_data (c_v c) g in
      let data := match s_val (c_s c) var with
                  | Some b => vd_set_isolated (vd_set_unit data (Some b)) true
                  | None => data
                  end in
      let c := cw_v c (set_data (c_v c) (upd (v_data (c_v c)) g data)) in
      if vd_isolated data && negb (vd_assumed data) then remove_solver_var var c else Ret c
  end.
Fixpoint simplify_vars (l : list N) (c : ctx) : out ctx :=
  match l with
  | [] => Ret c
  | v :: l => do c <- simplify_var v c ; simplify_vars l c
  end.

(** [unit_simplify] (unit_simplify.rs:85-198) *)
Definition unit_simplify (c : ctx) : out ctx :=
  do c <- simplify_binary c ;
  do c <- filter_clauses c ;
  simplify_vars (codes (N.to_nat (v_slen (c_v c))) 0) c.

(** [set_assumptions] (assumptions.rs:63-120) *)
Definition set_assumptions (user : list N) (c : ctx) : out ctx :=
  let c := full_restart c in
  let c := match st_sat (c_st c) with Unsat => c | _ => set_sat c Unknown end in
  do c <- map_data_lits (as_lits (c_as c)) (fun d => vd_set_assumed d false) c ;
  do (c, lits) <- solver_from_user_lits user true c ;
  let c := cw_as c (Assum lits (as_core (c_as c)) (as_user (c_as c)) (as_levels (c_as c)) (as_hashes (c_as c))) in
  do c <- map_data_lits lits (fun d => vd_set_assumed d true) c ;
  add_step true (Assumptions lits) c.

(** [analyze_assumption_conflict] (assumptions.rs:172-254) *)
Definition analyze_assumption_conflict (assumption : N) (c : ctx) : out ctx :=
  let '(flags, core, hashes) :=
    failed_core_of (p_native (c_pf c)) (c_s c) (c_tmp c) assumption in
  do user <- users_of (c_v c) core ;
  let c := cw_tmp (cw_as c (Assum (as_lits (c_as c)) core user (as_levels (c_as c)) hashes)) flags in
  add_step true (FailedAssumptions core hashes) c.

(** [enqueue_assumption] (assumptions.rs:126-166).  Every round but the last removes an
    assumption, so the number of assumptions bounds the number of rounds. *)
Inductive enqueued := Done | Enqueued | Failed.
Fixpoint enqueue_loop (fuel : nat) (c : ctx) : out (ctx * enqueued) :=
  let level := clevel (c_s c) in
  match nth_error (as_lits (c_as c)) level with
  | None => Ret (c, Done)
  | Some a =>
      if lfalse (c_s c) a then
        do c <- analyze_assumption_conflict a c ; Ret (c, Failed)
      else if ltrue (c_s c) a then
        match fuel with
        | O => NoFuel
        | S fuel =>
            enqueue_loop fuel (cw_as c (Assum (swap_remove level (as_lits (c_as c))) (as_core (c_as c))
                                          (as_user (c_as c)) (as_levels (c_as c)) (as_hashes (c_as c))))
        end
      else
        let c := cw_s c (enqueue (new_decision_level (c_s c)) a RUnit) in
        Ret (set_levels (clevel (c_s c)) c, Enqueued)
  end.
Definition enqueue_assumption (c : ctx) : out (ctx * enqueued) :=
  enqueue_loop (length (as_lits (c_as c))) c.

(** [vsids.find] (decision.rs:28) with [Iterator::next] (vsids.rs:185-206) *)
Fixpoint find_decision (fuel : nat) (s : search) (vs : vsids) : vsids * option N :=
  match fuel with
  | O => (vs, None)
  | S fuel =>
      match vsids_next vs with
      | None => (vs, None)
      | Some (v, vs) =>
          match s_val s v with
          | None => (vs, Some v)
          | Some _ => find_decision fuel s vs
          end
      end
  end.

(** [make_decision] (decision.rs:17-39) *)
Definition make_decision (c : ctx) : ctx * bool :=
  match find_decision (S (length (vs_heap (c_vs c)))) (c_s c) (c_vs c) with
  | (vs, Some v) =>
      let c := cw_vs c vs in
      (cw_s c (enqueue (new_decision_level (c_s c)) (lit_of v (s_last (c_s c) v)) RUnit), true)
  | (vs, None) => (cw_vs c vs, false)
  end.

(** [find_conflict] (cdcl.rs:119-158) *)
Inductive found := FModel | FAssumption | FConflict (c : conflict).
Fixpoint find_conflict (fuel : nat) (c : ctx) : out (ctx * found) :=
  match fuel with
  | O => NoFuel
  | S fuel =>
      let '(s, r) := propagate (v_slen (c_v c)) (live (c_d c)) (c_bin c) (c_s c) in
      let c := cw_s c s in
      match r with
      | PPanic => Panic PInternal
      | PFuel => NoFuel
      | _ =>
          do (c, new_unit) <- prove_units c ;
          match r with
          | PConflict k => Ret (c, FConflict k)
          | _ =>
              do c <- (if new_unit then unit_simplify c else Ret c) ;
              do (c, e) <- enqueue_assumption c ;
              match e with
              | Enqueued => find_conflict fuel c
              | Failed => Ret (c, FAssumption)
              | Done =>
                  match make_decision c with
                  | (c, true) => find_conflict fuel c
                  | (c, false) => Ret (c, FModel)
                  end
              end
          end
      end
  end.

(** [reconstruct_global_model] (model.rs:39-87) *)
Definition model_value (c : ctx) (g : N) : option bool :=
  match v_sg (c_v c) g with
  | Some x => s_val (c_s c) x
  | None => Some (match vd_unit (v_data (c_v c) g) with Some b => b | None => false end)
  end.
Definition global_vars (v : vars) : list N :=
  filter (fun g => negb (vd_deleted (v_data v g))) (codes (N.to_nat (v_glen v)) 0).
Definition reconstruct_global_model (c : ctx) : out ctx :=
  let m := map (fun g => if vd_deleted (v_data (c_v c) g) then None else model_value c g)
               (codes (N.to_nat (v_glen (c_v c))) 0) in
  let lits := flat_map (fun g => match model_value c g with Some b => [lit_of g b] | None => [] end)
                       (global_vars (c_v c)) in
  let c := cw_model c m in
  do c <- (if p_native (c_pf c) then add_step false (Model lits) c else Ret c) ;
  Ret (set_sat c Sat).

(** The loop over the involved clauses (cdcl.rs:61-63) *)
Fixpoint bump_clauses (s : search) (l : list N) (d : cdb) (flags : N -> bool) : cdb * (N -> bool) :=
  match l with
  | [] => (d, flags)
  | cref :: l => let '(d, flags) := bump_clause s d flags cref in bump_clauses s l d flags
  end.

(** Storing the learned clause (cdcl.rs:81-99) *)
Definition learn_clause (clause : list N) (c : ctx) : out ctx :=
  match clause with
  | [] => Ret (set_sat c Unsat)
  | [l0] => Ret (cw_s c (enqueue (c_s c) l0 RUnit))
  | [l0; l1] =>
      let c := add_binary_clause l0 l1 c in
      Ret (cw_s c (enqueue (c_s c) l0 (RBinary l1)))
  | l0 :: _ =>
      let '(flags, h) := assess_learned (c_s c) (c_tmp c) clause in
      do (c, cref) <- db_add_clause h clause (cw_tmp c flags) ;
      Ret (cw_s c (enqueue (c_s c) l0 (RLong cref)))
  end.

(** [conflict_step] (cdcl.rs:21-100) *)
Definition conflict_step (fuel : nat) (c : ctx) : out ctx :=
  do (c, f) <- find_conflict fuel c ;
  match f with
  | FModel => reconstruct_global_model c
  | FAssumption => Ret (set_sat c UnsatAssum)
  | FConflict k =>
      let '(vs, a, bt) := analyze_conflict (v_slen (c_v c)) (p_native (c_pf c)) (c_s c) (c_vs c) (c_an c) k in
      if a_fuel a then NoFuel
      else
        let c := cw_an (cw_vs c vs) a in
        let '(d, flags) := bump_clauses (c_s c) (a_involved a) (c_d c) (c_tmp c) in
        let c := cw_tmp (cw_d c (decay_clause_activities d)) flags in
        let c := backtrack_to bt c in
        do c <- add_step true (AtClause (Nat.ltb 2 (length (a_clause a))) (a_clause a) (a_hashes a)) c ;
        learn_clause (a_clause a) c
  end.

(** [schedule_step] (schedule.rs:34-101); the counters are [u64] and do not overflow in
    practice: 2^64 conflicts. *)
Definition schedule_step (fuel : nat) (c : ctx) : out (ctx * bool) :=
  match st_sat (c_st c), st_error (c_st c) with
  | Unknown, None =>
      let sc := c_sc c in
      let c :=
        if sc_next sc =? sc_conflicts sc then
          let '(x, lb) := luby_advance (sc_luby sc) in
          cw_sc (restart c) (Sched (sc_conflicts sc) (sc_next sc + cf_luby_scale (c_cfg c) * x)
                                   (sc_restarts sc + 1) lb)
        else c in
      do c <- (if sc_conflicts sc mod cf_reduce_locals (c_cfg c) =? 0 then
                 let '(s, d, out) := reduce_locals (c_s c) (c_d c) in
                 add_steps true (map (fun cref => DeleteClause (s_lits s cref) DRedundant) out)
                           (cw_d (cw_s c s) d)
               else Ret c) ;
      let c := if sc_conflicts sc mod cf_reduce_mids (c_cfg c) =? 0 then cw_d c (reduce_mids (c_d c)) else c in
      match collect_garbage (c_s c) (c_d c) with
      | None => Panic PInternal
      | Some (s, d) =>
          if d_full d then Panic PFull
          else
            do c <- conflict_step fuel (cw_d (cw_s c s) d) ;
            let sc := c_sc c in
            Ret (cw_sc c (Sched (sc_conflicts sc + 1) (sc_next sc) (sc_restarts sc) (sc_luby sc)), true)
      end
  | _, _ => Ret (c, false)
  end.

Fixpoint schedule_loop (fuel : nat) (steps : nat) (c : ctx) : out ctx :=
  match steps with
  | O => NoFuel
  | S steps => do (c, more) <- schedule_step fuel c ; if more then schedule_loop fuel steps c else Ret c
  end.

(** * The methods of [Solver] *)

(** What a call returns; [AError] is the [SolverError] of [solve] and [close_proof].
    [SolverError::Interrupted] is [None]. *)
Inductive answer :=
| ANone
| ASolved (sat : bool)
| AError (e : option serror)
| AVar (v : N)
| AVars (vs : list N)
| AConfig (ok : bool).

(** [check_for_solver_error] (solver.rs:164-176); [SolverError]s that are stored are not
    recoverable. *)
Definition take_error (c : ctx) : ctx * option serror :=
  match st_error (c_st c) with
  | Some e => (set_invalid (set_error c None) true, Some e)
  | None => (c, None)
  end.

(** [solve] (solver.rs:138-158) *)
Definition solve (fuel : nat) (c : ctx) : out (ctx * answer) :=
  let c := set_invoked c true in
  if st_invalid (c_st c) then Panic PInvalid
  else
    do c <- schedule_loop fuel fuel c ;
    do c <- solve_finished c ;
    match take_error c with
    | (c, Some e) => Ret (c, AError (Some e))
    | (c, None) =>
        Ret (c, match st_sat (c_st c) with
                | Unknown => AError None
                | Sat => ASolved true
                | Unsat | UnsatAssum => ASolved false
                end)
    end.

(** [witness_var], [sample_var], [hide_var] (solver.rs:98-123) *)
Definition change_mode (user : N) (mode : smode) (c : ctx) : out ctx :=
  do (c, g) <- global_from_user user false c ;
  do (c, _) <- set_sampling_mode g mode c ;
  Ret c.

(** [model] (solver.rs:187-207) *)
Fixpoint model_lits (c : ctx) (us : list N) : out (list N) :=
  match us with
  | [] => Ret []
  | u :: us =>
      match v_gu (c_v c) u with
      | None => model_lits c us
      | Some g =>
          match nth_error (c_model c) (N.to_nat g) with
          | None => Panic PBounds
          | Some x =>
              do r <- model_lits c us ;
              Ret (match x with Some b => lit_of u b :: r | None => r end)
          end
      end
  end.
Definition get_model (c : ctx) : out (option (list N)) :=
  match st_sat (c_st c) with
  | Sat => do l <- model_lits c (codes (N.to_nat (v_ulen (c_v c))) 0) ; Ret (Some l)
  | _ => Ret None
  end.

(** [failed_core] (solver.rs:212-218) *)
Definition get_failed_core (c : ctx) : option (list N) :=
  match st_sat (c_st c) with
  | UnsatAssum => Some (as_user (c_as c))
  | Unsat => Some []
  | Unknown | Sat => None
  end.

(** The calls that change the solver.  [add_formula] and [add_dimacs_cnf] are sequences of
    [CAdd], [add_proof_processor] is [CCheck] with a processor as part of the judge. *)
Inductive call :=
| CAdd (clause : list N)
| CNewVar
| CWitness (v : N)
| CSample (v : N)
| CHide (v : N)
| CObserve
| CAssume (lits : list N)
| CSolve
| CWriteProof (f : pformat)
| CCloseProof
| CCheck
| CConfig (u : config_update).

Definition run (fuel : nat) (k : call) (c : ctx) : out (ctx * answer) :=
  match k with
  | CAdd clause => do c <- load_clause clause c ; Ret (c, ANone)
  | CNewVar => do (c, v) <- new_user_var (set_empty c false) ; Ret (c, AVar v)
  | CWitness v => do c <- change_mode v Witness c ; Ret (c, ANone)
  | CSample v => do c <- change_mode v Sample c ; Ret (c, ANone)
  | CHide v => do c <- change_mode v Hide c ; Ret (c, ANone)
  | CObserve => do (c, l) <- observe_internal_vars c ; Ret (c, AVars l)
  | CAssume lits => do c <- set_assumptions lits c ; Ret (c, ANone)
  | CSolve => solve fuel c
  | CWriteProof f =>
      if st_empty (c_st c) then
        let p := c_pf c in
        Ret (cw_pf c (Proof (Some f) (p_checker p) (p_bits p) (p_count p) [] (p_log p) (p_judge p) (p_io p)), ANone)
      else Panic PLate
  | CCloseProof =>
      do c <- close_proof c ;
      match take_error c with
      | (c, Some e) => Ret (c, AError (Some e))
      | (c, None) => Ret (c, ANone)
      end
  | CCheck =>
      if st_empty (c_st c) then
        let p := c_pf c in
        let log := if p_checker p then p_log p else [] in
        Ret (cw_pf c (Proof (p_format p) true (p_bits p) (p_count p) (p_out p) log (p_judge p) (p_io p)), ANone)
      else Panic PLate
  | CConfig u =>
      (* [Solver::config] (solver.rs:64-69) with [config_changed] (context.rs:123-131) *)
      let '(ok, cfg) := update_apply u (c_cfg c) in
      if ok then
        if set_decay_ok (cf_vsids_decay cfg) && set_decay_ok (cf_clause_decay cfg) then
          let c := cw_vs (cw_cfg c cfg) (vsids_set_decay (c_vs c) (cf_vsids_decay cfg)) in
          Ret (cw_d c (with_inv (c_d c) (f32_div f32_one (cf_clause_decay cfg))), AConfig true)
        else Panic PInternal
      else Ret (c, AConfig false)
  end.

(** A history of calls, with the answers *)
Fixpoint run_all (fuel : nat) (ks : list call) (c : ctx) : out (ctx * list answer) :=
  match ks with
  | [] => Ret (c, [])
  | k :: ks =>
      do (c, a) <- run fuel k c ;
      do (c, r) <- run_all fuel ks c ;
      Ret (c, a :: r)
  end.
