(** Model of the central data structure of the solver (varisat/src/context.rs, state.rs,
    tmp.rs), of proof generation (proof.rs, proof/map_step.rs) and of the variable maps
    (variables.rs, variables/data.rs, variables/var_map.rs).

    Variables and literals are their codes.  [Var::from_index] and [Lit::from_var] do not
    truncate below [Var::max_count], see [lit_of_from_var] in P_Proof.v; more variables than
    that are not modelled. *)
From Coq Require Import ZArith.
From Verif Require Import Spec Lit BinFormat Hash F32 Vsids Luby Config Search ClauseDb Analyze.
From Verif Require Lrat.

(** Where the code panics.  [PBounds] is an index out of bounds, [PInternal] any assertion or
    [unreachable!] that the solver relies on. *)
Inductive panic :=
| PWitness       (* "witness variables cannot be constrained" *)
| PAssumed       (* "cannot change sampling mode of assumption variable" *)
| PSelfCheck     (* "self check failure" *)
| PInvalid       (* "solve() called after encountering an unrecoverable error" *)
| PLate          (* "called after clauses were added" *)
| PDrat          (* "assumptions / incremental clause additions not supported by DRAT proofs" *)
| PHashBits      (* the width of the hashes is above 64 *)
| PNoGlobal      (* "no existing global var for solver var" *)
| PNoUser        (* "no existing user var for global var" *)
| PBounds
| PFull          (* "Exceeded ClauseAlloc's maximal buffer size" *)
| PInternal.

(** A computation ends normally, panics, or has used up the fuel of a loop. *)
Inductive out (A : Type) := Ret (a : A) | Panic (p : panic) | NoFuel.
Arguments Ret {A}. Arguments Panic {A}. Arguments NoFuel {A}.
Definition bind {A B} (m : out A) (f : A -> out B) : out B :=
  match m with Ret a => f a | Panic p => Panic p | NoFuel => NoFuel end.
Notation "'do' x <- m ; f" := (bind m (fun x => f)) (at level 200, x pattern, m at level 100, f at level 200).

(** [Var::lit], [Lit::from_var] for variables in range *)
Definition lit_of (v : N) (polarity : bool) : N := 2 * v + (if polarity then 0 else 1).

(** [SamplingMode] and [VarData] (variables/data.rs:20-47) *)
Inductive smode := Sample | Witness | Hide.
Definition smode_eqb (a b : smode) : bool :=
  match a, b with Sample, Sample | Witness, Witness | Hide, Hide => true | _, _ => false end.
Record vdata := VData {
  vd_mode : smode; vd_unit : option bool; vd_isolated : bool; vd_assumed : bool; vd_deleted : bool }.
(** data.rs:49-70 *)
Definition vdata_default : vdata := VData Hide None true false true.
Definition vdata_user : vdata := VData Sample None true false false.

(** [Variables] (variables.rs:22-48).  The vectors of a [VarMap] (var_map.rs:9-11) are partial
    maps together with the length of the vector where it matters.  The three sets are lists;
    [v_pick] is the position of the element that the iterator of a hash set yields first, which
    may be any. *)
Record vars := Vars {
  v_gu : N -> option N;   (* global_from_user *)
  v_ulen : N;             (* user_watermark *)
  v_ug : N -> option N;   (* user_from_global *)
  v_sg : N -> option N;   (* solver_from_global *)
  v_gs : N -> option N;   (* global_from_solver *)
  v_slen : N;             (* solver_watermark, the variable count of the solver *)
  v_ufree : list N;
  v_gfree : list N;
  v_sfree : list N;
  v_data : N -> vdata;
  v_glen : N;             (* global_watermark *)
  v_pick : list N -> nat }.

Definition vars_default (pick : list N -> nat) : vars :=
  Vars (fun _ => None) 0 (fun _ => None) (fun _ => None) (fun _ => None) 0 [] [] []
       (fun _ => vdata_default) 0 pick.

(** [Assumptions] (assumptions.rs:18-24) *)
Record assum := Assum {
  as_lits : list N; as_core : list N; as_user : list N; as_levels : nat; as_hashes : list N }.
Definition assum_default : assum := Assum [] [] [] 0 [].

(** [SatState] and [SolverState] (state.rs:6-30); of a [SolverError] (solver.rs:29-42) that is
    stored we keep which one it is. *)
Inductive sstate := Unknown | Sat | Unsat | UnsatAssum.
Inductive serror := EProcessor | EIo.
Record state := State {
  st_sat : sstate; st_empty : bool; st_invoked : bool; st_invalid : bool; st_error : option serror }.
Definition state_default : state := State Unknown true false false None.

(** [ProofFormat] (proof.rs:21-25) *)
Inductive pformat := FVarisat | FDrat | FBinaryDrat.
(** What the checker is asked to do (proof.rs:149, 208, 283); variables are global. *)
Inductive pevent := EvLoad (lits : list N) | EvStep (s : proof_step) | EvDelayed.
(** Its answers: success, the error of a proof processor, any other error. *)
Inductive verdict := VOk | VProcessor | VFailed.

(** [Proof] (proof.rs:58-69).  [p_out] are the bytes written to the target and [p_log] what was
    handed to the checker so far.  The checker and the target are arbitrary: [p_judge] is the
    answer of the checker to the last element of such a log, and [p_io] tells whether writing
    these bytes (or flushing after them) fails. *)
Record proof := Proof {
  p_format : option pformat;
  p_checker : bool;
  p_bits : N;
  p_count : Z;
  p_out : list N;
  p_log : list pevent;
  p_judge : list pevent -> verdict;
  p_io : list N -> bool }.

(** [Default] (proof.rs:71-82); the environment stays the same. *)
Definition proof_default (judge : list pevent -> verdict) (io : list N -> bool) : proof :=
  Proof None false 64 0 [] [] judge io.
Definition proof_reset (p : proof) : proof :=
  Proof None false 64 0 (p_out p) (p_log p) (p_judge p) (p_io p).

(** [Schedule] (schedule.rs:26-31) *)
Record sched := Sched { sc_conflicts : N; sc_next : N; sc_restarts : N; sc_luby : luby }.
Definition sched_default : sched := Sched 0 0 0 luby_default.

(** [Context] (context.rs:58-97).  [BinaryClauses] (binary.rs:15-18) is [c_bin] and [c_nbin];
    [c_tmp] are the [TmpFlags] (tmp.rs:23-28); [TmpData] is local to its users. *)
Record ctx := Ctx {
  c_s : search;
  c_d : cdb;
  c_bin : N -> list N;
  c_nbin : nat;
  c_vs : vsids;
  c_an : analyze;
  c_as : assum;
  c_v : vars;
  c_st : state;
  c_pf : proof;
  c_model : list (option bool);
  c_sc : sched;
  c_cfg : config;
  c_tmp : N -> bool }.

Definition ctx_default (pick : list N -> nat) (judge : list pevent -> verdict) (io : list N -> bool) : ctx :=
  Ctx search_default cdb_default (fun _ => []) 0 vsids_default analyze_default assum_default
      (vars_default pick) state_default (proof_default judge io) [] sched_default config_default
      (fun _ => false).

Definition cw_s c x := Ctx x (c_d c) (c_bin c) (c_nbin c) (c_vs c) (c_an c) (c_as c) (c_v c) (c_st c) (c_pf c) (c_model c) (c_sc c) (c_cfg c) (c_tmp c).
Definition cw_d c x := Ctx (c_s c) x (c_bin c) (c_nbin c) (c_vs c) (c_an c) (c_as c) (c_v c) (c_st c) (c_pf c) (c_model c) (c_sc c) (c_cfg c) (c_tmp c).
Definition cw_bin c x n := Ctx (c_s c) (c_d c) x n (c_vs c) (c_an c) (c_as c) (c_v c) (c_st c) (c_pf c) (c_model c) (c_sc c) (c_cfg c) (c_tmp c).
Definition cw_vs c x := Ctx (c_s c) (c_d c) (c_bin c) (c_nbin c) x (c_an c) (c_as c) (c_v c) (c_st c) (c_pf c) (c_model c) (c_sc c) (c_cfg c) (c_tmp c).
Definition cw_an c x := Ctx (c_s c) (c_d c) (c_bin c) (c_nbin c) (c_vs c) x (c_as c) (c_v c) (c_st c) (c_pf c) (c_model c) (c_sc c) (c_cfg c) (c_tmp c).
Definition cw_as c x := Ctx (c_s c) (c_d c) (c_bin c) (c_nbin c) (c_vs c) (c_an c) x (c_v c) (c_st c) (c_pf c) (c_model c) (c_sc c) (c_cfg c) (c_tmp c).
Definition cw_v c x := Ctx (c_s c) (c_d c) (c_bin c) (c_nbin c) (c_vs c) (c_an c) (c_as c) x (c_st c) (c_pf c) (c_model c) (c_sc c) (c_cfg c) (c_tmp c).
Definition cw_st c x := Ctx (c_s c) (c_d c) (c_bin c) (c_nbin c) (c_vs c) (c_an c) (c_as c) (c_v c) x (c_pf c) (c_model c) (c_sc c) (c_cfg c) (c_tmp c).
Definition cw_pf c x := Ctx (c_s c) (c_d c) (c_bin c) (c_nbin c) (c_vs c) (c_an c) (c_as c) (c_v c) (c_st c) x (c_model c) (c_sc c) (c_cfg c) (c_tmp c).
Definition cw_model c x := Ctx (c_s c) (c_d c) (c_bin c) (c_nbin c) (c_vs c) (c_an c) (c_as c) (c_v c) (c_st c) (c_pf c) x (c_sc c) (c_cfg c) (c_tmp c).
Definition cw_sc c x := Ctx (c_s c) (c_d c) (c_bin c) (c_nbin c) (c_vs c) (c_an c) (c_as c) (c_v c) (c_st c) (c_pf c) (c_model c) x (c_cfg c) (c_tmp c).
Definition cw_cfg c x := Ctx (c_s c) (c_d c) (c_bin c) (c_nbin c) (c_vs c) (c_an c) (c_as c) (c_v c) (c_st c) (c_pf c) (c_model c) (c_sc c) x (c_tmp c).
Definition cw_tmp c x := Ctx (c_s c) (c_d c) (c_bin c) (c_nbin c) (c_vs c) (c_an c) (c_as c) (c_v c) (c_st c) (c_pf c) (c_model c) (c_sc c) (c_cfg c) x.

Definition set_sat c x :=
  cw_st c (State x (st_empty (c_st c)) (st_invoked (c_st c)) (st_invalid (c_st c)) (st_error (c_st c))).
Definition set_empty c x :=
  cw_st c (State (st_sat (c_st c)) x (st_invoked (c_st c)) (st_invalid (c_st c)) (st_error (c_st c))).
Definition set_invoked c x :=
  cw_st c (State (st_sat (c_st c)) (st_empty (c_st c)) x (st_invalid (c_st c)) (st_error (c_st c))).
Definition set_invalid c x :=
  cw_st c (State (st_sat (c_st c)) (st_empty (c_st c)) (st_invoked (c_st c)) x (st_error (c_st c))).
Definition set_error c x :=
  cw_st c (State (st_sat (c_st c)) (st_empty (c_st c)) (st_invoked (c_st c)) (st_invalid (c_st c)) x).

(** [is_active], [native_format] (proof.rs:107-114), the latter also being
    [clause_hashes_required] and [models_in_proof] *)
Definition p_active (p : proof) : bool :=
  p_checker p || match p_format p with Some _ => true | None => false end.
Definition p_native (p : proof) : bool :=
  p_checker p || match p_format p with Some FVarisat => true | _ => false end.

(** [map_var] of a literal from solver to global names; [None] is the failed [expect]
    (proof.rs:180-189). *)
Definition map_lit (gs : N -> option N) (l : N) : option N :=
  match gs (lit_var l) with Some g => Some (lit_of g (is_positive l)) | None => None end.
Fixpoint map_lits (gs : N -> option N) (l : list N) : option (list N) :=
  match l with
  | [] => Some []
  | x :: l => match map_lit gs x, map_lits gs l with Some y, Some r => Some (y :: r) | _, _ => None end
  end.
Fixpoint map_units (gs : N -> option N) (l : list (N * N)) : option (list (N * N)) :=
  match l with
  | [] => Some []
  | (x, h) :: l =>
      match map_lit gs x, map_units gs l with Some y, Some r => Some ((y, h) :: r) | _, _ => None end
  end.

(** [MapStep::map] with the identity on hashes (map_step.rs:24-128) *)
Definition map_step (gs : N -> option N) (s : proof_step) : option proof_step :=
  match s with
  | AddClause cl => option_map AddClause (map_lits gs cl)
  | AtClause r cl h => option_map (fun cl => AtClause r cl h) (map_lits gs cl)
  | UnitClauses u => option_map UnitClauses (map_units gs u)
  | DeleteClause cl p => option_map (fun cl => DeleteClause cl p) (map_lits gs cl)
  | Model m => option_map Model (map_lits gs m)
  | Assumptions a => option_map Assumptions (map_lits gs a)
  | FailedAssumptions core h => option_map (fun core => FailedAssumptions core h) (map_lits gs core)
  | _ => Some s
  end.

(** [MapStep::map] restricted to hashes *)
Definition map_hashes (f : N -> N) (s : proof_step) : proof_step :=
  match s with
  | AtClause r cl h => AtClause r cl (map f h)
  | UnitClauses u => UnitClauses (map (fun '(l, h) => (l, f h)) u)
  | FailedAssumptions core h => FailedAssumptions core (map f h)
  | _ => s
  end.

(** [clause_count_delta] (proof.rs:28-55) *)
Definition clause_count_delta (s : proof_step) : Z :=
  match s with
  | AddClause cl | AtClause _ cl _ => if Nat.ltb 1 (length cl) then 1 else 0
  | DeleteClause cl _ => if Nat.ltb 1 (length cl) then -1 else 0
  | _ => 0
  end%Z.

(** The two loops adjusting the width of the hashes (proof.rs:228-237).  [isize] and [u32] do
    not overflow as long as there are less than 2^60 clauses; the loops have a bound here that
    they do not reach then.  The flag [rehash] is set if and only if the width changes, see
    [grow_then_keep] in P_Proof.v. *)
Fixpoint grow_bits (fuel : nat) (bits : N) (count : Z) : N :=
  match fuel with
  | O => bits
  | S fuel => if (2 ^ Z.of_N (bits / 2) <? count)%Z then grow_bits fuel (bits + 2) count else bits
  end.
Fixpoint shrink_bits (fuel : nat) (bits : N) (count : Z) : N :=
  match fuel with
  | O => bits
  | S fuel =>
      if (6 <? bits) && (count * 4 <? 2 ^ Z.of_N (bits / 2))%Z then shrink_bits fuel (bits - 2) count
      else bits
  end.
Definition next_bits (invoked : bool) (bits : N) (count : Z) : N :=
  let bits := grow_bits 32 bits count in
  if invoked then shrink_bits 64 bits count else bits.

(** [write_varisat_step] (proof.rs:217-258) for a step with global names: the bytes written.
    [None] is the subtraction overflow at proof.rs:248. *)
Definition write_varisat_step (invoked : bool) (p : proof) (s : proof_step) : option (proof * list N) :=
  let count := (p_count p + clause_count_delta s)%Z in
  let bits := next_bits invoked (p_bits p) count in
  let p' := Proof (p_format p) (p_checker p) bits count (p_out p) (p_log p) (p_judge p) (p_io p) in
  if 64 <? bits then None
  else Some (p', (if bits =? p_bits p then [] else write_step (ChangeHashBits bits))
                 ++ write_step (map_hashes (fun h => N.shiftr h (64 - bits)) s)).

(** [handle_self_check_result] (proof.rs:291-312) *)
Definition handle_check (c : ctx) (v : verdict) : out ctx :=
  match v with
  | VOk => Ret c
  | VProcessor => Ret (cw_pf (set_error c (Some EProcessor)) (proof_reset (c_pf c)))
  | VFailed => Panic PSelfCheck
  end.
(** [handle_io_errors] (proof.rs:315-323) *)
Definition handle_io (c : ctx) (failed : bool) : ctx :=
  if failed then cw_pf (set_error c (Some EIo)) (proof_reset (c_pf c)) else c.

Definition p_write (p : proof) (bytes : list N) : proof :=
  Proof (p_format p) (p_checker p) (p_bits p) (p_count p) (p_out p ++ bytes) (p_log p) (p_judge p) (p_io p).
Definition p_push (p : proof) (e : pevent) : proof :=
  Proof (p_format p) (p_checker p) (p_bits p) (p_count p) (p_out p) (p_log p ++ [e]) (p_judge p) (p_io p).
Definition p_set_count (p : proof) (n : Z) : proof :=
  Proof (p_format p) (p_checker p) (p_bits p) n (p_out p) (p_log p) (p_judge p) (p_io p).

(** [checker.add_clause] and the like, followed by [handle_self_check_result] *)
Definition ask_checker (c : ctx) (e : pevent) : out ctx :=
  let p := p_push (c_pf c) e in
  handle_check (cw_pf c p) (p_judge p (p_log p)).

(** [add_step] (proof.rs:164-214) *)
Definition add_step (solver_vars : bool) (s : proof_step) (c : ctx) : out ctx :=
  match st_error (c_st c) with
  | Some _ => Ret c
  | None =>
      if p_active (c_pf c) then
        match (if solver_vars then map_step (v_gs (c_v c)) s else Some s) with
        | None => Panic PNoGlobal
        | Some s =>
            do (p, bytes) <- match p_format (c_pf c) with
                             | Some FVarisat =>
                                 match write_varisat_step (st_invoked (c_st c)) (c_pf c) s with
                                 | Some x => Ret x
                                 | None => Panic PHashBits
                                 end
                             | Some FDrat =>
                                 match Lrat.drat_write_step s with
                                 | Some b => Ret (c_pf c, b)
                                 | None => Panic PDrat
                                 end
                             | Some FBinaryDrat =>
                                 match Lrat.drat_write_binary_step s with
                                 | Some b => Ret (c_pf c, b)
                                 | None => Panic PDrat
                                 end
                             | None => Ret (c_pf c, [])
                             end ;
            let p := p_write p bytes in
            let failed := match p_format p with Some _ => p_io p (p_out p) | None => false end in
            let c := cw_pf c p in
            if failed then Ret (handle_io c true)
            else if p_checker p then ask_checker c (EvStep s)
            else Ret c
        end
      else Ret c
  end.

Fixpoint add_steps (solver_vars : bool) (l : list proof_step) (c : ctx) : out ctx :=
  match l with
  | [] => Ret c
  | s :: l => do c <- add_step solver_vars s c ; add_steps solver_vars l c
  end.

(** [proof::add_clause] (proof.rs:132-156) *)
Definition proof_add_clause (clause : list N) (c : ctx) : out ctx :=
  if st_invoked (c_st c) then add_step true (AddClause clause) c
  else
    do c <- (if p_checker (c_pf c) then
               match map_lits (v_gs (c_v c)) clause with
               | None => Panic PNoGlobal
               | Some cl => ask_checker c (EvLoad cl)
               end
             else Ret c) ;
    Ret (if Nat.ltb 1 (length clause) then cw_pf c (p_set_count (c_pf c) (p_count (c_pf c) + 1)) else c).

(** [flush_proof], [close_proof], [solve_finished] (proof.rs:261-286) *)
Definition flush_proof (c : ctx) : ctx :=
  handle_io c (match p_format (c_pf c) with Some _ => p_io (c_pf c) (p_out (c_pf c)) | None => false end).
Definition close_proof (c : ctx) : out ctx :=
  do c <- add_step true End c ;
  let c := flush_proof c in
  let p := c_pf c in
  Ret (cw_pf c (Proof None (p_checker p) (p_bits p) (p_count p) (p_out p) (p_log p) (p_judge p) (p_io p))).
Definition solve_finished (c : ctx) : out ctx :=
  let c := flush_proof c in
  if p_checker (c_pf c) then ask_checker c EvDelayed else Ret c.

(** * Variables *)

Definition pick (v : vars) (l : list N) : option N :=
  match l with [] => None | _ => Some (nth (Nat.modulo (v_pick v l) (length l)) l 0) end.
Definition remove_n (x : N) (l : list N) : list N := filter (fun y => negb (y =? x)) l.
Definition insert_n (x : N) (l : list N) : list N := x :: remove_n x l.

(** [next_unmapped_global] and the like (variables.rs:189-213) *)
Definition next_global (v : vars) : N := match pick v (v_gfree v) with Some x => x | None => v_glen v end.
Definition next_solver (v : vars) : N := match pick v (v_sfree v) with Some x => x | None => v_slen v end.
Definition next_user (v : vars) : N := match pick v (v_ufree v) with Some x => x | None => v_ulen v end.

Definition set_data (v : vars) (f : N -> vdata) : vars :=
  Vars (v_gu v) (v_ulen v) (v_ug v) (v_sg v) (v_gs v) (v_slen v) (v_ufree v) (v_gfree v) (v_sfree v) f (v_glen v) (v_pick v).
Definition vd_set_mode d x := VData x (vd_unit d) (vd_isolated d) (vd_assumed d) (vd_deleted d).
Definition vd_set_unit d x := VData (vd_mode d) x (vd_isolated d) (vd_assumed d) (vd_deleted d).
Definition vd_set_isolated d x := VData (vd_mode d) (vd_unit d) x (vd_assumed d) (vd_deleted d).
Definition vd_set_assumed d x := VData (vd_mode d) (vd_unit d) (vd_isolated d) x (vd_deleted d).
Definition vd_set_deleted d x := VData (vd_mode d) (vd_unit d) (vd_isolated d) (vd_assumed d) x.

(** [global_from_user_mut().insert(global, user)] and the removal from the free lists
    (variables.rs:254-256) *)
Definition bind_user (v : vars) (user global : N) : vars :=
  Vars (upd (v_gu v) user (Some global)) (N.max (v_ulen v) (user + 1)) (upd (v_ug v) global (Some user))
       (v_sg v) (v_gs v) (v_slen v) (remove_n user (v_ufree v)) (v_gfree v) (v_sfree v) (v_data v) (v_glen v) (v_pick v).

(** [global_from_user] for a variable that is at most the watermark (variables.rs:235-269) *)
Definition global_from_user1 (user : N) (require_sampling : bool) (c : ctx) : out (ctx * N) :=
  let v := c_v c in
  match v_gu v user with
  | Some global =>
      if require_sampling && negb (smode_eqb (vd_mode (v_data v global)) Sample) then Panic PWitness
      else Ret (c, global)
  | None =>
      let global := if user <? v_glen v then if vd_deleted (v_data v user) then user else next_global v
                    else user in
      let v := Vars (v_gu v) (v_ulen v) (v_ug v) (v_sg v) (v_gs v) (v_slen v) (v_ufree v) (v_gfree v)
                    (v_sfree v) (upd (v_data v) global vdata_user) (N.max (v_glen v) (global + 1)) (v_pick v) in
      let v := bind_user v user global in
      let v := Vars (v_gu v) (v_ulen v) (v_ug v) (v_sg v) (v_gs v) (v_slen v) (v_ufree v)
                    (remove_n global (v_gfree v)) (v_sfree v) (v_data v) (v_glen v) (v_pick v) in
      do c <- add_step false (UserVarName global (Some user)) (cw_v c v) ;
      Ret (c, global)
  end.

(** The loop creating all variables below (variables.rs:226-231) *)
Fixpoint fill_users (n : nat) (c : ctx) : out ctx :=
  match n with
  | O => Ret c
  | S n => do (c, _) <- global_from_user1 (v_ulen (c_v c)) false c ; fill_users n c
  end.

(** [global_from_user] (variables.rs:219-270) *)
Definition global_from_user (user : N) (require_sampling : bool) (c : ctx) : out (ctx * N) :=
  do c <- fill_users (N.to_nat (user - v_ulen (c_v c))) c ;
  global_from_user1 user require_sampling c.

(** [initialize_solver_var] (variables.rs:483-507) with [decision::initialize_var]
    (decision.rs:47-53) *)
Definition initialize_solver_var (solver global : N) (c : ctx) : out ctx :=
  let unit := vd_unit (v_data (c_v c) global) in
  let s := with_val (c_s c) (upd (s_val (c_s c)) solver unit) in
  let s := match unit with Some _ => update_removed_unit s solver | None => s end in
  match vsids_reset (c_vs c) solver with
  | None => Panic PInternal
  | Some vs =>
      let vs := match unit with None => vsids_make_available vs solver | Some _ => vs end in
      Ret (cw_vs (cw_s c s) vs)
  end.

(** [solver_from_global] (variables.rs:275-325).  [set_var_count] (context.rs:100-120) extends
    vectors with default values, which the total maps already have. *)
Definition solver_from_global (global : N) (c : ctx) : out (ctx * N) :=
  let v := c_v c in
  match v_sg v global with
  | Some solver => Ret (c, solver)
  | None =>
      let solver := next_solver v in
      let v := Vars (v_gu v) (v_ulen v) (v_ug v) (upd (v_sg v) global (Some solver))
                    (upd (v_gs v) solver (Some global)) (N.max (v_slen v) (solver + 1))
                    (v_ufree v) (v_gfree v) (remove_n solver (v_sfree v)) (v_data v) (v_glen v) (v_pick v) in
      do c <- initialize_solver_var solver global (cw_v c v) ;
      do c <- add_step false (SolverVarName global (Some solver)) c ;
      Ret (c, solver)
  end.

(** [solver_from_user] (variables.rs:330-349) *)
Definition solver_from_user (user : N) (require_sampling : bool) (c : ctx) : out (ctx * N) :=
  do (c, global) <- global_from_user user require_sampling c ;
  solver_from_global global c.

(** [new_user_var] (variables.rs:355-362) *)
Definition new_user_var (c : ctx) : out (ctx * N) :=
  let user := next_user (c_v c) in
  do (c, _) <- global_from_user user false c ;
  Ret (c, user).

(** [solver_from_user_lits] (variables.rs:365-387) *)
Fixpoint solver_from_user_lits (lits : list N) (require_sampling : bool) (c : ctx) : out (ctx * list N) :=
  match lits with
  | [] => Ret (c, [])
  | l :: lits =>
      do (c, x) <- solver_from_user (lit_var l) require_sampling c ;
      do (c, r) <- solver_from_user_lits lits require_sampling c ;
      Ret (c, lit_of x (is_positive l) :: r)
  end.

(** [delete_global_if_unused] (variables.rs:540-570) *)
Definition delete_global_if_unused (global : N) (c : ctx) : out ctx :=
  let v := c_v c in
  match v_ug v global, v_sg v global with
  | None, None =>
      let data := v_data v global in
      if negb (smode_eqb (vd_mode data) Hide) then Panic PInternal
      else if negb (vd_isolated data) then Ret c
      else
        let v := set_data v (upd (v_data v) global (vd_set_deleted data true)) in
        do c <- add_step false (DeleteVar global) (cw_v c v) ;
        let v := c_v c in
        Ret (cw_v c (Vars (v_gu v) (v_ulen v) (v_ug v) (v_sg v) (v_gs v) (v_slen v) (v_ufree v)
                          (insert_n global (v_gfree v)) (v_sfree v) (v_data v) (v_glen v) (v_pick v)))
  | _, _ => Ret c
  end.

(** [set_sampling_mode] (variables.rs:395-462) *)
Definition set_sampling_mode (global : N) (mode : smode) (c : ctx) : out (ctx * option N) :=
  let v := c_v c in
  let data := v_data v global in
  if vd_deleted data then Panic PInternal
  else if vd_assumed data then Panic PAssumed
  else if smode_eqb (vd_mode data) mode then Ret (c, None)
  else
    let c := cw_v c (set_data v (upd (v_data v) global (vd_set_mode data mode))) in
    do c <- (if smode_eqb mode Hide then Ret c
             else add_step false (ChangeSamplingMode global (smode_eqb mode Sample)) c) ;
    let v := c_v c in
    if smode_eqb (vd_mode data) Hide then
      let user := next_user v in
      do c <- add_step false (UserVarName global (Some user)) (cw_v c (bind_user v user global)) ;
      Ret (c, Some user)
    else if smode_eqb mode Hide then
      let v := match v_ug v global with
               | Some user =>
                   Vars (upd (v_gu v) user None) (v_ulen v) (upd (v_ug v) global None) (v_sg v) (v_gs v)
                        (v_slen v) (insert_n user (v_ufree v)) (v_gfree v) (v_sfree v) (v_data v) (v_glen v) (v_pick v)
               | None => v
               end in
      do c <- add_step false (UserVarName global None) (cw_v c v) ;
      do c <- delete_global_if_unused global c ;
      Ret (c, None)
    else Ret (c, None).

(** [observe_internal_vars] (variables.rs:465-480); the watermark does not change. *)
Fixpoint observe_loop (n : nat) (global : N) (c : ctx) : out (ctx * list N) :=
  match n with
  | O => Ret (c, [])
  | S n =>
      let data := v_data (c_v c) global in
      if negb (vd_deleted data) && smode_eqb (vd_mode data) Hide then
        do (c, u) <- set_sampling_mode global Witness c ;
        match u with
        | None => Panic PInternal
        | Some user => do (c, r) <- observe_loop n (global + 1) c ; Ret (c, user :: r)
        end
      else observe_loop n (global + 1) c
  end.
Definition observe_internal_vars (c : ctx) : out (ctx * list N) :=
  observe_loop (N.to_nat (v_glen (c_v c))) 0 c.

(** [remove_solver_var] (variables.rs:512-537) *)
Definition remove_solver_var (solver : N) (c : ctx) : out ctx :=
  let c := cw_vs c (vsids_make_unavailable (c_vs c) solver) in
  let v := c_v c in
  match v_gs v solver with
  | None => Panic PNoGlobal
  | Some global =>
      let v := Vars (v_gu v) (v_ulen v) (v_ug v) (upd (v_sg v) global None) (upd (v_gs v) solver None)
                    (v_slen v) (v_ufree v) (v_gfree v) (insert_n solver (v_sfree v)) (v_data v) (v_glen v) (v_pick v) in
      do c <- add_step false (SolverVarName global None) (cw_v c v) ;
      delete_global_if_unused global c
  end.

(** [var_data_solver_mut] (variables.rs:170-176) *)
Definition map_data_solver (solver : N) (f : vdata -> vdata) (c : ctx) : out ctx :=
  match v_gs (c_v c) solver with
  | None => Panic PNoGlobal
  | Some g => Ret (cw_v c (set_data (c_v c) (upd (v_data (c_v c)) g (f (v_data (c_v c) g)))))
  end.
Fixpoint map_data_lits (lits : list N) (f : vdata -> vdata) (c : ctx) : out ctx :=
  match lits with
  | [] => Ret c
  | l :: lits => do c <- map_data_solver (lit_var l) f c ; map_data_lits lits f c
  end.

(** [existing_user_from_solver] (variables.rs:149-159) on literals *)
Fixpoint users_of (v : vars) (lits : list N) : out (list N) :=
  match lits with
  | [] => Ret []
  | l :: lits =>
      match v_gs v (lit_var l) with
      | None => Panic PNoGlobal
      | Some g =>
          match v_ug v g with
          | None => Panic PNoUser
          | Some u => do r <- users_of v lits ; Ret (lit_of u (is_positive l) :: r)
          end
      end
  end.
