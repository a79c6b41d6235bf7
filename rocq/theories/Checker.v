(** Model of varisat-checker/src: clauses.rs, hash.rs, rup.rs, variables.rs,
    processing.rs, transcript.rs, state.rs, internal.rs and lib.rs.

    A panic (index out of bounds, failed [assert!], [unreachable!], [expect],
    arithmetic overflow in a build with overflow checks) is the result [None] or
    [RPanic].  Counters that are bounded by the available memory or by the number
    of processed steps ([next_clause_id], [clause_count], [garbage_size], [step],
    lengths) are unbounded here.  [TmpData] (tmp.rs) is a recycled buffer that is
    cleared before every use; it has no counterpart. *)
From Verif Require Import Spec Lit Vec SortedLits Hash Vli BinFormat.

(** * Data *)

(** clauses.rs:94-107. *)
Inductive unit_id := Global (id : N) | TracePos (pos : N) | InClause.
Record unit_clause := UC { uc_id : unit_id; uc_value : bool }.

(** [ClauseLits] (clauses.rs:21-25); [inline] has three elements. *)
Record clause_lits := CLits { cl_length : N; cl_inline : list N }.

(** [Clause] (clauses.rs:81-92); [ref_count] is ([irr], [red]). *)
Record clause := CC { cc_id : N; cc_irr : N; cc_red : N; cc_lits : clause_lits }.

(** [Clauses] (clauses.rs:124-142).  The hash map is a list of its entries in
    the order in which it would be iterated over next; see [rehash]. *)
Record clauses := Clauses {
  next_clause_id : N;
  literal_buffer : list N;
  garbage_size : N;
  cmap : list (N * list clause);
  unit_clauses : list (option unit_clause);
  unit_conflict : option (N * N);
}.

(** [ClauseHasher] (hash.rs:12-23).  [shuffle] and [rehashes] are not in the
    code: the iteration order of the hash map in the [n]-th rehash is given by
    [shuffle n], an arbitrary reordering of the entries. *)
Record hasher := Hasher {
  hash_bits : N;
  buffered_names : list (N * option N);
  rename_flag : bool;
  solver_names : N -> option N;
  shuffle : N -> list (N * list clause) -> list (N * list clause);
  rehashes : N;
}.

(** variables.rs:13-52. *)
Inductive sampling_mode := Sample | Witness | Hide.
Record var_data := VD { vd_user : option N; vd_mode : sampling_mode }.
Record variables := Variables {
  lit_count : list N;            (* [lit_data], the field [clause_count] *)
  var_datas : list var_data;
  used_user_vars : list N;       (* a hash set *)
}.

(** [RupCheck] (rup.rs:24-34).  The trail is kept with the last element first.
    [trace] holds the ids of the trace items only: the edges and the [unused]
    flags (rup.rs:18-22, 178-185) are written but never read by anything else. *)
Record rup_check := Rup {
  r_trail : list (N * option unit_clause);
  r_trace : list N;
  r_trace_ids : list N;
}.

(** [CheckerState] (state.rs:30-47). *)
Record checker_state := CState {
  s_step : N;
  s_unsat : bool;
  s_ended : bool;
  s_prev_id : option N;
  s_prev_lits : list N;
  s_assumptions : list N;
}.

(** [CheckedProofStep] (processing.rs:19-104). *)
Record checked_user_var := CUV { cuv_var : N; cuv_witness : bool; cuv_new : bool }.
Inductive checked_step :=
| KUserVar (var : N) (user_var : option checked_user_var)
| KAddClause (id : N) (clause : list N)
| KDuplicatedClause (id same_as_id : N) (clause : list N)
| KTautologicalClause (id : N) (clause : list N)
| KAtClause (id : N) (redundant : bool) (clause : list N) (propagations : list N)
| KDeleteClause (id : N) (clause : list N)
| KDeleteAtClause (id : N) (keep_as_redundant : bool) (clause propagations : list N)
| KDeleteRatClause (id : N) (keep_as_redundant : bool) (clause : list N) (pivot : N)
| KMakeIrredundant (id : N) (clause : list N)
| KModel (assignment : list N)
| KAssumptions (assumptions : list N)
| KFailedAssumptions (failed_core propagations : list N).

(** [ProofTranscriptStep] (transcript.rs:14-24). *)
Inductive transcript_item :=
| TWitnessVar (var : N)
| TSampleVar (var : N)
| THideVar (var : N)
| TObserveInternalVar (var : N)
| TAddClause (clause : list N)
| TUnsat
| TModel (assignment : list N)
| TAssume (assumptions : list N)
| TFailedAssumptions (failed_core : list N).

(** [Processing] (processing.rs:147-154).  Of the registered processors the
    model keeps whether there are any, the sequence of steps given to them, and
    after which number of deliveries one of them reports an error (an arbitrary
    function).  The same for transcript processors. *)
Record processing := Processing {
  has_processors : bool;
  has_transcripts : bool;
  proc_fail : nat -> bool;
  trans_fail : nat -> bool;
  proc_log : list checked_step;
  trans_log : list transcript_item;
}.

(** [Context] (context.rs:31-46). *)
Record ctx := Ctx {
  c_state : checker_state;
  c_hasher : hasher;
  c_clauses : clauses;
  c_proc : processing;
  c_rup : rup_check;
  c_vars : variables;
}.

(** [CheckerError] (lib.rs:38-63), one constructor for every message. *)
Inductive check_msg :=
| MTautology | MDeletedUserVar | MDeletedHasClauses | MSampleHidden | MNotSatisfied
| MNotSubsumed | MModelConflictsUnit | MModelConflict | MModelNoAssumption
| MModelClause | MCoreNotAssumed | MDeleteSmall | MDeleteUnknown | MDeleteIsIrredundant
| MDeleteIsRedundant | MNoClauseForHash | MATFailed | MNotSampling | MUserNameTwice
| MUserNameHidden | MUserNameChange | MNoUserName.
Inductive checker_error :=
| EProofIncomplete (step : N)
| EParseError (step : N)
| ECheckFailed (step : N) (msg : check_msg)
| EProcessorError.

Inductive res (A : Type) :=
| ROk (a : A) (c : ctx)
| RErr (e : checker_error) (c : ctx)
| RPanic.
Arguments ROk {A} a c.
Arguments RErr {A} e c.
Arguments RPanic {A}.

Definition bind {A B} (r : res A) (k : A -> ctx -> res B) : res B :=
  match r with
  | ROk a c => k a c
  | RErr e c => RErr e c
  | RPanic => RPanic
  end.
(** a pure computation that may panic *)
Definition obind {A B} (r : option A) (k : A -> res B) : res B :=
  match r with Some a => k a | None => RPanic end.
Definition failed {A} (c : ctx) (m : check_msg) : res A :=
  RErr (ECheckFailed (s_step (c_state c)) m) c.

(** Field updates. *)
Definition with_state c x := Ctx x (c_hasher c) (c_clauses c) (c_proc c) (c_rup c) (c_vars c).
Definition with_hasher c x := Ctx (c_state c) x (c_clauses c) (c_proc c) (c_rup c) (c_vars c).
Definition with_clauses c x := Ctx (c_state c) (c_hasher c) x (c_proc c) (c_rup c) (c_vars c).
Definition with_proc c x := Ctx (c_state c) (c_hasher c) (c_clauses c) x (c_rup c) (c_vars c).
Definition with_rup c x := Ctx (c_state c) (c_hasher c) (c_clauses c) (c_proc c) x (c_vars c).
Definition with_vars c x := Ctx (c_state c) (c_hasher c) (c_clauses c) (c_proc c) (c_rup c) x.

Definition with_next_id cl x := Clauses x (literal_buffer cl) (garbage_size cl) (cmap cl) (unit_clauses cl) (unit_conflict cl).
Definition with_cmap cl x := Clauses (next_clause_id cl) (literal_buffer cl) (garbage_size cl) x (unit_clauses cl) (unit_conflict cl).
Definition with_units cl x := Clauses (next_clause_id cl) (literal_buffer cl) (garbage_size cl) (cmap cl) x (unit_conflict cl).
Definition with_conflict cl x := Clauses (next_clause_id cl) (literal_buffer cl) (garbage_size cl) (cmap cl) (unit_clauses cl) x.
Definition with_garbage cl x := Clauses (next_clause_id cl) (literal_buffer cl) x (cmap cl) (unit_clauses cl) (unit_conflict cl).
Definition with_buffer cl x := Clauses (next_clause_id cl) x (garbage_size cl) (cmap cl) (unit_clauses cl) (unit_conflict cl).

Definition with_step s x := CState x (s_unsat s) (s_ended s) (s_prev_id s) (s_prev_lits s) (s_assumptions s).
Definition with_unsat s := CState (s_step s) true (s_ended s) (s_prev_id s) (s_prev_lits s) (s_assumptions s).
Definition with_ended s := CState (s_step s) (s_unsat s) true (s_prev_id s) (s_prev_lits s) (s_assumptions s).
Definition with_prev s i l := CState (s_step s) (s_unsat s) (s_ended s) i l (s_assumptions s).
Definition with_assumptions s x := CState (s_step s) (s_unsat s) (s_ended s) (s_prev_id s) (s_prev_lits s) x.

(** * variables.rs *)

(** [VarData::default] (variables.rs:33-40). *)
Definition vd_default : var_data := VD None Sample.

(** [ensure_var] (variables.rs:73-87). *)
Definition ensure_var (cl : clauses) (vs : variables) (v : N) : clauses * variables :=
  if vlen (var_datas vs) <=? v then
    (with_units cl (vresize (unit_clauses cl) (v + 1) None),
     Variables (vresize (lit_count vs) ((v + 1) * 2) 0)
               (vresize (var_datas vs) (v + 1) vd_default)
               (used_user_vars vs))
  else (cl, vs).

(** [for &lit in lits { ensure_var(lit.var()) }] (clauses.rs:239-241, rup.rs:66-68) *)
Definition ensure_vars (cl : clauses) (vs : variables) (lits : list N) : clauses * variables :=
  fold_left (fun p l => ensure_var (fst p) (snd p) (lit_var l)) lits (cl, vs).

Definition ctx_ensure_var (c : ctx) (v : N) : ctx :=
  let '(cl, vs) := ensure_var (c_clauses c) (c_vars c) v in with_vars (with_clauses c cl) vs.

Definition mode_eqb (a b : sampling_mode) : bool :=
  match a, b with
  | Sample, Sample | Witness, Witness | Hide, Hide => true
  | _, _ => false
  end.

(** [ensure_sampling_var] (variables.rs:55-70). *)
Definition ensure_sampling_var (c : ctx) (v : N) : res unit :=
  let c := ctx_ensure_var c v in
  match vget (var_datas (c_vars c)) v with
  | None => RPanic
  | Some d => if mode_eqb (vd_mode d) Sample then ROk tt c else failed c MNotSampling
  end.

(** clauses.rs:176-178, state.rs:111-113 *)
Fixpoint ensure_sampling_vars (c : ctx) (lits : list N) : res unit :=
  match lits with
  | [] => ROk tt c
  | l :: r => bind (ensure_sampling_var c (lit_var l)) (fun _ c => ensure_sampling_vars c r)
  end.

(** * processing.rs and transcript.rs *)

(** [user_from_proof_var] (processing.rs:120-137). *)
Definition user_from_proof_var (vs : variables) (v : N) : option N :=
  match vget (var_datas vs) v with
  | None => None
  | Some d =>
      match vd_user d with
      | Some u => Some u
      | None => if mode_eqb (vd_mode d) Sample then Some v else None
      end
  end.

(** the [expect]s of transcript.rs:77-82, 105-110, 118-123 *)
Fixpoint map_user (vs : variables) (lits : list N) : option (list N) :=
  match lits with
  | [] => Some []
  | l :: r =>
      match user_from_proof_var vs (lit_var l), map_user vs r with
      | Some u, Some r' => Some (lit_from_var u (is_positive l) :: r')
      | _, _ => None
      end
  end.

(** transcript.rs:95-98 *)
Definition flat_map_user (vs : variables) (lits : list N) : list N :=
  flat_map (fun l => match user_from_proof_var vs (lit_var l) with
                     | Some u => [lit_from_var u (is_positive l)]
                     | None => []
                     end) lits.

(** [Transcript::transcript_step] (transcript.rs:40-132); [None] is a panic. *)
Definition transcript_step (vs : variables) (s : checked_step) : option (option transcript_item) :=
  match s with
  | KUserVar v None =>
      match user_from_proof_var vs v with
      | Some u => Some (Some (THideVar u))
      | None => None
      end
  | KUserVar _ (Some (CUV u witness new)) =>
      Some (match witness, new with
            | false, true => None
            | true, true => Some (TObserveInternalVar u)
            | true, false => Some (TWitnessVar u)
            | false, false => Some (TSampleVar u)
            end)
  | KAddClause _ clause | KDuplicatedClause _ _ clause | KTautologicalClause _ clause =>
      match map_user vs clause with Some l => Some (Some (TAddClause l)) | None => None end
  | KAtClause _ _ clause _ => Some (match clause with [] => Some TUnsat | _ => None end)
  | KModel assignment => Some (Some (TModel (flat_map_user vs assignment)))
  | KAssumptions l => match map_user vs l with Some l => Some (Some (TAssume l)) | None => None end
  | KFailedAssumptions core _ =>
      match map_user vs core with Some l => Some (Some (TFailedAssumptions l)) | None => None end
  | KDeleteClause _ _ | KDeleteAtClause _ _ _ _ | KDeleteRatClause _ _ _ _ | KMakeIrredundant _ _ => Some None
  end.

(** [Processing::step], [process_step] (processing.rs:158-189). *)
Definition process_step (c : ctx) (s : checked_step) : res unit :=
  let p := c_proc c in
  let log := proc_log p ++ [s] in
  if has_processors p && proc_fail p (length log) then
    RErr EProcessorError (with_proc c (Processing (has_processors p) (has_transcripts p) (proc_fail p) (trans_fail p) log (trans_log p)))
  else if has_transcripts p then
    match transcript_step (c_vars c) s with
    | None => RPanic
    | Some None =>
        ROk tt (with_proc c (Processing (has_processors p) (has_transcripts p) (proc_fail p) (trans_fail p) log (trans_log p)))
    | Some (Some t) =>
        let tlog := trans_log p ++ [t] in
        let c' := with_proc c (Processing (has_processors p) (has_transcripts p) (proc_fail p) (trans_fail p) log tlog) in
        if trans_fail p (length tlog) then RErr EProcessorError c' else ROk tt c'
    end
  else ROk tt (with_proc c (Processing (has_processors p) (has_transcripts p) (proc_fail p) (trans_fail p) log (trans_log p))).

(** [add_user_mapping] (variables.rs:90-154). *)
Definition add_user_mapping (c : ctx) (global user : N) : res unit :=
  let c := ctx_ensure_var c global in
  let vs := c_vars c in
  if (vlen (var_datas vs) <=? user) || existsb (N.eqb user) (used_user_vars vs) then failed c MUserNameTwice
  else match vget (var_datas vs) global with
  | None => RPanic
  | Some d =>
      if mode_eqb (vd_mode d) Hide then failed c MUserNameHidden
      else match vd_user d with
      | Some _ => failed c MUserNameChange
      | None =>
          let vs' := Variables (lit_count vs) (vset (var_datas vs) global (VD (Some user) (vd_mode d)))
                               (user :: used_user_vars vs) in
          process_step (with_vars c vs')
            (KUserVar global (Some (CUV user (mode_eqb (vd_mode d) Witness) true)))
      end
  end.

(** [remove_user_mapping] (variables.rs:157-195). *)
Definition remove_user_mapping (c : ctx) (global : N) : res unit :=
  let c := ctx_ensure_var c global in
  match vget (var_datas (c_vars c)) global with
  | None => RPanic
  | Some d =>
      match vd_user d with
      | None => failed c MNoUserName
      | Some user =>
          bind (process_step c (KUserVar global None)) (fun _ c =>
            let vs := c_vars c in
            ROk tt (with_vars c (Variables (lit_count vs)
                     (vset (var_datas vs) global (VD None Hide))
                     (filter (fun u => negb (N.eqb user u)) (used_user_vars vs)))))
      end
  end.

(** * hash.rs *)

(** [ClauseHasher::clause_hash] (hash.rs:38-48).  The subtraction and the shift
    overflow (panic in a build with overflow checks) unless
    [1 <= hash_bits <= 64]. *)
Definition named_hash (names : N -> option N) (l : N) : N :=
  match names (lit_var l) with
  | Some v => lit_hash (lit_from_var v (is_positive l))
  | None => lit_code_hash (l + max_count * 2)
  end.
Definition hasher_hash (h : hasher) (lits : list N) : option N :=
  if (1 <=? hash_bits h) && (hash_bits h <=? 64) then
    Some (N.shiftr (fold_left (fun hash l => N.lxor hash (named_hash (solver_names h) l)) lits 0)
                   (64 - hash_bits h))
  else None.

(** Hash map operations: lookup, [entry(k).or_default()] followed by replacing
    the value, and [remove]. *)
Fixpoint mget (m : list (N * list clause)) (k : N) : option (list clause) :=
  match m with
  | [] => None
  | (k', v) :: r => if k =? k' then Some v else mget r k
  end.
Fixpoint mset (m : list (N * list clause)) (k : N) (x : list clause) : list (N * list clause) :=
  match m with
  | [] => [(k, x)]
  | (k', v) :: r => if k =? k' then (k', x) :: r else (k', v) :: mset r k x
  end.
Fixpoint mrem (m : list (N * list clause)) (k : N) : list (N * list clause) :=
  match m with
  | [] => []
  | (k', v) :: r => if k =? k' then r else (k', v) :: mrem r k
  end.
Definition bucket (m : list (N * list clause)) (k : N) : list clause :=
  match mget m k with Some v => v | None => [] end.

(** [ClauseLits::new] (clauses.rs:29-52). *)
Definition clause_lits_new (lits buffer : list N) : option (clause_lits * list N) :=
  let length := N.of_nat (length lits) in
  if 3 <? length then
    if vlen buffer <? 2^32 then Some (CLits (u32 length) [vlen buffer; 0; 0], buffer ++ lits) else None
  else Some (CLits (u32 length) (firstn 3 (lits ++ [0; 0; 0])), buffer).

(** [ClauseLits::slice] (clauses.rs:55-69). *)
Definition slice (cl : clause_lits) (buffer : list N) : option (list N) :=
  if 3 <? cl_length cl then
    match cl_inline cl with
    | i :: _ =>
        if i + cl_length cl <=? vlen buffer
        then Some (firstn (N.to_nat (cl_length cl)) (skipn (N.to_nat i) buffer)) else None
    | [] => None
    end
  else Some (firstn (N.to_nat (cl_length cl)) (cl_inline cl)).

(** [ClauseLits::buffer_used] (clauses.rs:72-78). *)
Definition buffer_used (cl : clause_lits) : N := if 3 <? cl_length cl then cl_length cl else 0.

(** hash.rs:55-61: apply the buffered names. *)
Definition fupd (f : N -> option N) (k : N) (x : option N) : N -> option N :=
  fun k' => if k' =? k then x else f k'.
Definition apply_names (names : N -> option N) (buf : list (N * option N)) : N -> option N :=
  fold_left (fun f p => fupd f (fst p) (snd p)) buf names.

(** hash.rs:66-72: re-insert every clause. *)
Fixpoint rehash_insert (h : hasher) (buffer : list N) (cs : list clause) (m : list (N * list clause))
  : option (list (N * list clause)) :=
  match cs with
  | [] => Some m
  | c :: r =>
      match slice (cc_lits c) buffer with
      | None => None
      | Some lits =>
          match hasher_hash h lits with
          | None => None
          | Some k => rehash_insert h buffer r (mset m k (bucket m k ++ [c]))
          end
      end
  end.

(** [rehash] (hash.rs:52-73). *)
Definition rehash (h : hasher) (cl : clauses) : option (hasher * clauses) :=
  let h' := Hasher (hash_bits h) [] false (apply_names (solver_names h) (buffered_names h))
                   (shuffle h) (rehashes h + 1) in
  match rehash_insert h' (literal_buffer cl)
          (flat_map snd (shuffle h (rehashes h) (cmap cl))) [] with
  | None => None
  | Some m => Some (h', with_cmap cl m)
  end.

(** * clauses.rs *)

(** [Clauses::lit_value] (clauses.rs:146-149); the outer [None] is a panic. *)
Definition lit_value (us : list (option unit_clause)) (l : N) : option (option (bool * unit_clause)) :=
  match vget us (lit_var l) with
  | None => None
  | Some None => Some None
  | Some (Some u) => Some (Some (xorb (uc_value u) (is_negative l), u))
  end.

(** clauses.rs:111-123. *)
Inductive store_result := SNew | SDuplicate | SNewlyIrredundant.
Inductive delete_result := DUnchanged | DNewlyRedundant | DRemoved.

(** [store_unit_clause] (clauses.rs:300-339). *)
Definition store_unit_clause (st : checker_state) (cl : clauses) (l : N)
  : option (checker_state * clauses * (N * store_result)) :=
  match lit_value (unit_clauses cl) l with
  | None => None
  | Some (Some (true, UC (Global id) _)) => Some (st, cl, (id, SDuplicate))
  | Some (Some (false, UC (Global conflicting_id) _)) =>
      let id := next_clause_id cl in
      Some (with_unsat st, with_next_id (with_conflict cl (Some (conflicting_id, id))) (id + 1), (id, SNew))
  | Some (Some (_, _)) => None
  | Some None =>
      let id := next_clause_id cl in
      Some (st, with_next_id (with_units cl (vset (unit_clauses cl) (lit_var l) (Some (UC (Global id) (is_positive l))))) (id + 1),
            (id, SNew))
  end.

Fixpoint lits_eqb (a b : list N) : bool :=
  match a, b with
  | [], [] => true
  | x :: a, y :: b => (x =? y) && lits_eqb a b
  | _, _ => false
  end.

(** clauses.rs:259-272: search the candidates and count the new copy.  [Some
    (inl ...)] if found, [Some (inr tt)] if not, [None] for a panic. *)
Fixpoint store_candidate (buffer : list N) (cs : list clause) (lits : list N) (redundant : bool)
  : option (list clause * (N * store_result) + unit) :=
  match cs with
  | [] => Some (inr tt)
  | c :: r =>
      match slice (cc_lits c) buffer with
      | None => None
      | Some ls =>
          if lits_eqb ls lits then
            let result := if negb redundant && (cc_irr c =? 0) then SNewlyIrredundant else SDuplicate in
            let n := (if redundant then cc_red c else cc_irr c) + 1 in
            if n <? 2^32 then
              Some (inl ((if redundant then CC (cc_id c) (cc_irr c) n (cc_lits c)
                          else CC (cc_id c) n (cc_red c) (cc_lits c)) :: r, (cc_id c, result)))
            else None
          else match store_candidate buffer r lits redundant with
               | None => None
               | Some (inl (r', x)) => Some (inl (c :: r', x))
               | Some (inr tt) => Some (inr tt)
               end
      end
  end.

(** [lit_data[lit.code()].clause_count += 1] (clauses.rs:287-289) *)
Fixpoint count_up (counts lits : list N) : option (list N) :=
  match lits with
  | [] => Some counts
  | l :: r => match vget counts l with None => None | Some n => count_up (vset counts l (n + 1)) r end
  end.
(** and [-= 1] (clauses.rs:410-414), which underflows at 0 *)
Fixpoint count_down (counts lits : list N) : option (list N) :=
  match lits with
  | [] => Some counts
  | l :: r =>
      match vget counts l with
      | None => None
      | Some n => if n =? 0 then None else count_down (vset counts l (n - 1)) r
      end
  end.
Definition with_counts vs x := Variables x (var_datas vs) (used_user_vars vs).

(** [store_clause] (clauses.rs:228-294). *)
Definition store_clause (st : checker_state) (h : hasher) (cl : clauses) (vs : variables)
    (lits : list N) (redundant : bool)
  : option (checker_state * clauses * variables * (N * store_result)) :=
  let '(cl, vs) := ensure_vars cl vs lits in
  match lits with
  | [] =>
      let id := next_clause_id cl in
      Some (with_unsat st, with_next_id cl (id + 1), vs, (id, SNew))
  | [l] =>
      match store_unit_clause st cl l with
      | None => None
      | Some (st, cl, x) => Some (st, cl, vs, x)
      end
  | _ =>
      match hasher_hash h lits with
      | None => None
      | Some k =>
          let cs := bucket (cmap cl) k in
          match store_candidate (literal_buffer cl) cs lits redundant with
          | None => None
          | Some (inl (cs', x)) => Some (st, with_cmap cl (mset (cmap cl) k cs'), vs, x)
          | Some (inr tt) =>
              let id := next_clause_id cl in
              match clause_lits_new lits (literal_buffer cl) with
              | None => None
              | Some (ls, buffer) =>
                  let c := CC id (if redundant then 0 else 1) (if redundant then 1 else 0) ls in
                  match count_up (lit_count vs) lits with
                  | None => None
                  | Some counts =>
                      Some (st, with_next_id (with_buffer (with_cmap cl (mset (cmap cl) k (cs ++ [c]))) buffer) (id + 1),
                            with_counts vs counts, (id, SNew))
                  end
              end
          end
      end
  end.

(** the [retain] closure (clauses.rs:378-404): remaining candidates, [found],
    result and added garbage. *)
Fixpoint delete_candidate (buffer : list N) (cs : list clause) (lits : list N) (redundant : bool)
  : option (list clause * bool * option (N * delete_result) * N) :=
  match cs with
  | [] => Some ([], false, None, 0)
  | c :: r =>
      match slice (cc_lits c) buffer with
      | None => None
      | Some ls =>
          if lits_eqb ls lits then
            let n := if redundant then cc_red c else cc_irr c in
            if n =? 0 then Some (cs, true, None, 0)
            else
              let c' := if redundant then CC (cc_id c) (cc_irr c) (n - 1) (cc_lits c)
                        else CC (cc_id c) (n - 1) (cc_red c) (cc_lits c) in
              if (cc_irr c' =? 0) && (cc_red c' =? 0) then
                Some (r, true, Some (cc_id c, DRemoved), buffer_used (cc_lits c))
              else
                Some (c' :: r, true,
                      Some (cc_id c, if negb redundant && (cc_irr c' =? 0) then DNewlyRedundant else DUnchanged), 0)
          else match delete_candidate buffer r lits redundant with
               | None => None
               | Some (r', f, x, g) => Some (c :: r', f, x, g)
               end
      end
  end.

(** clauses.rs:443-449: the entries of one bucket, then of all *)
Fixpoint gc_candidates (old : list N) (cs : list clause) (new : list N) : option (list clause * list N) :=
  match cs with
  | [] => Some ([], new)
  | c :: r =>
      match slice (cc_lits c) old with
      | None => None
      | Some lits =>
          match clause_lits_new lits new with
          | None => None
          | Some (ls, new) =>
              match gc_candidates old r new with
              | None => None
              | Some (r', new) => Some (CC (cc_id c) (cc_irr c) (cc_red c) ls :: r', new)
              end
          end
      end
  end.
Fixpoint gc_map (old : list N) (m : list (N * list clause)) (new : list N)
  : option (list (N * list clause) * list N) :=
  match m with
  | [] => Some ([], new)
  | (k, cs) :: r =>
      match gc_candidates old cs new with
      | None => None
      | Some (cs', new) =>
          match gc_map old r new with
          | None => None
          | Some (r', new) => Some ((k, cs') :: r', new)
          end
      end
  end.

(** [collect_garbage] (clauses.rs:433-453).  The map is iterated in list order;
    the order only affects the positions in the new buffer. *)
Definition collect_garbage (cl : clauses) : option clauses :=
  if garbage_size cl * 2 <=? vlen (literal_buffer cl) then Some cl
  else match gc_map (literal_buffer cl) (cmap cl) [] with
       | None => None
       | Some (m, new) => Some (with_garbage (with_buffer (with_cmap cl m) new) 0)
       end.

(** [delete_clause] (clauses.rs:347-430).  [inr] is a check error. *)
Definition delete_clause (h : hasher) (cl : clauses) (vs : variables) (lits : list N) (redundant : bool)
  : option (clauses * variables * ((N * delete_result) + check_msg)) :=
  if Nat.ltb (length lits) 2 then Some (cl, vs, inr MDeleteSmall)
  else match hasher_hash h lits with
  | None => None
  | Some k =>
      match delete_candidate (literal_buffer cl) (bucket (cmap cl) k) lits redundant with
      | None => None
      | Some (cs', found, result, garbage) =>
          let m := match cs' with [] => mrem (cmap cl) k | _ => mset (cmap cl) k cs' end in
          let cl := with_garbage (with_cmap cl m) (garbage_size cl + garbage) in
          match result with
          | Some (id, r) =>
              let counts := match r with
                            | DRemoved => count_down (lit_count vs) lits
                            | _ => Some (lit_count vs)
                            end in
              match counts with
              | None => None
              | Some counts =>
                  match collect_garbage cl with
                  | None => None
                  | Some cl => Some (cl, with_counts vs counts, inl (id, r))
                  end
              end
          | None =>
              Some (cl, vs, inr (if negb found then MDeleteUnknown
                                 else if redundant then MDeleteIsIrredundant else MDeleteIsRedundant))
          end
      end
  end.

(** [store_clause] in a context *)
Definition ctx_store_clause (c : ctx) (lits : list N) (redundant : bool) : res (N * store_result) :=
  obind (store_clause (c_state c) (c_hasher c) (c_clauses c) (c_vars c) lits redundant) (fun '(st, cl, vs, x) =>
    ROk x (with_vars (with_clauses (with_state c st) cl) vs)).

(** [next_clause_id += 1] (clauses.rs:172, 215) *)
Definition skip_id (c : ctx) : ctx :=
  with_clauses c (with_next_id (c_clauses c) (next_clause_id (c_clauses c) + 1)).

(** [add_clause] (clauses.rs:153-220). *)
Definition add_clause (c : ctx) (clause : list N) : res unit :=
  if s_unsat (c_state c) then ROk tt c
  else
    let '(tmp, taut) := copy_canonical clause in
    if taut then
      bind (process_step c (KTautologicalClause (next_clause_id (c_clauses c)) tmp)) (fun _ c => ROk tt (skip_id c))
    else
      bind (ensure_sampling_vars c tmp) (fun _ c =>
      bind (ctx_store_clause c tmp false) (fun '(id, added) c =>
        match added with
        | SNew => process_step c (KAddClause id tmp)
        | _ =>
            bind (match added with
                  | SNewlyIrredundant => process_step c (KMakeIrredundant id tmp)
                  | _ => ROk tt c
                  end) (fun _ c =>
            bind (process_step c (KDuplicatedClause (next_clause_id (c_clauses c)) id tmp)) (fun _ c =>
              ROk tt (skip_id c)))
        end)).

(** * rup.rs *)

(** The part of the state the propagation loop works on. *)
Record rup_state := RS {
  rs_units : list (option unit_clause);
  rs_trail : list (N * option unit_clause);
  rs_trace : list N;
}.

(** [rup.trail.push((lit, unit_clauses[..])); unit_clauses[..] = Some(..)] *)
Definition rup_assign (r : rup_state) (l : N) (u : unit_clause) : option rup_state :=
  match vget (rs_units r) (lit_var l) with
  | None => None
  | Some old => Some (RS (vset (rs_units r) (lit_var l) (Some u)) ((l, old) :: rs_trail r) (rs_trace r))
  end.
Definition rup_trace (r : rup_state) (id : N) : rup_state :=
  RS (rs_units r) (rs_trail r) (rs_trace r ++ [id]).

(** rup.rs:84-92: set all literals of the clause to false. *)
Fixpoint rup_falsify (r : rup_state) (lits : list N) : option rup_state :=
  match lits with
  | [] => Some r
  | l :: rest =>
      match rup_assign r l (UC InClause (is_negative l)) with
      | None => None
      | Some r => rup_falsify r rest
      end
  end.

(** rup.rs:72-82: a literal of the clause that is true already. *)
Fixpoint rup_true_lit (us : list (option unit_clause)) (lits : list N) : option (option N) :=
  match lits with
  | [] => Some None
  | l :: r =>
      match lit_value us l with
      | None => None
      | Some (Some (true, u)) => match uc_id u with Global id => Some (Some id) | _ => None end
      | Some _ => rup_true_lit us r
      end
  end.

(** rup.rs:112-141: the literals of a candidate.  [satisfied = true] stands for
    [continue 'candidates]. *)
Fixpoint rup_lits (r : rup_state) (lits : list N) (count : N) (unassigned : option N)
  : option (rup_state * bool * N * option N) :=
  match lits with
  | [] => Some (r, false, count, unassigned)
  | l :: rest =>
      match lit_value (rs_units r) l with
      | None => None
      | Some (Some (true, _)) => Some (r, true, count, unassigned)
      | Some (Some (false, u)) =>
          match uc_id u with
          | Global id =>
              match rup_assign r l (UC (TracePos (vlen (rs_trace r))) (is_negative l)) with
              | None => None
              | Some r => rup_lits (rup_trace r id) rest count unassigned
              end
          | _ => rup_lits r rest count unassigned
          end
      | Some None => rup_lits r rest (count + 1) (Some l)
      end
  end.

(** rup.rs:105-174: the candidates for one hash; [true] if a conflict was found. *)
Fixpoint rup_candidates (buffer : list N) (r : rup_state) (cs : list clause) : option (rup_state * bool) :=
  match cs with
  | [] => Some (r, false)
  | c :: rest =>
      match slice (cc_lits c) buffer with
      | None => None
      | Some lits =>
          match rup_lits r lits 0 None with
          | None => None
          | Some (r, true, _, _) => rup_candidates buffer r rest
          | Some (r, false, count, unassigned) =>
              match unassigned with
              | None => Some (rup_trace r (cc_id c), true)
              | Some l =>
                  if count =? 1 then
                    match rup_assign r l (UC (TracePos (vlen (rs_trace r))) (is_positive l)) with
                    | None => None
                    | Some r => rup_candidates buffer (rup_trace r (cc_id c)) rest
                    end
                  else rup_candidates buffer r rest
              end
          end
      end
  end.

(** rup.rs:94-175: all hashes. *)
Inductive rup_result := RupConflict | RupOpen | RupNoClause.
Fixpoint rup_hashes (m : list (N * list clause)) (buffer : list N) (r : rup_state) (hashes : list N)
  : option (rup_state * rup_result) :=
  match hashes with
  | [] => Some (r, RupOpen)
  | k :: rest =>
      match bucket m k with
      | [] => Some (r, RupNoClause)
      | cs =>
          match rup_candidates buffer r cs with
          | None => None
          | Some (r, true) => Some (r, RupConflict)
          | Some (r, false) => rup_hashes m buffer r rest
          end
      end
  end.

(** rup.rs:190-193. *)
Fixpoint rup_undo (us : list (option unit_clause)) (trail : list (N * option unit_clause)) : option (list (option unit_clause)) :=
  match trail with
  | [] => Some us
  | (l, old) :: rest =>
      match vget us (lit_var l) with
      | None => None
      | Some _ => rup_undo (vset us (lit_var l) old) rest
      end
  end.

(** [check_clause_with_hashes] (rup.rs:39-203). *)
Definition check_clause_with_hashes (c : ctx) (lits hashes : list N) : res unit :=
  obind (if rename_flag (c_hasher c) then rehash (c_hasher c) (c_clauses c)
         else Some (c_hasher c, c_clauses c)) (fun '(h, cl) =>
  let c := with_clauses (with_hasher c h) cl in
  match r_trail (c_rup c) with
  | _ :: _ => RPanic
  | [] =>
      let '(cl, vs) := ensure_vars (c_clauses c) (c_vars c) lits in
      let ids := r_trace_ids (c_rup c) in
      let c := with_rup (with_vars (with_clauses c cl) vs) (Rup [] [] ids) in
      obind (rup_true_lit (unit_clauses cl) lits) (fun true_lit =>
      match true_lit with
      | Some id => ROk tt (with_rup c (Rup [] [] [id]))
      | None =>
          obind (rup_falsify (RS (unit_clauses cl) [] []) lits) (fun r =>
          obind (rup_hashes (cmap cl) (literal_buffer cl) r hashes) (fun '(r, result) =>
          match result with
          | RupNoClause =>
              failed (with_rup (with_clauses c (with_units cl (rs_units r))) (Rup (rs_trail r) (rs_trace r) ids))
                     MNoClauseForHash
          | _ =>
              obind (rup_undo (rs_units r) (rs_trail r)) (fun us =>
              let c := with_clauses c (with_units cl us) in
              match result with
              | RupConflict =>
                  ROk tt (with_rup c (Rup [] (rs_trace r)
                            (if has_processors (c_proc c) then rs_trace r else ids)))
              | _ => failed (with_rup c (Rup [] (rs_trace r) ids)) MATFailed
              end)
          end))
      end)
  end).

(** * state.rs *)

(** [check_delete_var_step] (state.rs:150-204). *)
Definition check_delete_var_step (c : ctx) (v : N) : res unit :=
  let c := ctx_ensure_var c v in
  obind (vget (var_datas (c_vars c)) v) (fun d =>
  match vd_user d with
  | Some _ => failed c MDeletedUserVar
  | None =>
      obind (vget (lit_count (c_vars c)) (lit_from_var v false)) (fun n0 =>
      if 0 <? n0 then failed c MDeletedHasClauses
      else obind (vget (lit_count (c_vars c)) (lit_from_var v true)) (fun n1 =>
      if 0 <? n1 then failed c MDeletedHasClauses
      else obind (vget (unit_clauses (c_clauses c)) v) (fun u =>
      bind (match u with
            | None => ROk tt c
            | Some u =>
                match uc_id u with
                | Global id =>
                    let l := lit_from_var v (uc_value u) in
                    bind (process_step c (KDeleteRatClause id false [l] l)) (fun _ c =>
                    ROk tt (with_clauses c (with_units (c_clauses c) (vset (unit_clauses (c_clauses c)) v None))))
                | _ => RPanic
                end
            end) (fun _ c =>
      ROk tt (with_vars c (Variables (lit_count (c_vars c)) (vset (var_datas (c_vars c)) v vd_default)
                                     (used_user_vars (c_vars c)))))))) 
  end).

(** [check_change_sampling_mode] (state.rs:207-257). *)
Definition check_change_sampling_mode (c : ctx) (v : N) (sample : bool) : res unit :=
  let c := ctx_ensure_var c v in
  obind (vget (var_datas (c_vars c)) v) (fun d =>
  let mode := if sample then Sample else Witness in
  if mode_eqb (vd_mode d) mode then ROk tt c
  else
    let vs := c_vars c in
    let c := with_vars c (Variables (lit_count vs) (vset (var_datas vs) v (VD (vd_user d) mode)) (used_user_vars vs)) in
    match vd_user d with
    | Some user => process_step c (KUserVar v (Some (CUV user (negb sample) false)))
    | None => if sample then failed c MSampleHidden else ROk tt c
    end).

(** [check_at_clause_step] (state.rs:260-320). *)
Definition check_at_clause_step (c : ctx) (redundant : bool) (clause hashes : list N) : res unit :=
  let '(tmp, taut) := copy_canonical clause in
  if taut then failed c MTautology
  else
    bind (check_clause_with_hashes c tmp hashes) (fun _ c =>
    bind (ctx_store_clause c tmp redundant) (fun '(id, added) c =>
    let c := if redundant then c else with_state c (with_prev (c_state c) (Some id) tmp) in
    match added with
    | SNew => process_step c (KAtClause id redundant tmp (r_trace_ids (c_rup c)))
    | SNewlyIrredundant => process_step c (KMakeIrredundant id tmp)
    | SDuplicate => ROk tt c
    end)).

(** state.rs:352-372: the id of a global unit that satisfies the clause *)
Fixpoint satisfied_by (us : list (option unit_clause)) (lits : list N) : option (option N) :=
  match lits with
  | [] => Some None
  | l :: r =>
      match lit_value us l with
      | None => None
      | Some (Some (true, UC (Global id) _)) => Some (Some id)
      | Some _ => satisfied_by us r
      end
  end.

(** [subsumed_by_previous_irred_clause] (state.rs:53-58). *)
Definition subsumed_by_previous_irred_clause (st : checker_state) (lits : list N) : bool :=
  match s_prev_id st with
  | None => false
  | Some _ => is_subset (s_prev_lits st) lits true
  end.

(** [check_delete_clause_step] (state.rs:323-429). *)
Definition check_delete_clause_step (c : ctx) (clause : list N) (proof : del_proof) : res unit :=
  let '(tmp, taut) := copy_canonical clause in
  if taut then failed c MTautology
  else
    bind (match proof with
          | DRedundant => ROk None c
          | DSatisfied =>
              obind (satisfied_by (unit_clauses (c_clauses c)) tmp) (fun s =>
              match s with
              | Some id => ROk (Some id) c
              | None => failed c MNotSatisfied
              end)
          | DSimplified =>
              if subsumed_by_previous_irred_clause (c_state c) tmp then ROk (s_prev_id (c_state c)) c
              else failed c MNotSubsumed
          end) (fun subsumed_by c =>
    let c := with_state c (with_prev (c_state c) None []) in
    let redundant := match proof with DRedundant => true | _ => false end in
    obind (delete_clause (c_hasher c) (c_clauses c) (c_vars c) tmp redundant) (fun '(cl, vs, result) =>
    let c := with_vars (with_clauses c cl) vs in
    match result with
    | inr msg => failed c msg
    | inl (id, deleted) =>
        if redundant then
          match deleted with
          | DRemoved => process_step c (KDeleteClause id tmp)
          | DUnchanged => ROk tt c
          | DNewlyRedundant => RPanic
          end
        else
          match deleted with
          | DUnchanged => ROk tt c
          | _ =>
              match subsumed_by with
              | None => RPanic
              | Some s =>
                  process_step c (KDeleteAtClause id (match deleted with DNewlyRedundant => true | _ => false end) tmp [s])
              end
          end
    end)).

(** [check_unit_clauses_step] (state.rs:432-471). *)
Fixpoint check_unit_clauses_step (c : ctx) (units : list (N * N)) : res unit :=
  match units with
  | [] => ROk tt c
  | (l, hash) :: rest =>
      let c := ctx_ensure_var c (lit_var l) in
      bind (check_clause_with_hashes c [l] [hash]) (fun _ c =>
      obind (store_unit_clause (c_state c) (c_clauses c) l) (fun '(st, cl, (id, added)) =>
      let c := with_clauses (with_state c st) cl in
      bind (match added with
            | SNew => process_step c (KAtClause id false [l] (r_trace_ids (c_rup c)))
            | SDuplicate => ROk tt c
            | SNewlyIrredundant => RPanic
            end) (fun _ c => check_unit_clauses_step c rest)))
  end.

(** state.rs:478-494: [assignments] is the set of the literals so far. *)
Fixpoint model_lits (us : list (option unit_clause)) (assigned model : list N) : option (list N + check_msg) :=
  match model with
  | [] => Some (inl assigned)
  | l :: r =>
      match lit_value us l with
      | None => None
      | Some (Some (false, _)) => Some (inr MModelConflictsUnit)
      | _ => if existsb (N.eqb (lnot l)) assigned then Some (inr MModelConflict)
             else model_lits us (l :: assigned) r
      end
  end.

(** state.rs:505-515 *)
Fixpoint model_clauses (buffer assigned : list N) (cs : list clause) : option bool :=
  match cs with
  | [] => Some true
  | c :: r =>
      match slice (cc_lits c) buffer with
      | None => None
      | Some lits =>
          if existsb (fun l => existsb (N.eqb l) assigned) lits then model_clauses buffer assigned r
          else Some false
      end
  end.

(** [check_model_step] (state.rs:474-520). *)
Definition check_model_step (c : ctx) (model : list N) : res unit :=
  obind (model_lits (unit_clauses (c_clauses c)) [] model) (fun r =>
  match r with
  | inr msg => failed c msg
  | inl assigned =>
      if negb (forallb (fun l => existsb (N.eqb l) assigned) (s_assumptions (c_state c))) then
        failed c MModelNoAssumption
      else
        obind (model_clauses (literal_buffer (c_clauses c)) assigned (flat_map snd (cmap (c_clauses c)))) (fun ok =>
        if ok then process_step c (KModel model) else failed c MModelClause)
  end).

(** [check_failed_assumptions_step] (state.rs:523-576). *)
Definition check_failed_assumptions_step (c : ctx) (core hashes : list N) : res unit :=
  let '(tmp, direct_conflict) := copy_canonical core in
  if negb (is_subset tmp (s_assumptions (c_state c)) false) then failed c MCoreNotAssumed
  else
    bind (if direct_conflict then ROk tt (with_rup c (Rup (r_trail (c_rup c)) (r_trace (c_rup c)) []))
          else check_clause_with_hashes c (map lnot tmp) hashes) (fun _ c =>
    process_step c (KFailedAssumptions tmp (r_trace_ids (c_rup c)))).

(** [check_step] (state.rs:62-147). *)
Definition check_step (c : ctx) (s : proof_step) : res unit :=
  match s with
  | SolverVarName global solver =>
      let h := c_hasher c in
      ROk tt (with_hasher c (Hasher (hash_bits h) (buffered_names h ++ [(global, solver)])
                (match solver with Some _ => true | None => rename_flag h end)
                (solver_names h) (shuffle h) (rehashes h)))
  | UserVarName global (Some user) => add_user_mapping c global user
  | UserVarName global None => remove_user_mapping c global
  | DeleteVar v => check_delete_var_step c v
  | ChangeSamplingMode v sample => check_change_sampling_mode c v sample
  | AddClause clause => add_clause c clause
  | AtClause redundant clause hashes => check_at_clause_step c redundant clause hashes
  | DeleteClause clause proof => check_delete_clause_step c clause proof
  | UnitClauses units => check_unit_clauses_step c units
  | ChangeHashBits bits =>
      let h := c_hasher c in
      obind (rehash (Hasher bits (buffered_names h) (rename_flag h) (solver_names h) (shuffle h) (rehashes h))
                    (c_clauses c)) (fun '(h, cl) => ROk tt (with_clauses (with_hasher c h) cl))
  | Model assignment => check_model_step c assignment
  | Assumptions l =>
      bind (ensure_sampling_vars c l) (fun _ c =>
      let c := with_state c (with_assumptions (c_state c) (fst (copy_canonical l))) in
      process_step c (KAssumptions (s_assumptions (c_state c))))
  | FailedAssumptions core hashes => check_failed_assumptions_step c core hashes
  | End => ROk tt (with_state c (with_ended (c_state c)))
  end.

(** [process_unit_conflicts] (state.rs:626-645). *)
Definition process_unit_conflicts (c : ctx) : res unit :=
  match unit_conflict (c_clauses c) with
  | None => ROk tt c
  | Some (a, b) => process_step c (KAtClause (next_clause_id (c_clauses c)) false [] [a; b])
  end.

(** * lib.rs and internal.rs *)

(** [Checker::new] with the given processors (lib.rs:85-87, 124-133). *)
Definition checker_new (processors transcripts : bool) (pf tf : nat -> bool)
    (shuffle : N -> list (N * list clause) -> list (N * list clause)) : ctx :=
  Ctx (CState 0 false false None [] [])
      (Hasher 64 [] false (fun _ => None) shuffle 0)
      (Clauses 0 [] 0 [] [] None)
      (Processing processors transcripts pf tf [] [])
      (Rup [] [] [])
      (Variables [] [] []).

(** [Checker::add_formula] (lib.rs:96-102). *)
Fixpoint add_formula (c : ctx) (f : list (list N)) : res unit :=
  match f with
  | [] => ROk tt c
  | cl :: r => bind (add_clause c cl) (fun _ c => add_formula c r)
  end.

(** [self_check_step] (internal.rs:23-27). *)
Definition self_check_step (c : ctx) (s : proof_step) : res unit :=
  check_step (with_state c (with_step (c_state c) (s_step (c_state c) + 1))) s.

(** [self_check_delayed_steps] (internal.rs:29-32). *)
Definition self_check_delayed_steps (c : ctx) : res unit := process_unit_conflicts c.

(** [check_proof] (state.rs:579-623) on a buffered reader.  Reading errors
    other than the end of the file are not modelled.  The fuel bounds the number
    of steps; [None] if it is used up. *)
Fixpoint check_proof_loop (fuel : nat) (c : ctx) (r : reader) : option (res unit) :=
  if s_ended (c_state c) then Some (process_unit_conflicts c)
  else
    let c := with_state c (with_step (c_state c) (s_step (c_state c) + 1)) in
    match fuel with
    | O => None
    | S fuel =>
        match parse_step r with
        | POk (s, rest) =>
            match check_step c s with
            | ROk _ c => check_proof_loop fuel c rest
            | RErr e c => Some (RErr e c)
            | RPanic => Some RPanic
            end
        | PEof => Some (RErr (EProofIncomplete (s_step (c_state c))) c)
        | PBad => Some (RErr (EParseError (s_step (c_state c))) c)
        | PPanic => Some RPanic
        end
    end.
Definition check_proof (c : ctx) (r : reader) : option (res unit) :=
  check_proof_loop (S (length (fst r) + length (concat (snd r)))) c r.
