(** Model of the search state of the solver and of unit propagation:
    varisat/src/prop.rs, prop/assignment.rs, prop/graph.rs, prop/watch.rs,
    prop/binary.rs and prop/long.rs.

    Vectors indexed by variables or literals are total maps; an access outside of
    the allocated range would panic and is excluded by the invariant that all
    variables in use are below the variable count.  Casts of lengths to [LitIdx]
    do not truncate, because there are at most [Var::max_count] variables.  The
    literals of a long clause are found through its reference in [s_lits]; how
    they lie in the buffer is the subject of ClauseAlloc.v. *)
From Verif Require Import Spec Lit F32 Vsids.

(** [Reason] and [Conflict] (prop/graph.rs:14-18, 43-46) *)
Inductive reason := RUnit | RBinary (l : N) | RLong (cref : N).
Inductive conflict := CBinary (a b : N) | CLong (cref : N).

(** The parts [Assignment] (prop/assignment.rs:15-18), [Trail] (82-92), [ImplGraph]
    (prop/graph.rs:64-81), [Watchlists] (prop/watch.rs:46-59) and the literals stored in
    [ClauseAlloc].  The depth [LitIdx::max_value()] of removed units is [None]. *)
Record search := Search {
  s_val : N -> option bool;
  s_last : N -> bool;
  s_trail : list N;
  s_head : nat;
  s_decs : list nat;
  s_removed : nat;
  s_reason : N -> reason;
  s_level : N -> nat;
  s_depth : N -> option nat;
  s_lits : N -> list N;
  s_watch : N -> list (N * N);
  s_wen : bool }.

Definition search_default : search :=
  Search (fun _ => None) (fun _ => false) [] 0 [] 0 (fun _ => RUnit) (fun _ => 0%nat)
         (fun _ => Some 0%nat) (fun _ => []) (fun _ => []) true.

Definition with_val s x := Search x (s_last s) (s_trail s) (s_head s) (s_decs s) (s_removed s)
  (s_reason s) (s_level s) (s_depth s) (s_lits s) (s_watch s) (s_wen s).
Definition with_head s x := Search (s_val s) (s_last s) (s_trail s) x (s_decs s) (s_removed s)
  (s_reason s) (s_level s) (s_depth s) (s_lits s) (s_watch s) (s_wen s).
Definition with_decs s x := Search (s_val s) (s_last s) (s_trail s) (s_head s) x (s_removed s)
  (s_reason s) (s_level s) (s_depth s) (s_lits s) (s_watch s) (s_wen s).
Definition with_reason s x := Search (s_val s) (s_last s) (s_trail s) (s_head s) (s_decs s) (s_removed s)
  x (s_level s) (s_depth s) (s_lits s) (s_watch s) (s_wen s).
Definition with_depth s x := Search (s_val s) (s_last s) (s_trail s) (s_head s) (s_decs s) (s_removed s)
  (s_reason s) (s_level s) x (s_lits s) (s_watch s) (s_wen s).
Definition with_lits s x := Search (s_val s) (s_last s) (s_trail s) (s_head s) (s_decs s) (s_removed s)
  (s_reason s) (s_level s) (s_depth s) x (s_watch s) (s_wen s).
Definition with_watch s x := Search (s_val s) (s_last s) (s_trail s) (s_head s) (s_decs s) (s_removed s)
  (s_reason s) (s_level s) (s_depth s) (s_lits s) x (s_wen s).
Definition with_wen s x := Search (s_val s) (s_last s) (s_trail s) (s_head s) (s_decs s) (s_removed s)
  (s_reason s) (s_level s) (s_depth s) (s_lits s) (s_watch s) x.

(** [lit_value], [lit_is_true], [lit_is_false], [lit_is_unk] (assignment.rs:51-65) *)
Definition lvalue (s : search) (l : N) : option bool :=
  option_map (fun b => xorb b (is_negative l)) (s_val s (lit_var l)).
Definition ltrue (s : search) (l : N) : bool :=
  match s_val s (lit_var l) with Some b => Bool.eqb b (is_positive l) | None => false end.
Definition lfalse (s : search) (l : N) : bool :=
  match s_val s (lit_var l) with Some b => Bool.eqb b (is_negative l) | None => false end.
Definition lunk (s : search) (l : N) : bool :=
  match s_val s (lit_var l) with Some _ => false | None => true end.

(** [current_level] (assignment.rs:138-140) *)
Definition clevel (s : search) : nat := length (s_decs s).

(** [new_decision_level] (assignment.rs:133-135) *)
Definition new_decision_level (s : search) : search :=
  with_decs s (s_decs s ++ [length (s_trail s)]).

(** [enqueue_assignment] (assignment.rs:161-179).  Its debug assertion, that the literal is
    unassigned, is not part of release builds. *)
Definition enqueue (s : search) (l : N) (r : reason) : search :=
  Search (upd (s_val s) (lit_var l) (Some (is_positive l))) (s_last s) (s_trail s ++ [l]) (s_head s)
    (s_decs s) (s_removed s)
    (upd (s_reason s) (lit_var l) r)
    (upd (s_level s) (lit_var l) (length (s_decs s)))
    (upd (s_depth s) (lit_var l) (Some (S (length (s_trail s)))))
    (s_lits s) (s_watch s) (s_wen s).

(** The loop of [backtrack] over the end of the trail (assignment.rs:202-207) *)
Fixpoint undo (val : N -> option bool) (last : N -> bool) (vs : vsids) (tl : list N)
  : (N -> option bool) * (N -> bool) * vsids :=
  match tl with
  | [] => (val, last, vs)
  | l :: tl =>
      let vs := vsids_make_available vs (lit_var l) in
      let last := upd last (lit_var l)
                    (match val (lit_var l) with Some b => b | None => false end) in
      undo (upd val (lit_var l) None) last vs tl
  end.

(** [backtrack] (assignment.rs:182-209) *)
Definition backtrack (s : search) (vs : vsids) (level : nat) : search * vsids :=
  if Nat.leb (length (s_decs s)) level then (s, vs)
  else
    let len := nth level (s_decs s) 0%nat in
    let '(val, last, vs) := undo (s_val s) (s_last s) vs (skipn len (s_trail s)) in
    (Search val last (firstn len (s_trail s)) len (firstn level (s_decs s)) (s_removed s)
       (s_reason s) (s_level s) (s_depth s) (s_lits s) (s_watch s) (s_wen s), vs).

(** [Trail::clear] (assignment.rs:123-128); [None] is the failed assertion. *)
Definition trail_clear (s : search) : option search :=
  match s_decs s with
  | [] => Some (Search (s_val s) (s_last s) [] 0 [] (s_removed s + length (s_trail s))
                  (s_reason s) (s_level s) (s_depth s) (s_lits s) (s_watch s) (s_wen s))
  | _ :: _ => None
  end.

(** [update_removed_unit], [is_removed_unit] (graph.rs:125-133) *)
Definition update_removed_unit (s : search) (v : N) : search :=
  with_depth (with_reason s (upd (s_reason s) v RUnit)) (upd (s_depth s) v None).
Definition is_removed_unit (s : search) (v : N) : bool :=
  match s_depth s v with None => true | Some _ => false end.

(** [resurrect_unit] (unit_simplify.rs:70-82) *)
Definition resurrect_unit (s : search) (l : N) : search :=
  if is_removed_unit s (lit_var l)
  then enqueue (with_val s (upd (s_val s) (lit_var l) None)) l RUnit
  else s.

(** [Reason::lits], [Conflict::lits] (graph.rs:22-33, 50-59) *)
Definition reason_lits (s : search) (r : reason) : list N :=
  match r with RUnit => [] | RBinary l => [l] | RLong c => tl (s_lits s c) end.
Definition conflict_lits (s : search) (c : conflict) : list N :=
  match c with CBinary a b => [a; b] | CLong c => s_lits s c end.
Definition is_unit_reason (r : reason) : bool :=
  match r with RUnit => true | _ => false end.

(** [add_watch], [watch_clause] (watch.rs:79-101) *)
Definition add_watch (w : N -> list (N * N)) (l : N) (x : N * N) : N -> list (N * N) :=
  upd w l (w l ++ [x]).
Definition watch_clause (s : search) (cref l0 l1 : N) : search :=
  if s_wen s then with_watch s (add_watch (add_watch (s_watch s) (lnot l0) (cref, l1)) (lnot l1) (cref, l0))
  else s.

(** [disable] (watch.rs:111-113) *)
Definition disable_watchlists (s : search) : search := with_wen s false.

(** [enable_watchlists] (watch.rs:117-135); [live] lists the clauses of the database that
    are not deleted. *)
Fixpoint watch_all (s : search) (live : list N) : search :=
  match live with
  | [] => s
  | c :: live =>
      watch_all (watch_clause s c (nth 0 (s_lits s c) 0) (nth 1 (s_lits s c) 0)) live
  end.
Definition enable_watchlists (s : search) (live : list N) : search :=
  if s_wen s then s else watch_all (with_wen (with_watch s (fun _ => [])) true) live.

(** Outcome of propagation; [PPanic] is a failed assertion, [PFuel] is reached if the loop
    of [propagate] runs more often than its bound, which it never does. *)
Inductive presult := POk | PConflict (c : conflict) | PPanic | PFuel.

(** [propagate_binary] (prop/binary.rs:13-36) *)
Fixpoint propagate_binary (s : search) (lit : N) (implied : list N) : search * option conflict :=
  match implied with
  | [] => (s, None)
  | l :: rest =>
      if lfalse s l then (s, Some (CBinary l (lnot lit)))
      else if ltrue s l then propagate_binary s lit rest
      else propagate_binary (enqueue s l (RBinary (lnot lit))) lit rest
  end.

(** The search for a new watch (prop/long.rs:117-132): the
    first literal that is not false, and the unwatched literals with [x] in its place. *)
Fixpoint take_watch (s : search) (x : N) (rest : list N) : option (N * list N) :=
  match rest with
  | [] => None
  | l :: rest =>
      if lfalse s l then
        match take_watch s x rest with
        | Some (y, rest) => Some (y, l :: rest)
        | None => None
        end
      else Some (l, x :: rest)
  end.

(** [propagate_long] (prop/long.rs:15-164): [ws] are the watches from [watch_ptr] to
    [watch_end], [kept] those before [watch_write].  A clause has at least three literals;
    fewer is where [check_bounds] or the assertion could fail and is [PPanic] here. *)
Fixpoint propagate_watches (s : search) (lit : N) (ws kept : list (N * N)) : search * presult :=
  match ws with
  | [] => (with_watch s (upd (s_watch s) lit kept), POk)
  | (cref, blocking) :: ws =>
      if ltrue s blocking then propagate_watches s lit ws (kept ++ [(cref, blocking)])
      else
        match s_lits s cref with
        | c0 :: c1 :: rest =>
            let false_lit := lnot lit in
            let '(first, second) := if c0 =? false_lit then (c1, false_lit) else (c0, c1) in
            let s1 := with_lits s (upd (s_lits s) cref (first :: second :: rest)) in
            let new_watch := (cref, first) in
            if negb (first =? blocking) && ltrue s first
            then propagate_watches s1 lit ws (kept ++ [new_watch])
            else
              match take_watch s false_lit rest with
              | Some (l, rest) =>
                  if lnot l =? lit then (s1, PPanic)
                  else
                    let s1 := with_lits s (upd (s_lits s) cref (first :: l :: rest)) in
                    let s1 := with_watch s1 (add_watch (s_watch s1) (lnot l) new_watch) in
                    propagate_watches s1 lit ws kept
              | None =>
                  if lfalse s first
                  then (with_watch s1 (upd (s_watch s1) lit (kept ++ new_watch :: ws)),
                        PConflict (CLong cref))
                  else propagate_watches (enqueue s1 first (RLong cref)) lit ws (kept ++ [new_watch])
              end
        | _ => (s, PPanic)
        end
  end.

(** The loop of [propagate] (prop.rs:37-41) *)
Fixpoint propagate_loop (fuel : nat) (bin : N -> list N) (s : search) : search * presult :=
  match nth_error (s_trail s) (s_head s) with
  | None => (s, POk)
  | Some lit =>
      match fuel with
      | O => (s, PFuel)
      | S fuel =>
          let s := with_head s (S (s_head s)) in
          match propagate_binary s lit (bin lit) with
          | (s, Some c) => (s, PConflict c)
          | (s, None) =>
              match propagate_watches s lit (s_watch s lit) [] with
              | (s, POk) => propagate_loop fuel bin s
              | r => r
              end
          end
      end
  end.

(** [propagate] (prop.rs:23-42).  Every literal is enqueued at most once, so the number of
    variables bounds the number of rounds. *)
Definition propagate (n : N) (live : list N) (bin : N -> list N) (s : search) : search * presult :=
  propagate_loop (N.to_nat n) bin (enable_watchlists s live).
