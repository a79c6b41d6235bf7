(** Model of conflict analysis: varisat/src/analyze_conflict.rs, and of the analysis of
    conflicting assumptions (assumptions.rs:172-236).

    [hr] stands for [clause_hashes_required]: whether hashes for proof checking are recorded. *)
From Verif Require Import Spec Lit Hash F32 Vsids Search.

(** [AnalyzeConflict] (analyze_conflict.rs:19-36).  The stack is local to the search below.
    [a_fuel] records that the bound on the depth first search was exceeded, which never happens. *)
Record analyze := Analyze {
  a_clause : list N;
  a_count : nat;
  a_flags : N -> bool;
  a_clean : list N;
  a_involved : list N;
  a_hashes : list N;
  a_unordered : list (nat * N);
  a_fuel : bool }.

Definition analyze_default : analyze := Analyze [] 0 (fun _ => false) [] [] [] [] false.

Definition with_clause a x := Analyze x (a_count a) (a_flags a) (a_clean a) (a_involved a) (a_hashes a) (a_unordered a) (a_fuel a).
Definition with_cnt a x := Analyze (a_clause a) x (a_flags a) (a_clean a) (a_involved a) (a_hashes a) (a_unordered a) (a_fuel a).
Definition with_flags a x := Analyze (a_clause a) (a_count a) x (a_clean a) (a_involved a) (a_hashes a) (a_unordered a) (a_fuel a).
Definition with_clean a x := Analyze (a_clause a) (a_count a) (a_flags a) x (a_involved a) (a_hashes a) (a_unordered a) (a_fuel a).
Definition with_involved a x := Analyze (a_clause a) (a_count a) (a_flags a) (a_clean a) x (a_hashes a) (a_unordered a) (a_fuel a).
Definition with_hashes a x := Analyze (a_clause a) (a_count a) (a_flags a) (a_clean a) (a_involved a) x (a_unordered a) (a_fuel a).
Definition with_unordered a x := Analyze (a_clause a) (a_count a) (a_flags a) (a_clean a) (a_involved a) (a_hashes a) x (a_fuel a).
Definition with_afuel a x := Analyze (a_clause a) (a_count a) (a_flags a) (a_clean a) (a_involved a) (a_hashes a) (a_unordered a) x.

(** [add_literal] (analyze_conflict.rs:211-235) *)
Definition add_literal (s : search) (va : vsids * analyze) (lit : N) : vsids * analyze :=
  let '(vs, a) := va in
  let level := s_level s (lit_var lit) in
  if Nat.ltb 0 level && negb (a_flags a (lit_var lit)) then
    let vs := vsids_bump vs (lit_var lit) in
    let a := with_flags a (upd (a_flags a) (lit_var lit) true) in
    if Nat.eqb level (clevel s) then (vs, with_cnt a (S (a_count a)))
    else (vs, with_clean (with_clause a (a_clause a ++ [lit])) (a_clean a ++ [lit_var lit]))
  else (vs, a).

Definition add_literals (s : search) (va : vsids * analyze) (lits : list N) : vsids * analyze :=
  fold_left (add_literal s) lits va.

(** [push] followed by [swap(0, end)] (analyze_conflict.rs:127-129) *)
Definition push_swap (l : list N) (x : N) : list N :=
  match l with [] => [x] | y :: r => x :: r ++ [y] end.

(** The loop over the reversed trail (analyze_conflict.rs:117-154) *)
Fixpoint resolve_loop (hr : bool) (s : search) (va : vsids * analyze) (tr : list N) : vsids * analyze :=
  match tr with
  | [] => va
  | lit :: tr =>
      let '(vs, a) := va in
      if a_flags a (lit_var lit) then
        let a := with_cnt (with_flags a (upd (a_flags a) (lit_var lit) false)) (pred (a_count a)) in
        match a_count a with
        | O => (vs, with_clause a (push_swap (a_clause a) (lnot lit)))
        | S _ =>
            let r := s_reason s (lit_var lit) in
            let lits := reason_lits s r in
            let a := if hr && negb (is_unit_reason r)
                     then with_hashes a (a_hashes a ++ [N.lxor (clause_hash lits) (lit_hash lit)]) else a in
            let '(vs, a) := add_literals s (vs, a) lits in
            let a := match r with RLong c => with_involved a (a_involved a ++ [c]) | _ => a end in
            resolve_loop hr s (vs, a) tr
        end
      else resolve_loop hr s (vs, a) tr
  end.

(** [LevelAbstraction] (analyze_conflict.rs:239-253) *)
Definition level_add (bits : N) (level : nat) : N := N.setbit bits (N.of_nat (Nat.modulo level 64)).
Definition level_test (bits : N) (level : nat) : bool := N.testbit bits (N.of_nat (Nat.modulo level 64)).

(** The loop over the literals of a reason (analyze_conflict.rs:337-363): [None] is where the
    search is aborted, which happens after the flags set so far were changed. *)
Fixpoint visit_reason (s : search) (bits : N) (a : analyze) (stack : list N) (lits : list N)
  : analyze * option (list N) :=
  match lits with
  | [] => (a, Some stack)
  | r :: lits =>
      let v := lit_var r in
      if negb (a_flags a v) && Nat.ltb 0 (s_level s v) then
        if is_unit_reason (s_reason s v) || negb (level_test bits (s_level s v)) then (a, None)
        else visit_reason s bits
               (with_clean (with_flags a (upd (a_flags a) v true)) (a_clean a ++ [v]))
               (lnot r :: stack) lits
      else visit_reason s bits a stack lits
  end.

(** The depth first search (analyze_conflict.rs:327-364): whether the literal is redundant.
    The top of the stack is the head of the list. *)
Fixpoint dfs (fuel : nat) (hr : bool) (s : search) (bits : N) (a : analyze) (stack : list N)
  : analyze * bool :=
  match stack with
  | [] => (a, true)
  | lit :: stack =>
      match fuel with
      | O => (with_afuel a true, false)
      | S fuel =>
          let r := s_reason s (lit_var lit) in
          let lits := reason_lits s r in
          let a := if hr && negb (is_unit_reason r)
                   then with_unordered a (a_unordered a ++
                          [(match s_depth s (lit_var lit) with Some d => d | None => 0%nat end,
                            N.lxor (clause_hash lits) (lit_hash lit))])
                   else a in
          match visit_reason s bits a stack lits with
          | (a, None) => (a, false)
          | (a, Some stack) => dfs fuel hr s bits a stack
          end
      end
  end.

(** The loop over the literals after the first (analyze_conflict.rs:311-367): what is kept. *)
Fixpoint minimize_loop (fuel : nat) (hr : bool) (s : search) (bits : N) (a : analyze) (lits : list N)
  : analyze * list N :=
  match lits with
  | [] => (a, [])
  | l :: lits =>
      if is_unit_reason (s_reason s (lit_var l)) then
        let '(a, r) := minimize_loop fuel hr s bits a lits in (a, l :: r)
      else
        let top := length (a_clean a) in
        let hashes_top := length (a_unordered a) in
        match dfs fuel hr s bits a [lnot l] with
        | (a, true) => minimize_loop fuel hr s bits a lits
        | (a, false) =>
            let flags := fold_left (fun f v => upd f v false) (skipn top (a_clean a)) (a_flags a) in
            let a := with_clean (with_flags a flags) (firstn top (a_clean a)) in
            let a := with_unordered a (firstn hashes_top (a_unordered a)) in
            let '(a, r) := minimize_loop fuel hr s bits a lits in (a, l :: r)
        end
  end.

(** [minimize_clause] (analyze_conflict.rs:285-368).  Each round of the depth first search but
    the first belongs to another variable. *)
Definition minimize_clause (n : N) (hr : bool) (s : search) (a : analyze) : analyze :=
  match a_clause a with
  | [] => a
  | first :: rest =>
      let bits := fold_left (fun b l => level_add b (s_level s (lit_var l))) (a_clause a) 0 in
      let '(a, rest) := minimize_loop (S (N.to_nat n)) hr s bits a rest in
      with_clause a (first :: rest)
  end.

(** [sort_unstable_by_key(|&(depth, _)| !depth)] (analyze_conflict.rs:167-169): by decreasing
    depth.  Entries with the same depth belong to the same literal and are equal. *)
Fixpoint insert_depth (x : nat * N) (l : list (nat * N)) : list (nat * N) :=
  match l with
  | [] => [x]
  | y :: r => if Nat.leb (fst y) (fst x) then x :: l else y :: insert_depth x r
  end.
Definition sort_depth (l : list (nat * N)) : list (nat * N) := fold_right insert_depth [] l.

(** [dedup_by_key] (analyze_conflict.rs:171-173) *)
Fixpoint dedup_depth (l : list (nat * N)) : list (nat * N) :=
  match l with
  | [] => []
  | x :: r =>
      match dedup_depth r with
      | [] => [x]
      | y :: r' => if Nat.eqb (fst x) (fst y) then x :: r' else x :: y :: r'
      end
  end.

(** The selection of the literal with the highest level (analyze_conflict.rs:193-202) *)
Fixpoint pick_level (s : search) (l1 : N) (bt : nat) (rest : list N) : N * nat * list N :=
  match rest with
  | [] => (l1, bt, [])
  | l :: rest =>
      let lv := s_level s (lit_var l) in
      if Nat.ltb bt lv then let '(x, b, r) := pick_level s l lv rest in (x, b, l1 :: r)
      else let '(x, b, r) := pick_level s l1 bt rest in (x, b, l :: r)
  end.

(** [analyze_conflict] (analyze_conflict.rs:65-208), with the level to go back to. *)
Definition analyze_conflict (n : N) (hr : bool) (s : search) (vs : vsids) (a : analyze) (c : conflict)
  : vsids * analyze * nat :=
  let a := Analyze [] 0 (a_flags a) (a_clean a) [] [] [] (a_fuel a) in
  let lits := conflict_lits s c in
  let a := if hr then with_hashes a [clause_hash lits] else a in
  if Nat.eqb (clevel s) 0 then (vs, a, 0%nat)
  else
    let '(vs, a) := add_literals s (vs, a) lits in
    let a := match c with CLong cref => with_involved a [cref] | _ => a end in
    let '(vs, a) := resolve_loop hr s (vs, a) (rev (s_trail s)) in
    let a := minimize_clause n hr s a in
    let a := if hr then
               let u := dedup_depth (sort_depth (a_unordered a)) in
               with_hashes (with_unordered a u) (rev (a_hashes a ++ map snd u))
             else a in
    let a := with_clean (with_flags a (fold_left (fun f v => upd f v false) (a_clean a) (a_flags a))) [] in
    let '(clause, bt) :=
      match a_clause a with
      | l0 :: l1 :: rest =>
          let '(x, b, r) := pick_level s l1 (s_level s (lit_var l1)) rest in (l0 :: x :: r, b)
      | c => (c, 0%nat)
      end in
    (vsids_decay vs, with_clause a clause, bt).

(** The loop of [analyze_assumption_conflict] (assumptions.rs:201-234): the scratch flags, the
    core and the hashes found. *)
Fixpoint failed_loop (hr : bool) (s : search) (flags : N -> bool) (count : nat) (core hashes : list N)
    (tr : list N) : (N -> bool) * list N * list N :=
  match tr with
  | [] => (flags, core, hashes)
  | lit :: tr =>
      if flags (lit_var lit) then
        let flags := upd flags (lit_var lit) false in
        let count := pred count in
        let '(flags, count, core, hashes) :=
          match s_reason s (lit_var lit) with
          | RUnit => (flags, count,
                      if Nat.ltb 0 (s_level s (lit_var lit)) then core ++ [lit] else core, hashes)
          | r =>
              let lits := reason_lits s r in
              let hashes := if hr then hashes ++ [N.lxor (clause_hash lits) (lit_hash lit)] else hashes in
              let '(flags, count) :=
                fold_left (fun (fn : (N -> bool) * nat) l => if fst fn (lit_var l) then fn
                                       else (upd (fst fn) (lit_var l) true, S (snd fn)))
                          lits (flags, count) in
              (flags, count, core, hashes)
          end in
        if Nat.eqb count 0 then (flags, core, hashes)
        else failed_loop hr s flags count core hashes tr
      else failed_loop hr s flags count core hashes tr
  end.

(** [analyze_assumption_conflict] up to the failed core in solver names
    (assumptions.rs:186-236) *)
Definition failed_core_of (hr : bool) (s : search) (flags : N -> bool) (assumption : N)
  : (N -> bool) * list N * list N :=
  let '(flags, core, hashes) :=
    failed_loop hr s (upd flags (lit_var assumption) true) 1 [assumption] [] (rev (s_trail s)) in
  (flags, core, rev hashes).
