(** Model of the long clause database: varisat/src/clause/db.rs, clause/gc.rs,
    clause/reduce.rs, clause/assess.rs, clause/activity.rs and glue.rs.

    Headers and literals are found through the clause reference, which is the offset of the
    clause in the buffer; the buffer itself is modelled in ClauseAlloc.v.  Proof steps
    emitted by these functions do not influence them, so functions that emit some return
    the clauses the steps are about. *)
From Verif Require Import Spec Lit F32 Vsids Search.

(** [Tier] (db.rs:22-27) *)
Inductive tier := Irred | Core | Mid | Local.
Definition tier_eqb (a b : tier) : bool :=
  match a, b with
  | Irred, Irred | Core, Core | Mid, Mid | Local, Local => true
  | _, _ => false
  end.

(** The header fields (header.rs:14-30) except for the length, which is the length of the
    list of literals. *)
Record hdr := Hdr {
  h_tier : tier; h_deleted : bool; h_mark : bool; h_active : bool; h_glue : N; h_act : f32 }.
Definition hdr_new : hdr := Hdr Irred false false false 0 f32_zero.
Definition set_tier h x := Hdr x (h_deleted h) (h_mark h) (h_active h) (h_glue h) (h_act h).
Definition set_deleted h x := Hdr (h_tier h) x (h_mark h) (h_active h) (h_glue h) (h_act h).
Definition set_mark h x := Hdr (h_tier h) (h_deleted h) x (h_active h) (h_glue h) (h_act h).
Definition set_active h x := Hdr (h_tier h) (h_deleted h) (h_mark h) x (h_glue h) (h_act h).
(** saturating (header.rs:122-127) *)
Definition set_glue h x := Hdr (h_tier h) (h_deleted h) (h_mark h) (h_active h) (N.min x 63) (h_act h).
Definition set_act h x := Hdr (h_tier h) (h_deleted h) (h_mark h) (h_active h) (h_glue h) x.

(** [ClauseDb] (db.rs:48-57), the headers and the size of the buffer of [ClauseAlloc], and
    [ClauseActivity] (activity.rs:15-20).  [d_full] records that [ClauseAlloc::add_clause]
    panicked because the buffer exceeded its maximal size. *)
Record cdb := Cdb {
  d_hdr : N -> hdr;
  d_clauses : list N;
  d_tier : tier -> list N;
  d_count : tier -> nat;
  d_garbage : N;
  d_size : N;
  d_full : bool;
  d_bump : f32;
  d_inv : f32 }.

Definition cdb_default : cdb :=
  Cdb (fun _ => hdr_new) [] (fun _ => []) (fun _ => 0%nat) 0 0 false f32_one (f32_div f32_one f32_0_999).

Definition with_hdr d x := Cdb x (d_clauses d) (d_tier d) (d_count d) (d_garbage d) (d_size d) (d_full d) (d_bump d) (d_inv d).
Definition with_clauses d x := Cdb (d_hdr d) x (d_tier d) (d_count d) (d_garbage d) (d_size d) (d_full d) (d_bump d) (d_inv d).
Definition with_tier d x := Cdb (d_hdr d) (d_clauses d) x (d_count d) (d_garbage d) (d_size d) (d_full d) (d_bump d) (d_inv d).
Definition with_count d x := Cdb (d_hdr d) (d_clauses d) (d_tier d) x (d_garbage d) (d_size d) (d_full d) (d_bump d) (d_inv d).
Definition with_garbage d x := Cdb (d_hdr d) (d_clauses d) (d_tier d) (d_count d) x (d_size d) (d_full d) (d_bump d) (d_inv d).
Definition with_bump d x := Cdb (d_hdr d) (d_clauses d) (d_tier d) (d_count d) (d_garbage d) (d_size d) (d_full d) x (d_inv d).
Definition with_inv d x := Cdb (d_hdr d) (d_clauses d) (d_tier d) (d_count d) (d_garbage d) (d_size d) (d_full d) (d_bump d) x.

Definition updt {A} (f : tier -> A) (t : tier) (x : A) : tier -> A :=
  fun u => if tier_eqb u t then x else f u.
Definition map_hdr d c (f : hdr -> hdr) := with_hdr d (upd (d_hdr d) c (f (d_hdr d c))).
(** [-= 1] of a counter that is not zero *)
Definition dec_count d t := with_count d (updt (d_count d) t (pred (d_count d t))).
Definition inc_count d t := with_count d (updt (d_count d) t (S (d_count d t))).
Definition push_tier d t c := with_tier d (updt (d_tier d) t (d_tier d t ++ [c])).

Definition deleted (d : cdb) (c : N) : bool := h_deleted (d_hdr d c).

(** [clauses_iter] (db.rs:161-170) *)
Definition live (d : cdb) : list N := filter (fun c => negb (deleted d c)) (d_clauses d).

(** Number of words of a clause in the buffer: [HEADER_LEN] is 3. *)
Definition clause_size (lits : list N) : N := 3 + N.of_nat (length lits).

(** [db::add_clause] (db.rs:67-86) with [ClauseAlloc::add_clause] (alloc.rs:48-76), which
    panics if the offset does not fit in 32 bits.  All callers pass at least three literals. *)
Definition add_long (s : search) (d : cdb) (h : hdr) (lits : list N) : search * cdb * N :=
  let cref := d_size d in
  let s := with_lits s (upd (s_lits s) cref lits) in
  let d := Cdb (upd (d_hdr d) cref h) (d_clauses d ++ [cref])
             (updt (d_tier d) (h_tier h) (d_tier d (h_tier h) ++ [cref]))
             (updt (d_count d) (h_tier h) (S (d_count d (h_tier h))))
             (d_garbage d) (d_size d + clause_size lits)
             (d_full d || (2^32 - 1 <? cref)) (d_bump d) (d_inv d) in
  (watch_clause s cref (nth 0 lits 0) (nth 1 lits 0), d, cref).

(** [set_clause_tier] (db.rs:91-107) *)
Definition set_clause_tier (d : cdb) (c : N) (t : tier) : cdb :=
  let old := h_tier (d_hdr d c) in
  if tier_eqb old t then d
  else push_tier (map_hdr (inc_count (dec_count d old) t) c (fun h => set_tier h t)) t c.

(** Deletion of a clause (db.rs:120-131 and 196-202) *)
Definition delete_header (s : search) (d : cdb) (c : N) : cdb :=
  let d := map_hdr d c (fun h => set_deleted h true) in
  let d := dec_count d (h_tier (d_hdr d c)) in
  with_garbage d (d_garbage d + clause_size (s_lits s c)).

(** [delete_clause] (db.rs:110-132) *)
Definition delete_clause (s : search) (d : cdb) (c : N) : search * cdb :=
  (disable_watchlists s, delete_header s d c).

Definition reason_eqb (a b : reason) : bool :=
  match a, b with
  | RUnit, RUnit => true
  | RBinary x, RBinary y => x =? y
  | RLong x, RLong y => x =? y
  | _, _ => false
  end.

(** [try_delete_clause] (db.rs:137-156) *)
Definition try_delete_clause (s : search) (d : cdb) (c : N) : search * cdb * bool :=
  let l := nth 0 (s_lits s c) 0 in
  if ltrue s l && reason_eqb (s_reason s (lit_var l)) (RLong c)
  then (s, d, false)
  else let '(s, d) := delete_clause s d c in (s, d, true).

(** [dedup_and_mark_by_tier] (reduce.rs:21-36): the clauses retained, and the database. *)
Fixpoint dedup_and_mark (d : cdb) (t : tier) (l : list N) : cdb * list N :=
  match l with
  | [] => (d, [])
  | c :: l =>
      let h := d_hdr d c in
      if negb (h_deleted h) && negb (h_mark h) && tier_eqb (h_tier h) t then
        let '(d, r) := dedup_and_mark (map_hdr d c (fun h => set_mark h true)) t l in (d, c :: r)
      else dedup_and_mark d t l
  end.

(** [sort_unstable_by_key] (reduce.rs:59-64); the clause references make the keys distinct. *)
Definition key_leb (d : cdb) (a b : N) : bool :=
  match of_cmp (h_act (d_hdr d a)) (h_act (d_hdr d b)) with
  | Lt => true
  | Eq => a <=? b
  | Gt => false
  end.
Fixpoint insert_by (leb : N -> N -> bool) (x : N) (l : list N) : list N :=
  match l with
  | [] => [x]
  | y :: r => if leb x y then x :: l else y :: insert_by leb x r
  end.
Fixpoint sort_by (leb : N -> N -> bool) (l : list N) : list N :=
  match l with
  | [] => []
  | x :: r => insert_by leb x (sort_by leb r)
  end.

Definition unmark_all (d : cdb) (l : list N) : cdb :=
  fold_left (fun d c => map_hdr d c (fun h => set_mark h false)) l d.

(** The first loop of [reduce_locals] (reduce.rs:71-94): the remaining number to delete, what
    is kept, what is left of the scan, and the deleted clauses for the proof. *)
Fixpoint reduce_scan (s : search) (d : cdb) (n : nat) (l : list N)
  : search * cdb * list N * list N * list N :=
  match n, l with
  | O, _ => (s, d, [], l, [])
  | _, [] => (s, d, [], [], [])
  | S n', c :: l =>
      let d := map_hdr d c (fun h => set_mark h false) in
      let '(s, d, del) := try_delete_clause s d c in
      if del then
        let '(s, d, keep, rest, out) := reduce_scan s d n' l in (s, d, keep, rest, c :: out)
      else
        let '(s, d, keep, rest, out) := reduce_scan s d n l in (s, d, c :: keep, rest, out)
  end.

(** [reduce_locals] (reduce.rs:39-106); the last component are the deleted clauses. *)
Definition reduce_locals (s : search) (d : cdb) : search * cdb * list N :=
  let '(d, locals) := dedup_and_mark d Local (d_tier d Local) in
  let locals := sort_by (key_leb d) locals in
  let '(s, d, keep, rest, out) := reduce_scan s d (Nat.div2 (length locals)) locals in
  let d := unmark_all d rest in
  let locals := keep ++ rest in
  let d := with_count d (updt (d_count d) Local (length locals)) in
  (s, with_tier d (updt (d_tier d) Local locals), out).

(** The loop of [reduce_mids] (reduce.rs:117-128) *)
Fixpoint retain_active (d : cdb) (l : list N) : cdb * list N :=
  match l with
  | [] => (d, [])
  | c :: l =>
      let d := map_hdr d c (fun h => set_mark h false) in
      if h_active (d_hdr d c) then
        let '(d, r) := retain_active (map_hdr d c (fun h => set_active h false)) l in (d, c :: r)
      else retain_active (set_clause_tier d c Local) l
  end.

(** [reduce_mids] (reduce.rs:109-132); [by_tier] of [Mid] is empty during the loop. *)
Definition reduce_mids (d : cdb) : cdb :=
  let '(d, mids) := dedup_and_mark d Mid (d_tier d Mid) in
  let d := with_tier d (updt (d_tier d) Mid []) in
  let '(d, mids) := retain_active d mids in
  let d := with_count d (updt (d_count d) Mid (length mids)) in
  with_tier d (updt (d_tier d) Mid mids).

(** [mark_asserting_clauses] (gc.rs:99-109) *)
Definition mark_asserting (s : search) (d : cdb) : cdb :=
  fold_left (fun d l => match s_reason s (lit_var l) with
                        | RLong c => map_hdr d c (fun h => set_mark h true)
                        | _ => d
                        end) (s_trail s) d.

(** The loop of [collect_garbage_now] (gc.rs:68-90) copying the clauses [l] of [s], [d] to the
    new allocation [ns], [nd]; [ns] also carries the reasons. *)
Fixpoint copy_live (s : search) (d : cdb) (l : list N) (nl : N -> list N) (nd : cdb) (reasons : N -> reason)
  : (N -> list N) * cdb * (N -> reason) :=
  match l with
  | [] => (nl, nd, reasons)
  | c :: l =>
      let h := d_hdr d c in
      if h_deleted h then copy_live s d l nl nd reasons
      else
        let new := d_size nd in
        let lits := s_lits s c in
        let h' := set_mark h false in
        let nd := Cdb (upd (d_hdr nd) new h') (d_clauses nd ++ [new])
                    (updt (d_tier nd) (h_tier h) (d_tier nd (h_tier h) ++ [new])) (d_count nd)
                    (d_garbage nd) (d_size nd + clause_size lits)
                    (d_full nd || (2^32 - 1 <? new)) (d_bump nd) (d_inv nd) in
        let reasons := if h_mark h then upd reasons (lit_var (nth 0 lits 0)) (RLong new) else reasons in
        copy_live s d l (upd nl new lits) nd reasons
  end.

(** [collect_garbage_now] (gc.rs:35-96); [None] is the failed assertion. *)
Definition collect_garbage_now (s : search) (d : cdb) : option (search * cdb) :=
  let s := disable_watchlists s in
  let d := mark_asserting s d in
  if d_garbage d <=? d_size d then
    let '(nl, nd, reasons) :=
      copy_live s d (d_clauses d) (fun _ => [])
        (Cdb (fun _ => hdr_new) [] (fun _ => []) (d_count d) 0 0 (d_full d) (d_bump d) (d_inv d))
        (s_reason s) in
    Some (with_lits (with_reason s reasons) nl, nd)
  else None.

(** [collect_garbage] (gc.rs:12-29) *)
Definition collect_garbage (s : search) (d : cdb) : option (search * cdb) :=
  if d_size d <? d_garbage d * 2 then collect_garbage_now s d else Some (s, d).

(** [rescale_clause_activities] (activity.rs:68-91) *)
Definition clause_factor : f32 := f32_div f32_one rescale_limit.
Definition rescale_clauses (d : cdb) : cdb :=
  let kept := filter (fun c => negb (deleted d c)) (d_clauses d) in
  let d := with_clauses d kept in
  let d := fold_left (fun d c => map_hdr d c (fun h => set_act h (f32_mul (h_act h) clause_factor))) kept d in
  with_bump d (f32_mul (d_bump d) clause_factor).

(** [bump_clause_activity] (activity.rs:46-65) *)
Definition bump_clause_activity (d : cdb) (c : N) : cdb :=
  let a := f32_add (h_act (d_hdr d c)) (d_bump d) in
  let d := map_hdr d c (fun h => set_act h a) in
  if f32_gt a rescale_limit then rescale_clauses d else d.

(** [decay_clause_activities] (activity.rs:94-107) *)
Definition decay_clause_activities (d : cdb) : cdb :=
  let d := with_bump d (f32_mul (d_bump d) (d_inv d)) in
  if f32_ge (d_bump d) rescale_limit then rescale_clauses d else d.

(** [compute_glue] (glue.rs:14-36), with the scratch flags indexed by level. *)
Fixpoint glue_count (s : search) (flags : N -> bool) (glue : N) (lits : list N) : (N -> bool) * N :=
  match lits with
  | [] => (flags, glue)
  | l :: lits =>
      let level := N.of_nat (s_level s (lit_var l)) in
      if flags level then glue_count s flags glue lits
      else glue_count s (upd flags level true) (glue + 1) lits
  end.
Definition compute_glue (s : search) (flags : N -> bool) (lits : list N) : (N -> bool) * N :=
  let '(flags, glue) := glue_count s flags 0 lits in
  (fold_left (fun f l => upd f (N.of_nat (s_level s (lit_var l))) false) lits flags, glue).

(** [select_tier] (assess.rs:32-40) *)
Definition select_tier (glue : N) : tier :=
  if glue <=? 2 then Core else if glue <=? 6 then Mid else Local.

(** [assess_learned_clause] (assess.rs:15-29).  The subtraction wraps around in release
    builds (usize is 64 bits) and panics in debug builds if the glue is zero. *)
Definition assess_learned (s : search) (flags : N -> bool) (lits : list N) : (N -> bool) * hdr :=
  let '(flags, glue) := compute_glue s flags lits in
  let glue := if glue =? 0 then 2^64 - 1 else glue - 1 in
  (flags, set_tier (set_glue hdr_new glue) (select_tier glue)).

(** [bump_clause] (assess.rs:43-69) *)
Definition bump_clause (s : search) (d : cdb) (flags : N -> bool) (c : N) : cdb * (N -> bool) :=
  let d := bump_clause_activity d c in
  let '(flags, glue) := compute_glue s flags (s_lits s c) in
  let d := map_hdr d c (fun h => set_active h true) in
  if glue <? h_glue (d_hdr d c)
  then (set_clause_tier (map_hdr d c (fun h => set_glue h glue)) c (select_tier glue), flags)
  else (d, flags).
