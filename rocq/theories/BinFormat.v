(** Model of varisat-internal-proof/src/lib.rs (proof steps) and
    varisat-internal-proof/src/binary_format.rs. *)
From Verif Require Import Spec Lit Vli.

(** lib.rs:40-49. *)
Inductive del_proof := DRedundant | DSimplified | DSatisfied.

(** lib.rs:55-130.  Variables are their indices, hashes are [u64]. *)
Inductive proof_step :=
| SolverVarName (global : N) (solver : option N)
| UserVarName (global : N) (user : option N)
| DeleteVar (var : N)
| ChangeSamplingMode (var : N) (sample : bool)
| AddClause (clause : list N)
| AtClause (redundant : bool) (clause : list N) (propagation_hashes : list N)
| UnitClauses (units : list (N * N))
| DeleteClause (clause : list N) (proof : del_proof)
| ChangeHashBits (bits : N)
| Model (assignment : list N)
| Assumptions (assumptions : list N)
| FailedAssumptions (failed_core : list N) (propagation_hashes : list N)
| End.

(** [contains_hashes] (lib.rs:134-151). *)
Definition contains_hashes (s : proof_step) : bool :=
  match s with
  | AtClause _ _ _ | UnitClauses _ | FailedAssumptions _ _ => true
  | _ => false
  end.

(** binary_format.rs:22-46. *)
Definition CODE_SOLVER_VAR_NAME_UPDATE := 0.
Definition CODE_SOLVER_VAR_NAME_REMOVE := 1.
Definition CODE_USER_VAR_NAME_UPDATE := 2.
Definition CODE_USER_VAR_NAME_REMOVE := 3.
Definition CODE_DELETE_VAR := 4.
Definition CODE_CHANGE_SAMPLING_MODE_SAMPLE := 5.
Definition CODE_CHANGE_SAMPLING_MODE_WITNESS := 6.
Definition CODE_AT_CLAUSE_RED := 7.
Definition CODE_AT_CLAUSE_IRRED := 8.
Definition CODE_UNIT_CLAUSES := 9.
Definition CODE_DELETE_CLAUSE_REDUNDANT := 10.
Definition CODE_DELETE_CLAUSE_SIMPLIFIED := 11.
Definition CODE_DELETE_CLAUSE_SATISFIED := 12.
Definition CODE_CHANGE_HASH_BITS := 13.
Definition CODE_MODEL := 14.
Definition CODE_ADD_CLAUSE := 15.
Definition CODE_ASSUMPTIONS := 16.
Definition CODE_FAILED_ASSUMPTIONS := 17.
Definition CODE_END := 0x9ac3391f4294c211.

(** [write_literals] and [write_hashes] (binary_format.rs:269-275, 289-295);
    [usize as u64] of a length is the identity on 64-bit targets. *)
Definition write_list (l : list N) : list N :=
  write_u64 (u64 (N.of_nat (length l))) ++ flat_map write_u64 l.

(** [write_unit_clauses] (binary_format.rs:309-316). *)
Definition write_unit_clauses (l : list (N * N)) : list N :=
  write_u64 (u64 (N.of_nat (length l))) ++ flat_map (fun p => write_u64 (fst p) ++ write_u64 (snd p)) l.

(** [write_step] (binary_format.rs:49-157). *)
Definition write_step (s : proof_step) : list N :=
  match s with
  | SolverVarName g (Some v) => write_u64 CODE_SOLVER_VAR_NAME_UPDATE ++ write_u64 g ++ write_u64 v
  | SolverVarName g None => write_u64 CODE_SOLVER_VAR_NAME_REMOVE ++ write_u64 g
  | UserVarName g (Some v) => write_u64 CODE_USER_VAR_NAME_UPDATE ++ write_u64 g ++ write_u64 v
  | UserVarName g None => write_u64 CODE_USER_VAR_NAME_REMOVE ++ write_u64 g
  | DeleteVar v => write_u64 CODE_DELETE_VAR ++ write_u64 v
  | ChangeSamplingMode v b =>
      write_u64 (if b then CODE_CHANGE_SAMPLING_MODE_SAMPLE else CODE_CHANGE_SAMPLING_MODE_WITNESS)
        ++ write_u64 v
  | AddClause c => write_u64 CODE_ADD_CLAUSE ++ write_list c
  | AtClause red c hs =>
      write_u64 (if red then CODE_AT_CLAUSE_RED else CODE_AT_CLAUSE_IRRED) ++ write_list c ++ write_list hs
  | UnitClauses us => write_u64 CODE_UNIT_CLAUSES ++ write_unit_clauses us
  | DeleteClause c p =>
      write_u64 (match p with
                 | DRedundant => CODE_DELETE_CLAUSE_REDUNDANT
                 | DSimplified => CODE_DELETE_CLAUSE_SIMPLIFIED
                 | DSatisfied => CODE_DELETE_CLAUSE_SATISFIED
                 end) ++ write_list c
  | ChangeHashBits bits => write_u64 CODE_CHANGE_HASH_BITS ++ write_u64 bits
  | Model a => write_u64 CODE_MODEL ++ write_list a
  | Assumptions a => write_u64 CODE_ASSUMPTIONS ++ write_list a
  | FailedAssumptions c hs => write_u64 CODE_FAILED_ASSUMPTIONS ++ write_list c ++ write_list hs
  | End => write_u64 CODE_END
  end.

(** Outcome of parsing: a value, unexpected end of file, "parse error"
    (binary_format.rs:263) or a panic ([Vec::reserve] capacity overflow). *)
Inductive presult (A : Type) := POk (a : A) | PEof | PBad | PPanic.
Arguments POk {A}. Arguments PEof {A}. Arguments PBad {A}. Arguments PPanic {A}.

Definition pbind {A B} (x : presult A) (f : A -> presult B) : presult B :=
  match x with POk a => f a | PEof => PEof | PBad => PBad | PPanic => PPanic end.

Section Reader.
(** The parser is written against any source [S] with a way [rd] to read one
    number; [parse_step] below instantiates it with [read_u64] on a [reader]. *)
Context {S : Type} (rd : S -> option (N * S)).

Definition rd_p (s : S) : presult (N * S) := match rd s with Some x => POk x | None => PEof end.

(** [for _ in 0..len] loops (binary_format.rs:282-284, 302-304). *)
Fixpoint rd_n (conv : N -> N) (n : nat) (s : S) : presult (list N * S) :=
  match n with
  | O => POk ([], s)
  | Datatypes.S n =>
      pbind (rd_p s) (fun '(v, s) =>
      pbind (rd_n conv n s) (fun '(vs, s) => POk (conv v :: vs, s)))
  end.

Fixpoint rd_pairs (n : nat) (s : S) : presult (list (N * N) * S) :=
  match n with
  | O => POk ([], s)
  | Datatypes.S n =>
      pbind (rd_p s) (fun '(l, s) =>
      pbind (rd_p s) (fun '(h, s) =>
      pbind (rd_pairs n s) (fun '(vs, s) => POk ((lit_from_code l, h) :: vs, s))))
  end.

(** [Vec::reserve] panics when the size in bytes exceeds [isize::MAX]; running
    out of memory below that bound is not modelled. *)
Definition reserve_ok (len size : N) : bool := len * size <=? 2^63 - 1.

(** [read_literals] (binary_format.rs:278-286); [Lit] is 4 bytes. *)
Definition read_literals (s : S) : presult (list N * S) :=
  pbind (rd_p s) (fun '(len, s) =>
  if reserve_ok len 4 then rd_n lit_from_code (N.to_nat len) s else PPanic).

(** [read_hashes] (binary_format.rs:298-306). *)
Definition read_hashes (s : S) : presult (list N * S) :=
  pbind (rd_p s) (fun '(len, s) =>
  if reserve_ok len 8 then rd_n (fun x => x) (N.to_nat len) s else PPanic).

(** [read_unit_clauses] (binary_format.rs:319-332); [(Lit, u64)] is 16 bytes. *)
Definition read_unit_clauses (s : S) : presult (list (N * N) * S) :=
  pbind (rd_p s) (fun '(len, s) =>
  if reserve_ok len 16 then rd_pairs (N.to_nat len) s else PPanic).

(** [parse_step] (binary_format.rs:167-265), with the release-mode
    [Var::from_index] (truncating cast).  The buffers held by the parser are
    cleared before each use, so the parser itself has no state. *)
Definition parse_step_gen (s : S) : presult (proof_step * S) :=
  pbind (rd_p s) (fun '(code, s) =>
  if code =? CODE_SOLVER_VAR_NAME_UPDATE then
    pbind (rd_p s) (fun '(g, s) => pbind (rd_p s) (fun '(v, s) =>
    POk (SolverVarName (var_from_index g) (Some (var_from_index v)), s)))
  else if code =? CODE_SOLVER_VAR_NAME_REMOVE then
    pbind (rd_p s) (fun '(g, s) => POk (SolverVarName (var_from_index g) None, s))
  else if code =? CODE_USER_VAR_NAME_UPDATE then
    pbind (rd_p s) (fun '(g, s) => pbind (rd_p s) (fun '(v, s) =>
    POk (UserVarName (var_from_index g) (Some (var_from_index v)), s)))
  else if code =? CODE_USER_VAR_NAME_REMOVE then
    pbind (rd_p s) (fun '(g, s) => POk (UserVarName (var_from_index g) None, s))
  else if code =? CODE_DELETE_VAR then
    pbind (rd_p s) (fun '(v, s) => POk (DeleteVar (var_from_index v), s))
  else if (code =? CODE_CHANGE_SAMPLING_MODE_SAMPLE) || (code =? CODE_CHANGE_SAMPLING_MODE_WITNESS) then
    pbind (rd_p s) (fun '(v, s) =>
    POk (ChangeSamplingMode (var_from_index v) (code =? CODE_CHANGE_SAMPLING_MODE_SAMPLE), s))
  else if code =? CODE_ADD_CLAUSE then
    pbind (read_literals s) (fun '(c, s) => POk (AddClause c, s))
  else if (code =? CODE_AT_CLAUSE_IRRED) || (code =? CODE_AT_CLAUSE_RED) then
    pbind (read_literals s) (fun '(c, s) => pbind (read_hashes s) (fun '(hs, s) =>
    POk (AtClause (code =? CODE_AT_CLAUSE_RED) c hs, s)))
  else if code =? CODE_UNIT_CLAUSES then
    pbind (read_unit_clauses s) (fun '(us, s) => POk (UnitClauses us, s))
  else if (code =? CODE_DELETE_CLAUSE_REDUNDANT) || (code =? CODE_DELETE_CLAUSE_SIMPLIFIED)
          || (code =? CODE_DELETE_CLAUSE_SATISFIED) then
    let proof := if code =? CODE_DELETE_CLAUSE_REDUNDANT then DRedundant
                 else if code =? CODE_DELETE_CLAUSE_SIMPLIFIED then DSimplified else DSatisfied in
    pbind (read_literals s) (fun '(c, s) => POk (DeleteClause c proof, s))
  else if code =? CODE_CHANGE_HASH_BITS then
    pbind (rd_p s) (fun '(b, s) => POk (ChangeHashBits (u32 b), s))
  else if code =? CODE_MODEL then
    pbind (read_literals s) (fun '(c, s) => POk (Model c, s))
  else if code =? CODE_ASSUMPTIONS then
    pbind (read_literals s) (fun '(c, s) => POk (Assumptions c, s))
  else if code =? CODE_FAILED_ASSUMPTIONS then
    pbind (read_literals s) (fun '(c, s) => pbind (read_hashes s) (fun '(hs, s) =>
    POk (FailedAssumptions c hs, s)))
  else if code =? CODE_END then POk (End, s)
  else PBad).
End Reader.

Definition parse_step (r : reader) : presult (proof_step * reader) := parse_step_gen read_u64 r.
