(** The LRAT writer (varisat-lrat/src/lib.rs) and the DRAT writer
    (varisat/src/proof/drat.rs).  Bytes are numbers below 256; the target is the
    list of bytes written so far ([BufWriter] and I/O errors are not modelled). *)
From Coq Require Import ZArith.
From Verif Require Import Spec Lit Vli Dimacs BinFormat Checker.

(** The leb128 crate's [write::unsigned] for a 64-bit number: groups of seven
    bits, least significant first, top bit set on all but the last. *)
Fixpoint leb_aux (fuel : nat) (n : N) : list N :=
  match fuel with
  | O => [n mod 128]
  | S fuel => if n <? 128 then [n] else (128 + n mod 128) :: leb_aux fuel (n / 128)
  end.
Definition leb (n : N) : list N := leb_aux (N.to_nat (N.size n)) n.

(** [WriteLrat] (lib.rs:13-19). *)
Record lrat := Lrat { w_binary : bool; w_target : list N; w_open : bool; w_last : N; w_buffered : list N }.

Definition with_target (w : lrat) (t : list N) : lrat := Lrat (w_binary w) t (w_open w) (w_last w) (w_buffered w).
Definition with_open (w : lrat) (b : bool) : lrat := Lrat (w_binary w) (w_target w) b (w_last w) (w_buffered w).
Definition with_last (w : lrat) (i : N) : lrat := Lrat (w_binary w) (w_target w) (w_open w) i (w_buffered w).
Definition with_buffered (w : lrat) (l : list N) : lrat := Lrat (w_binary w) (w_target w) (w_open w) (w_last w) l.
Definition put (w : lrat) (bs : list N) : lrat := with_target w (w_target w ++ bs).

(** [new] (lib.rs:99-107). *)
Definition lrat_new (binary : bool) : lrat := Lrat binary [] false 0 [].

(** [write_ids] (lib.rs:161-174).  Release arithmetic: the sum and the product wrap. *)
Definition write_ids (w : lrat) (ids : list N) : lrat :=
  put w (flat_map (fun id => if w_binary w then leb (u64 (u64 (id + 1) * 2)) else dec (u64 (id + 1)) ++ [32]) ids).
(** [write_lits] (lib.rs:177-190). *)
Definition write_lits (w : lrat) (lits : list N) : lrat :=
  put w (flat_map (fun l => if w_binary w then leb (l + 2) else itoa (lit_to_dimacs l) ++ [32]) lits).
(** [write_end] (lib.rs:193-200). *)
Definition write_end (w : lrat) : lrat := put w (if w_binary w then [0] else [48; 10]).
(** [write_sep] (lib.rs:203-210). *)
Definition write_sep (w : lrat) : lrat := put w (if w_binary w then [0] else [48; 32]).
(** [write_delete_step] (lib.rs:143-150). *)
Definition write_delete_step (w : lrat) : lrat := put w (if w_binary w then [100] else [100; 32]).
(** [write_add_step] (lib.rs:153-158). *)
Definition write_add_step (w : lrat) : lrat := put w (if w_binary w then [97] else []).
(** [open_delete] (lib.rs:121-130). *)
Definition open_delete (w : lrat) : lrat :=
  if w_open w then w
  else with_open (write_delete_step (if w_binary w then w else write_ids w [w_last w])) true.
(** [close_delete] (lib.rs:133-139). *)
Definition close_delete (w : lrat) : lrat := if w_open w then with_open (write_end w) false else w.
(** [flush] (lib.rs:113-117), also run on drop (lib.rs:213-217). *)
Definition lrat_flush (w : lrat) : lrat := close_delete w.

(** [process_step] (lib.rs:22-89). *)
Definition lrat_step (w : lrat) (k : checked_step) : lrat :=
  let w := match k with
    | KAddClause _ _ | KDuplicatedClause _ _ _ => w
    | _ => match w_buffered w with
           | [] => w
           | b => write_ids (open_delete (with_buffered w [])) b
           end
    end in
  match k with
  | KAddClause id _ => with_last w id
  | KDuplicatedClause id _ _ | KTautologicalClause id _ =>
      let w := with_last w id in
      if w_binary w then write_ids (open_delete w) [id] else with_buffered w (w_buffered w ++ [id])
  | KAtClause id _ clause propagations =>
      let w := with_last (close_delete w) id in
      write_end (write_ids (write_sep (write_lits (write_ids (write_add_step w) [id]) clause)) propagations)
  | KDeleteAtClause id keep _ _ | KDeleteRatClause id keep _ _ =>
      if keep then w else write_ids (open_delete w) [id]
  | KDeleteClause id _ => write_ids (open_delete w) [id]
  | KUserVar _ _ | KMakeIrredundant _ _ | KModel _ | KAssumptions _ | KFailedAssumptions _ _ => w
  end.
Definition lrat_run (w : lrat) (ks : list checked_step) : lrat := fold_left lrat_step ks w.

(** * DRAT (varisat/src/proof/drat.rs) *)

(** [drat_step] (drat.rs:7-42): the additions ([true]) and deletions that are
    emitted; [None] is a panic. *)
Definition drat_step (s : proof_step) : option (list (bool * list N)) :=
  match s with
  | AtClause _ clause _ => Some [(true, clause)]
  | UnitClauses units => Some (map (fun u => (true, [fst u])) units)
  | DeleteClause clause _ => Some [(false, clause)]
  | SolverVarName _ _ | UserVarName _ _ | DeleteVar _ | ChangeSamplingMode _ _ | ChangeHashBits _ | Model _ | End => Some []
  | AddClause _ | Assumptions _ | FailedAssumptions _ _ => None
  end.
(** [write_literals] (drat.rs:70-77). *)
Definition drat_literals (lits : list N) : list N := flat_map (fun l => itoa (lit_to_dimacs l) ++ [32]) lits ++ [48; 10].
(** [write_binary_literals] (drat.rs:80-88). *)
Definition drat_binary_literals (lits : list N) : list N := flat_map (fun l => leb (l + 2)) lits ++ [0].
(** [write_step] (drat.rs:45-53). *)
Definition drat_write_step (s : proof_step) : option (list N) :=
  match drat_step s with
  | None => None
  | Some es => Some (flat_map (fun e : bool * list N => (if fst e then [] else [100; 32]) ++ drat_literals (snd e)) es)
  end.
(** [write_binary_step] (drat.rs:56-67). *)
Definition drat_write_binary_step (s : proof_step) : option (list N) :=
  match drat_step s with
  | None => None
  | Some es => Some (flat_map (fun e : bool * list N => (if fst e then [97] else [100]) ++ drat_binary_literals (snd e)) es)
  end.
