(** An independent, line and word oriented description of DIMACS CNF texts, used
    to state what the byte-wise parser of Dimacs.v computes. *)
From Coq Require Import ZArith.
From Verif Require Import Spec Lit Cnf Dimacs.

(** split at separators; always returns at least one (possibly empty) piece *)
Fixpoint split (sep : N -> bool) (bs : list N) : list (list N) :=
  match bs with
  | [] => [[]]
  | b :: r =>
      if sep b then [] :: split sep r
      else match split sep r with
           | w :: ws => (b :: w) :: ws
           | [] => [[b]]
           end
  end.

(** decimal value of a digit string *)
Definition dval (acc : N) (ds : list N) : N := fold_left (fun a d => a * 10 + (d - 48)) ds acc.

(** magnitude of a literal word: optional minus sign and at least one digit *)
Definition word_abs (w : list N) : option N :=
  let ds := match w with b :: r => if b =? 45 then r else w | [] => [] end in
  match ds with
  | [] => None
  | _ => if forallb is_digit ds then Some (dval 0 ds) else None
  end.
Definition word_neg (w : list N) : bool := match w with b :: _ => b =? 45 | [] => false end.
Definition word_int (w : list N) : option Z :=
  match word_abs w with
  | None => None
  | Some n => Some (if word_neg w then - Z.of_N n else Z.of_N n)%Z
  end.

(** state: complete clauses so far and the open clause *)


Definition ref_word (st : option (list (list N) * list N)) (w : list N) : option (list (list N) * list N) :=
  match st with
  | None => None
  | Some (cls, pc) =>
      match w with
      | [] => Some (cls, pc)
      | _ =>
          match word_int w with
          | None => None
          | Some z =>
              if (Z.abs z <=? Z.of_N max_count)%Z then
                if (z =? 0)%Z then Some (cls ++ [pc], []) else Some (cls, pc ++ [lit_from_dimacs z])
              else None
          end
      end
  end.

Definition is_space (b : N) : bool := b =? 32.

Definition ref_header (line : list N) : option (N * N) :=
  match line with
  | b0 :: b1 :: rest =>
      if negb ((b0 =? 112) && (b1 =? 32)) then None else
      match split_ws 0 [] rest with
      | [w; v; c] =>
          if list_eqb w str_cnf then
            match parse_usize v, parse_usize c with
            | Some vc, Some cc => if vc <=? max_count then Some (vc, cc) else None
            | _, _ => None
            end
          else None
      | _ => None
      end
  | _ => None
  end.

Definition starts_with (b : N) (line : list N) : bool :=
  match line with c :: _ => c =? b | [] => false end.

(** one line: a comment, the header, or literal words *)
Definition ref_line (st : option (option (N * N) * (list (list N) * list N))) (line : list N) : option (option (N * N) * (list (list N) * list N)) :=
  match st with
  | None => None
  | Some (h, rs) =>
      if starts_with 99 line then Some (h, rs)
      else if starts_with 112 line then
        match h, ref_header line with
        | None, Some hdr => Some (Some hdr, rs)
        | _, _ => None
        end
      else
        match fold_left ref_word (split is_space line) (Some rs) with
        | None => None
        | Some rs => Some (h, rs)
        end
  end.

(** the clauses of a text and its header, [None] for a malformed text *)
Definition ref_parse (bs : list N) : option (option (N * N) * list (list N)) :=
  match fold_left ref_line (split is_nl bs) (Some (None, ([], []))) with
  | Some (h, (cls, [])) => Some (h, cls)
  | _ => None
  end.

(** the text ends in a lone minus sign that is a word of its own *)
Definition dangling_minus (bs : list N) : Prop :=
  last (split is_space (last (split is_nl bs) [])) [] = [45].

Definition hdr_vars (h : option (N * N)) : N := match h with Some (v, _) => v | None => 0 end.
Definition hdr_ok (h : option (N * N)) (cls : list (list N)) : bool :=
  match h with
  | None => true
  | Some (v, c) => (c =? N.of_nat (length cls)) && forallb (forallb (fun l => lit_var l <? v)) cls
  end.
