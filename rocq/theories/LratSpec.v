(** Independent descriptions of the LRAT and DRAT formats, textual and binary.
    Not a model of code in /repo: specification only. *)
From Coq Require Import ZArith.
From Verif Require Import Spec DimacsSpec.

(** * Numbers and lists of numbers *)

(** a textual list: words separated by single blanks, each an integer *)
Fixpoint ints (ws : list (list N)) : option (list Z) :=
  match ws with
  | [] => Some []
  | w :: ws => match word_int w, ints ws with Some z, Some zs => Some (z :: zs) | _, _ => None end
  end.
(** the integers before the first zero and those after it *)
Fixpoint until_zero (zs : list Z) : option (list Z * list Z) :=
  match zs with
  | [] => None
  | z :: zs => if (z =? 0)%Z then Some ([], zs) else match until_zero zs with Some (a, b) => Some (z :: a, b) | None => None end
  end.

(** a binary number: seven bits per byte, least significant first *)
Fixpoint read_leb (bs : list N) : option (N * list N) :=
  match bs with
  | [] => None
  | b :: r => if b <? 128 then Some (b, r) else match read_leb r with Some (v, r) => Some (b - 128 + 128 * v, r) | None => None end
  end.
(** even: positive, odd: negative *)
Definition from_code (v : N) : Z := if N.odd v then (- Z.of_N (N.div2 v))%Z else Z.of_N (N.div2 v).
(** a list of numbers terminated by a zero byte; [fuel]: at least the number of bytes *)
Fixpoint leb_list (fuel : nat) (bs : list N) : option (list Z * list N) :=
  match fuel with
  | O => None
  | S fuel =>
      match read_leb bs with
      | None => None
      | Some (v, r) => if v =? 0 then Some ([], r) else match leb_list fuel r with Some (l, r) => Some (from_code v :: l, r) | None => None end
      end
  end.

(** * LRAT *)
Inductive line := LAdd (id : Z) (lits hints : list Z) | LDel (after : option Z) (ids : list Z).

Definition text_line (ws : list (list N)) : option line :=
  match ws with
  | w :: rest =>
      match word_int w, rest with
      | Some id, [100] :: rest =>
          match ints rest with
          | Some zs => match until_zero zs with Some (ids, []) => Some (LDel (Some id) ids) | _ => None end
          | None => None
          end
      | Some id, _ =>
          match ints rest with
          | Some zs => match until_zero zs with
                       | Some (lits, zs) => match until_zero zs with Some (hints, []) => Some (LAdd id lits hints) | _ => None end
                       | None => None
                       end
          | None => None
          end
      | None, _ => None
      end
  | [] => None
  end.
Definition words (l : list N) : list (list N) := split (fun b => b =? 32) l.
Fixpoint text_lines {A} (f : list (list N) -> option A) (ls : list (list N)) : option (list A) :=
  match ls with
  | [] => None
  | [l] => match l with [] => Some [] | _ => None end
  | l :: ls => match f (words l), text_lines f ls with Some x, Some xs => Some (x :: xs) | _, _ => None end
  end.
Definition parse_text {A} (f : list (list N) -> option A) (bs : list N) : option (list A) := text_lines f (split (fun b => b =? 10) bs).

(** a binary record: the text after the leading letter *)
Definition binary_line (b : N) (bs : list N) : option (line * list N) :=
  if b =? 97 then
    match read_leb bs with
    | Some (v, r) => match leb_list (length r) r with
                     | Some (lits, r) => match leb_list (length r) r with Some (hints, r) => Some (LAdd (from_code v) lits hints, r) | None => None end
                     | None => None
                     end
    | None => None
    end
  else if b =? 100 then match leb_list (length bs) bs with Some (ids, r) => Some (LDel None ids, r) | None => None end
  else None.
Fixpoint binary_lines {A} (f : N -> list N -> option (A * list N)) (fuel : nat) (bs : list N) : option (list A) :=
  match bs with
  | [] => Some []
  | b :: r =>
      match fuel with
      | O => None
      | S fuel => match f b r with Some (x, r) => match binary_lines f fuel r with Some xs => Some (x :: xs) | None => None end | None => None end
      end
  end.
Definition parse_binary {A} (f : N -> list N -> option (A * list N)) (bs : list N) : option (list A) := binary_lines f (length bs) bs.

Definition lrat_parse (binary : bool) (bs : list N) : option (list line) :=
  if binary then parse_binary binary_line bs else parse_text text_line bs.

(** * DRAT: an addition ([true]) or deletion and the literals *)
Definition drat_text_line (ws : list (list N)) : option (bool * list Z) :=
  let '(add, ws) := match ws with [100] :: ws => (false, ws) | _ => (true, ws) end in
  match ints ws with
  | Some zs => match until_zero zs with Some (lits, []) => Some (add, lits) | _ => None end
  | None => None
  end.
Definition drat_binary_line (b : N) (bs : list N) : option (bool * list Z * list N) :=
  if (b =? 97) || (b =? 100) then match leb_list (length bs) bs with Some (lits, r) => Some (b =? 97, lits, r) | None => None end else None.
Definition drat_parse (binary : bool) (bs : list N) : option (list (bool * list Z)) :=
  if binary then parse_binary drat_binary_line bs else parse_text drat_text_line bs.

(** * Operations in order *)
Inductive op := OAdd (id : Z) (lits hints : list Z) | ODel (id : Z).
Definition line_ops (l : line) : list op := match l with LAdd id lits hints => [OAdd id lits hints] | LDel _ ids => map ODel ids end.
