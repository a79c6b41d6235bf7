(** Model of varisat-dimacs/src/lib.rs.  Bytes are [N] below 256.  [usize]
    counters (line and clause numbers) do not wrap: that needs 2^64 input bytes. *)
From Coq Require Import ZArith.
From Verif Require Import Spec Lit Cnf.

(** [ParserError] (lib.rs:12-54).  [InvalidHeader] carries the raw bytes of the
    header line instead of their lossy conversion to a string. *)
Inductive parse_error :=
| UnexpectedInput (line unexpected : N)
| LiteralTooLarge (line index final_digit : N)
| InvalidHeader (line : N) (header : list N)
| UnterminatedClause (line : N)
| VarCount (var_count header_var_count : N)
| ClauseCount (clause_count header_clause_count : N)
| PreviousError.

(** [DimacsParser] (lib.rs:67-84); the header is (var_count, clause_count). *)
Record parser := mkParser {
  p_formula : cnf;
  p_partial_clause : list N;
  p_header : option (N * N);
  p_line : N;
  p_clause_count : N;
  p_partial_lit : N;
  p_negate : bool;
  p_in_lit : bool;
  p_in_comment : bool;
  p_in_header : bool;
  p_start_of_line : bool;
  p_error : bool;
  p_header_line : list N }.

(** [DimacsParser::new] (lib.rs:88-107). *)
Definition parser_new : parser :=
  mkParser cnf_new [] None 1 0 0 false false false false true false [].

Definition set_error (p : parser) : parser :=
  let 'mkParser f pc h ln cc pl ng il ic ih sol _ hl := p in
  mkParser f pc h ln cc pl ng il ic ih sol true hl.

(** [finish_literal] (lib.rs:309-320). *)
Definition finish_literal (p : parser) : parser :=
  let 'mkParser f pc h ln cc pl ng il ic ih sol er hl := p in
  if il then
    if pl =? 0 then mkParser (cnf_add_clause f pc) [] h ln (cc + 1) pl ng il ic ih sol er hl
    else mkParser f (pc ++ [lit_from_var (var_from_dimacs (Z.of_N pl)) (negb ng)]) h ln cc pl ng il ic ih sol er hl
  else p.

(** Length of the (Unicode) white space character at the head of a byte string,
    0 if there is none.  [header_line[2..].split_whitespace()] (lib.rs:329) works
    on the lossy UTF-8 decoding; a lead byte always starts a new character there,
    so white space is exactly an occurrence of one of these encodings. *)
Definition ws_len (bs : list N) : nat :=
  match bs with
  | b :: r =>
      if ((9 <=? b) && (b <=? 13)) || (b =? 32) then 1%nat
      else match r with
      | b1 :: r =>
          if (b =? 0xC2) && ((b1 =? 0x85) || (b1 =? 0xA0)) then 2%nat
          else match r with
          | b2 :: _ =>
              if (b =? 0xE1) && (b1 =? 0x9A) && (b2 =? 0x80) then 3%nat
              else if (b =? 0xE2) && (b1 =? 0x80)
                      && (((0x80 <=? b2) && (b2 <=? 0x8A)) || (b2 =? 0xA8) || (b2 =? 0xA9) || (b2 =? 0xAF)) then 3%nat
              else if (b =? 0xE2) && (b1 =? 0x81) && (b2 =? 0x9F) then 3%nat
              else if (b =? 0xE3) && (b1 =? 0x80) && (b2 =? 0x80) then 3%nat
              else 0%nat
          | [] => 0
          end
      | [] => 0
      end
  | [] => 0
  end.

(** [split_whitespace]: [skip] bytes of the current white space character are
    still to be dropped, [cur] is the current word. *)
Fixpoint split_ws (skip : nat) (cur : list N) (bs : list N) : list (list N) :=
  match bs with
  | [] => match cur with [] => [] | _ => [cur] end
  | b :: r =>
      match skip with
      | S k => split_ws k cur r
      | O =>
          match ws_len (b :: r) with
          | O => split_ws 0 (cur ++ [b]) r
          | S k => match cur with
                   | [] => split_ws k [] r
                   | _ => cur :: split_ws k [] r
                   end
          end
      end
  end.

Definition is_digit (b : N) : bool := (48 <=? b) && (b <=? 57).

(** [str::parse::<usize>] (lib.rs:337, 354): optional [+], at least one digit,
    no overflow of 64 bits. *)
Fixpoint parse_digits (acc : N) (bs : list N) : option N :=
  match bs with
  | [] => Some acc
  | b :: r =>
      if is_digit b then
        let v := acc * 10 + (b - 48) in
        if v <=? 2^64 - 1 then parse_digits v r else None
      else None
  end.
Definition parse_usize (w : list N) : option N :=
  let w := match w with b :: r => if b =? 43 then r else w | [] => w end in
  match w with [] => None | _ => parse_digits 0 w end.

Definition set_header (p : parser) (hdr : N * N) : parser :=
  let 'mkParser f pc _ ln cc pl ng il ic ih sol er hl := p in
  mkParser (cnf_set_var_count f (fst hdr)) pc (Some hdr) ln cc pl ng il ic ih sol er hl.

Definition str_cnf : list N := [99; 110; 102].

(** [invalid_header] (lib.rs:374-380). *)
Definition invalid_header (p : parser) : parser * option parse_error :=
  (set_error p, Some (InvalidHeader (p_line p) (p_header_line p))).

(** [parse_header_line] (lib.rs:322-372). *)
Definition parse_header_line (p : parser) : parser * option parse_error :=
  match p_header_line p with
  | b0 :: b1 :: rest =>
      if (b0 =? 112) && (b1 =? 32) then
        match split_ws 0 [] rest with
        | w :: ws =>
            if list_eqb w str_cnf then
              match ws with
              | v :: ws =>
                  match parse_usize v with
                  | None => invalid_header p
                  | Some vc =>
                      if max_count <? vc then
                        (set_error p, Some (LiteralTooLarge (p_line p) (vc / 10) (vc mod 10)))
                      else
                        match ws with
                        | c :: ws =>
                            match parse_usize c with
                            | None => invalid_header p
                            | Some cc =>
                                match ws with
                                | _ :: _ => invalid_header p
                                | [] => (set_header p (vc, cc), None)
                                end
                            end
                        | [] => invalid_header p
                        end
                  end
              | [] => invalid_header p
              end
            else invalid_header p
        | [] => invalid_header p
        end
      else invalid_header p
  | _ => invalid_header p
  end.

Definition is_nl (b : N) : bool := (b =? 10) || (b =? 13).

Definition can_overflow : N := max_count / 10.
Definition overflow_digit : N := max_count mod 10.

(** The body of the loop over the chunk (lib.rs:161-230). *)
Definition parse_byte (p : parser) (byte : N) : parser * option parse_error :=
  let 'mkParser f pc h ln cc pl ng il ic ih sol er hl := p in
  let ln := if byte =? 10 then ln + 1 else ln in
  if is_nl byte && ic then
    if ih then
      let '(p, e) := parse_header_line (mkParser f pc h ln cc pl ng il ic false sol er hl) in
      match e with
      | Some e => (p, Some e)
      | None =>
          let 'mkParser f pc h ln cc pl ng il ic ih sol er hl := p in
          (mkParser f pc h ln cc pl ng il false ih true er hl, None)
      end
    else (mkParser f pc h ln cc pl ng il false ih true er hl, None)
  else if ic then
    (mkParser f pc h ln cc pl ng il ic ih sol er (if ih then hl ++ [byte] else hl), None)
  else if is_digit byte then
    let digit := byte - 48 in
    if (can_overflow <=? pl)
       && (can_overflow + (if digit <=? overflow_digit then 1 else 0) <=? pl) then
      (mkParser f pc h ln cc pl ng true ic ih sol true hl, Some (LiteralTooLarge ln pl digit))
    else (mkParser f pc h ln cc (pl * 10 + digit) ng true ic ih false er hl, None)
  else if (byte =? 45) && negb ng && negb il then
    (mkParser f pc h ln cc pl true il ic ih false er hl, None)
  else if ((byte =? 32) || is_nl byte) && (negb ng || il) then
    let 'mkParser f pc h ln cc pl ng il ic ih sol er hl :=
      finish_literal (mkParser f pc h ln cc pl ng il ic ih sol er hl) in
    (mkParser f pc h ln cc 0 false false ic ih (negb (byte =? 32)) er hl, None)
  else if (byte =? 99) && sol then
    (mkParser f pc h ln cc pl ng il true ih sol er hl, None)
  else if (byte =? 112) && sol && (match h with None => true | _ => false end) then
    (mkParser f pc h ln cc pl ng il true true sol er (hl ++ [112]), None)
  else
    (mkParser f pc h ln cc pl ng il ic ih sol true hl, Some (UnexpectedInput ln byte)).

Fixpoint parse_bytes (p : parser) (chunk : list N) : parser * option parse_error :=
  match chunk with
  | [] => (p, None)
  | b :: r =>
      let '(p, e) := parse_byte p b in
      match e with
      | Some e => (p, Some e)
      | None => parse_bytes p r
      end
  end.

(** [parse_chunk] (lib.rs:156-234). *)
Definition parse_chunk (p : parser) (chunk : list N) : parser * option parse_error :=
  if p_error p then (p, Some PreviousError) else parse_bytes p chunk.

(** [eof] (lib.rs:240-254). *)
Definition parse_eof (p : parser) : parser * option parse_error :=
  let '(p, e) := if p_in_header p then parse_header_line p else (p, None) in
  match e with
  | Some e => (p, Some e)
  | None =>
      let p := finish_literal p in
      match p_partial_clause p with
      | [] => (p, None)
      | _ => (p, Some (UnterminatedClause (p_line p)))
      end
  end.

(** [check_header] (lib.rs:259-278). *)
Definition check_header (p : parser) : option parse_error :=
  match p_header p with
  | None => None
  | Some (vc, cc) =>
      if negb (var_count (p_formula p) =? vc) then Some (VarCount (var_count (p_formula p)) vc)
      else if negb (p_clause_count p =? cc) then Some (ClauseCount (p_clause_count p) cc)
      else None
  end.

(** [take_formula] (lib.rs:288-292). *)
Definition take_formula (p : parser) : cnf * parser :=
  let 'mkParser f pc h ln cc pl ng il ic ih sol er hl := p in
  (f, mkParser (cnf_set_var_count cnf_new (var_count f)) pc h ln cc pl ng il ic ih sol er hl).

(** [parse_incremental] (lib.rs:123-148) where the callback takes the formula
    exactly when [take] says so (indexed by the callback's invocation), as the
    checker and the solver do with [take = fun _ => true], and [parse] with
    [take = fun _ => false].  The input is given by the chunks [fill_buf] returns. *)
Definition callback (take : bool) (p : parser) (out : list cnf) : parser * list cnf :=
  if take then let '(f, p) := take_formula p in (p, out ++ [f]) else (p, out).

Fixpoint parse_chunks (take : nat -> bool) (i : nat) (p : parser) (out : list cnf) (chunks : list (list N))
  : parser * list cnf * option parse_error :=
  match chunks with
  | [] => (p, out, None)
  | c :: cs =>
      let '(p, e) := parse_chunk p c in
      match e with
      | Some e => (p, out, Some e)
      | None =>
          let '(p, out) := callback (take i) p out in
          parse_chunks take (S i) p out cs
      end
  end.

Definition parse_incremental (take : nat -> bool) (chunks : list (list N))
  : parser * list cnf * option parse_error :=
  let '(p, out, e) := parse_chunks take 0 parser_new [] chunks in
  match e with
  | Some e => (p, out, Some e)
  | None =>
      let '(p, e) := parse_eof p in
      match e with
      | Some e => (p, out, Some e)
      | None =>
          let '(p, out) := callback (take (length chunks)) p out in
          (p, out, check_header p)
      end
  end.

(** [parse] (lib.rs:114-116). *)
Definition parse (chunks : list (list N)) : cnf + parse_error :=
  let '(p, _, e) := parse_incremental (fun _ => false) chunks in
  match e with
  | Some e => inr e
  | None => inl (fst (take_formula p))
  end.

(** Decimal printing of [usize] by [write!] and of [isize] by [itoa]. *)
Fixpoint dec_aux (fuel : nat) (n : N) (acc : list N) : list N :=
  let acc := (48 + n mod 10) :: acc in
  match fuel with
  | O => acc
  | S fuel => if n <? 10 then acc else dec_aux fuel (n / 10) acc
  end.
Definition dec (n : N) : list N := dec_aux (N.to_nat (N.size n)) n [].
Definition itoa (z : Z) : list N :=
  if (z <? 0)%Z then 45 :: dec (Z.abs_N z) else dec (Z.abs_N z).

(** [write_dimacs_header] (lib.rs:386-393). *)
Definition write_dimacs_header (vc cc : N) : list N :=
  [112; 32; 99; 110; 102; 32] ++ dec vc ++ [32] ++ dec cc ++ [10].

(** [write_dimacs_clauses] (lib.rs:398-410). *)
Definition write_clause (c : list N) : list N :=
  flat_map (fun l => itoa (lit_to_dimacs l) ++ [32]) c ++ [48; 10].
Definition write_dimacs_clauses (cs : list (list N)) : list N := flat_map write_clause cs.

(** [write_dimacs] (lib.rs:415-424); [None] is a panic in [iter]. *)
Definition write_dimacs (f : cnf) : option (list N) :=
  match cnf_iter f with
  | None => None
  | Some cs => Some (write_dimacs_header (var_count f) (N.of_nat (cnf_len f)) ++ write_dimacs_clauses cs)
  end.
