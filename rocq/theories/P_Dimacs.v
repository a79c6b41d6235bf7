(** Properties C05-C08: the DIMACS parser and writer. *)
From Coq Require Import ZArith ZifyBool ZifyNat ZifyN.
From Verif Require Import Spec Lit LitProofs Cnf CnfProofs Dimacs DimacsSpec DimacsProofs DimacsRefProofs DimacsRoundProofs.

(** [parse] gives the same result for every way of cutting the input into chunks. *)
Theorem C05_chunking : forall chunks1 chunks2, concat chunks1 = concat chunks2 -> parse chunks1 = parse chunks2.
Proof. intros a b H. rewrite (parse_concat a), (parse_concat b), H. reflexivity. Qed.
Print Assumptions C05_chunking.

(** With the formula taken out after arbitrary chunks ([take i]) the error, the
    header and the counters are those of a single chunk parse, and the clauses of
    the pieces, in order, are its clauses. *)
Theorem C05_chunking_incremental : forall take chunks,
  let '(p, out, e) := parse_incremental take chunks in
  let '(q, _, e') := parse_incremental (fun _ => false) [concat chunks] in
  e = e' /\ p_header p = p_header q /\ p_clause_count p = p_clause_count q /\ p_line p = p_line q /\
  var_count (p_formula p) = var_count (p_formula q) /\
  exists pieces rest all, map cnf_iter out = map Some pieces /\ cnf_iter (p_formula p) = Some rest /\
     cnf_iter (p_formula q) = Some all /\ concat pieces ++ rest = all.
Proof. exact chunking_independent. Qed.
Print Assumptions C05_chunking_incremental.

(* "c x\np cnf 3 3\n1 -2\n 3 0\r\n-1 0 0\n" *)
Definition C05_text : list N :=
  [99;32;120;10; 112;32;99;110;102;32;51;32;51;10; 49;32;45;50;10;32;51;32;48;13;10; 45;49;32;48;32;48;10].
Example C05_ex :
  parse (map (fun b => [b]) C05_text) = parse [C05_text] /\
  match parse [C05_text] with inl f => cnf_iter f = Some [[0;3;4];[1];[]] /\ var_count f = 3 | _ => False end /\
  match parse_incremental (fun i => Nat.even i) (map (fun b => [b]) C05_text) with
  | (p, out, None) => flat_map (fun f => match cnf_iter f with Some cs => cs | None => [] end) out = [[0;3;4];[1];[]]
  | _ => False end.
Proof. vm_compute. repeat split; reflexivity. Qed.

(** Writing any formula and parsing the text, cut into any chunks, gives the
    formula back. *)
Theorem C06_write_parse : forall ops chunks, let f := cnf_run ops in
  var_count f <= max_count -> Forall (Forall (fun l => valid_lit l = true)) (op_clauses ops) ->
  N.of_nat (length (op_clauses ops)) < 2^64 ->
  write_dimacs f = Some (concat chunks) ->
  exists g, parse chunks = inl g /\ cnf_iter g = cnf_iter f /\ var_count g = var_count f /\ cnf_len g = cnf_len f.
Proof. exact parse_written. Qed.
Print Assumptions C06_write_parse.

(** Writing never fails on a formula built through the API. *)
Theorem C06_write_total : forall ops, exists bs, write_dimacs (cnf_run ops) = Some bs.
Proof. intros ops. destruct (cnf_run_spec ops) as (I&_&_). unfold write_dimacs. rewrite I. eauto. Qed.
Print Assumptions C06_write_total.

(** Reading and writing agree on the set of formulas: different formulas have
    different texts. *)
Theorem C06_write_injective : forall ops1 ops2, let f := cnf_run ops1 in let g := cnf_run ops2 in
  var_count f <= max_count -> Forall (Forall (fun l => valid_lit l = true)) (op_clauses ops1) -> N.of_nat (length (op_clauses ops1)) < 2^64 ->
  var_count g <= max_count -> Forall (Forall (fun l => valid_lit l = true)) (op_clauses ops2) -> N.of_nat (length (op_clauses ops2)) < 2^64 ->
  write_dimacs f = write_dimacs g -> cnf_iter f = cnf_iter g /\ var_count f = var_count g.
Proof.
  intros ops1 ops2 f g V1 L1 N1 V2 L2 N2 E.
  destruct (C06_write_total ops1) as (bs&W). fold f in W.
  destruct (C06_write_parse ops1 [bs] V1 L1 N1) as (r1&P1&I1&C1&_). { cbn. rewrite app_nil_r. exact W. }
  destruct (C06_write_parse ops2 [bs] V2 L2 N2) as (r2&P2&I2&C2&_). { cbn. rewrite app_nil_r. fold g. rewrite <- E. exact W. }
  fold f in I1, C1. fold g in I2, C2. rewrite P1 in P2. inversion P2; subst. split; congruence.
Qed.
Print Assumptions C06_write_injective.

Definition C06_ops : list cnf_op :=
  [OpAddClause [0; 536870911]; OpAddClause []; OpAddClause [3; 7; 7]; OpSetVarCount 268435456].
Example C06_ex :
  var_count (cnf_run C06_ops) = max_count /\ Forall (Forall (fun l => valid_lit l = true)) (op_clauses C06_ops) /\
  match write_dimacs (cnf_run C06_ops) with
  | Some bs => match parse [firstn 20 bs; skipn 20 bs] with
               | inl g => cnf_iter g = Some [[0; 536870911]; []; [3; 7; 7]] | _ => False end
  | None => False end.
Proof.
  split; [vm_compute; reflexivity|]. split; [|vm_compute; reflexivity].
  repeat constructor; vm_compute; reflexivity.
Qed.

(** The parser computes exactly the line and word oriented reference description:
    it accepts a text exactly when the reference does (and the header is right), and
    the clauses are those of the reference, where a word denotes its exact decimal
    value and is rejected exactly when it is not a number or its absolute value
    exceeds [max_count].  Missing for the full statement: texts whose last word is
    a lone minus sign, see [C07_dangling_minus_refuted]. *)
Theorem C07_reference_partial : forall chunks, ~ dangling_minus (concat chunks) ->
  match parse chunks with
  | inl f => exists h cls, ref_parse (concat chunks) = Some (h, cls) /\ hdr_ok h cls = true /\
       cnf_iter f = Some cls /\ cnf_len f = length cls /\
       var_count f = match h with Some (v, _) => v | None => fold_right (fun c m => N.max (clause_vars c) m) 0 cls end
  | inr _ => match ref_parse (concat chunks) with Some (h, cls) => hdr_ok h cls = false | None => True end
  end.
Proof. intros chunks H. rewrite parse_concat. apply parse_spec. exact H. Qed.
Print Assumptions C07_reference_partial.

(** A text ending in a lone minus sign is accepted as if the sign was not there. *)
Theorem C07_dangling_minus_refuted : exists bs, match parse [bs] with inl f => cnf_iter f = Some [[0]] | inr _ => False end /\ ref_parse bs = None.
Proof. exists [49; 32; 48; 32; 45]. vm_compute. split; reflexivity. Qed.
Print Assumptions C07_dangling_minus_refuted.

(** For every input and every chunking (also after an error, also in the middle of
    the input) all literals are in range and the accumulator is at most [max_count]. *)
Theorem C07_range : forall bs p, parse_bytes parser_new bs = p ->
  p_partial_lit (fst p) <= max_count /\
  Forall (fun l => valid_lit l = true) (p_partial_clause (fst p)) /\
  exists cs, cnf_iter (p_formula (fst p)) = Some cs /\ Forall (Forall (fun l => valid_lit l = true)) cs.
Proof.
  intros bs p <-. destruct (acc_bytes bs _ acc_new) as (A&B&C&cs&D). repeat split; try assumption.
  exists cs. split; [exact D|]. apply B. exact D.
Qed.
Print Assumptions C07_range.

(** The formula returned by a successful parse has only literals in range. *)
Theorem C07_result_range : forall chunks f, parse chunks = inl f ->
  exists cs, cnf_iter f = Some cs /\ Forall (Forall (fun l => valid_lit l = true)) cs.
Proof. exact parse_result_valid. Qed.
Print Assumptions C07_result_range.

(** A literal token of any length: after a separator the word [w] yields the
    literal with exactly the decimal value of [w], or an error. *)
Theorem C07_token : forall w cls pc, w <> [] -> forallb (fun b => negb (is_sep b)) w = true ->
  starts_with 99 w = false -> starts_with 112 w = false ->
  let r := parse_bytes (St cls pc None 1 true []) (w ++ [32]) in
  match word_int w with
  | Some z => if (Z.abs z <=? Z.of_N max_count)%Z
              then r = (if (z =? 0)%Z then St (cls ++ [pc]) [] None 1 false []
                        else St cls (pc ++ [lit_from_dimacs z]) None 1 false [], None)
              else exists q e, r = (q, Some e)
  | None => exists q e, r = (q, Some e)
  end.
Proof.
  intros w cls pc NE NS S1 S2 r.
  pose proof (feed_word_sep w 32 cls pc None 1 true [] NS eq_refl (fun _ => conj S1 S2)) as F. cbv zeta in F. fold r in F.
  unfold ref_word in F. destruct w as [|b w]; [congruence|].
  destruct (word_int (b :: w)) as [z|]; [|exact F].
  destruct (Z.abs z <=? Z.of_N max_count)%Z; [|exact F]. destruct (z =? 0)%Z; exact F.
Qed.
Print Assumptions C07_token.

(** A number in the header is accepted exactly if it is an optional plus sign followed by
    at least one decimal digit, with a value that fits 64 bits, which is then its value. *)
Definition dec_value (ds : list N) : N := fold_left (fun a b => a * 10 + (b - 48)) ds 0.

Lemma parse_digits_spec ds : forall acc v, acc < 2^64 ->
  (parse_digits acc ds = Some v <->
   Forall (fun b => 48 <= b <= 57) ds /\ v = fold_left (fun a b => a * 10 + (b - 48)) ds acc /\ v < 2^64).
Proof.
  assert (M : forall l a, a <= fold_left (fun a b => a * 10 + (b - 48)) l a).
  { induction l as [|b l IH]; intros a; cbn [fold_left]; [lia|]. specialize (IH (a * 10 + (b - 48))). lia. }
  induction ds as [|b ds IH]; intros acc v A; cbn [parse_digits fold_left].
  { split; [intros E; injection E as <-; auto | intros (_&->&_); reflexivity]. }
  unfold is_digit.
  destruct ((48 <=? b) && (b <=? 57)) eqn:D.
  2:{ split; [discriminate|]. intros (F&_). apply Forall_cons_iff in F. lia. }
  destruct (acc * 10 + (b - 48) <=? 2^64 - 1) eqn:L.
  - rewrite IH by lia. rewrite Forall_cons_iff. intuition lia.
  - split; [discriminate|]. intros (_&E&B). specialize (M ds (acc * 10 + (b - 48))). lia.
Qed.

Theorem C08_header_number : forall w v,
  parse_usize w = Some v <->
  exists ds, (w = ds \/ w = 43 :: ds) /\ ds <> [] /\ Forall (fun b => 48 <= b <= 57) ds
             /\ dec_value ds = v /\ v < 2^64.
Proof.
  assert (K : forall ds v, match ds with [] => None | _ => parse_digits 0 ds end = Some v <->
    ds <> [] /\ Forall (fun b => 48 <= b <= 57) ds /\ dec_value ds = v /\ v < 2^64).
  { intros ds v. unfold dec_value. destruct ds as [|b ds].
    - split; [discriminate|]. intros (H&_). congruence.
    - rewrite parse_digits_spec by lia. intuition congruence. }
  intros w v. unfold parse_usize. destruct w as [|b r].
  { etransitivity; [exact (K [] v)|]. split.
    - intros (H&_). congruence.
    - intros (ds&[<-|H]&H1&_); [congruence|discriminate]. }
  destruct (N.eqb_spec b 43) as [->|NE];
    [etransitivity; [exact (K r v)|] | etransitivity; [exact (K (b :: r) v)|]]; split.
  - intros H. exists r. intuition.
  - intros (ds&[<-|H]&H1&H2&H3).
    + apply Forall_cons_iff in H2. lia.
    + injection H as <-. auto.
  - intros H. exists (b :: r). intuition.
  - intros (ds&[<-|H]&H1&H2&H3); [auto|]. congruence.
Qed.
Print Assumptions C08_header_number.
Example C08_header_number_ex : parse_usize [43; 48; 52; 50] = Some 42 /\ parse_usize [52; 45] = None
  /\ parse_usize [49;56;52;52;54;55;52;52;48;55;51;55;48;57;53;53;49;54;49;53] = Some (2^64 - 1)
  /\ parse_usize [49;56;52;52;54;55;52;52;48;55;51;55;48;57;53;53;49;54;49;54] = None.
Proof. repeat split; vm_compute; reflexivity. Qed.

(* "-0000000268435456" is accepted, "268435457" and "4563402752000000000" are not *)
Example C07_ex :
  word_int [45;48;48;48;48;48;48;48;50;54;56;52;51;53;52;53;54] = Some (-268435456)%Z /\
  match parse [[45;48;48;48;48;48;48;48;50;54;56;52;51;53;52;53;54;32;48]] with
  | inl f => cnf_iter f = Some [[536870911]] | inr _ => False end /\
  match parse [[50;54;56;52;51;53;52;53;55;32;48]] with inl f => False | inr e => e = LiteralTooLarge 1 26843545 7 end /\
  match parse [[52;53;54;51;52;48;50;55;53;50;48;48;48;48;48;48;48;48;48;32;48]] with inl f => False | inr e => True end.
Proof. vm_compute. repeat split; reflexivity. Qed.

(** Accepted header: counts are exact. *)
Theorem C08_header : forall chunks p out, parse_incremental (fun _ => false) chunks = (p, out, None) ->
  forall v c, p_header p = Some (v, c) ->
  v <= max_count /\ var_count (p_formula p) = v /\ p_clause_count p = c /\
  exists cs, cnf_iter (p_formula p) = Some cs /\ N.of_nat (length cs) = c /\
    Forall (Forall (fun l => N.div2 l < v)) cs.
Proof. exact header_enforced. Qed.
Print Assumptions C08_header.

Theorem C08_header_incremental : forall take chunks p out, parse_incremental take chunks = (p, out, None) ->
  forall v c, p_header p = Some (v, c) ->
  v <= max_count /\
  exists pieces rest, map cnf_iter out = map Some pieces /\ cnf_iter (p_formula p) = Some rest /\
    N.of_nat (length (concat pieces ++ rest)) = c /\ Forall (Forall (fun l => N.div2 l < v)) (concat pieces ++ rest).
Proof.
  intros take chunks p out E v c HH. pose proof (chunking_independent take chunks) as CI. rewrite E in CI.
  destruct (parse_incremental (fun _ => false) [concat chunks]) as [[q o] e] eqn:Q.
  destruct CI as (<-&H&_&_&_&pieces&rest&all&A&B&C&D).
  destruct (C08_header _ _ _ Q v c ltac:(congruence)) as (V&_&_&cs&I&L&F).
  split; [exact V|]. exists pieces, rest. rewrite C in I. inversion I; subst. auto.
Qed.
Print Assumptions C08_header_incremental.

(** An accepted text has no open clause: the last literal word is a zero. *)
Theorem C08_unterminated_rejected : forall bs h cls pc l, ~ dangling_minus bs ->
  fold_left ref_line (split is_nl bs) (Some (None, ([], []))) = Some (h, (cls, l :: pc)) ->
  exists e, parse [bs] = inr e.
Proof.
  intros bs h cls pc l D E. pose proof (parse_spec bs D) as P. unfold ref_parse in P. rewrite E in P.
  destruct (parse [bs]) as [f|e]; [|eauto]. destruct P as (?&?&X&_). discriminate.
Qed.
Print Assumptions C08_unterminated_rejected.

Theorem C08_error_sticky : forall p bs q e more, parse_chunk p bs = (q, Some e) ->
  parse_chunk q more = (q, Some PreviousError).
Proof. exact error_sticky. Qed.
Print Assumptions C08_error_sticky.

Example C08_ex :
  match parse_incremental (fun _ => false) [C05_text] with (p, _, None) => p_header p = Some (3, 3) | _ => False end /\
  parse [[112;32;99;110;102;32;49;32;49;10;50;32;48;10]] = inr (VarCount 2 1) /\
  parse [[112;32;99;110;102;32;49;32;49;10;49;32;48;10;48]] = inr (ClauseCount 2 1) /\
  parse [[49;32;50]] = inr (UnterminatedClause 1) /\
  match parse_chunk parser_new [49; 120] with (q, Some e) => parse_chunk q [32] = (q, Some PreviousError) | _ => False end.
Proof. vm_compute. repeat split; reflexivity. Qed.
