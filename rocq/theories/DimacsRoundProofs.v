(** The output of the DIMACS writer is parsed back to the same formula. *)
From Coq Require Import Arith ZArith ZifyBool ZifyNat ZifyN.
From Verif Require Import Spec Lit LitProofs Cnf CnfProofs Dimacs DimacsSpec DimacsProofs DimacsRefProofs.
Ltac Zify.zify_post_hook ::= Z.div_mod_to_equations.

Lemma dval_app a x y : dval a (x ++ y) = dval (dval a x) y.
Proof. unfold dval. apply fold_left_app. Qed.

Lemma dec_aux_spec fuel : forall n acc, n < 2 ^ N.of_nat fuel ->
  dval 0 (dec_aux fuel n acc) = dval n acc /\
  (forallb is_digit acc = true -> forallb is_digit (dec_aux fuel n acc) = true) /\ dec_aux fuel n acc <> [].
Proof.
  induction fuel as [|fuel IH]; intros n acc H.
  - assert (n = 0) as -> by (cbn in H; lia). cbn [dec_aux]. repeat split; try discriminate.
    intros A. cbn [forallb]. rewrite A. reflexivity.
  - cbn [dec_aux].
    assert (D : is_digit (48 + n mod 10) = true) by (unfold is_digit; lia).
    destruct (N.ltb_spec n 10) as [L|L].
    + repeat split; try discriminate.
      * unfold dval. cbn [fold_left]. f_equal. lia.
      * intros A. cbn [forallb]. rewrite A, D. reflexivity.
    + assert (HH : n / 10 < 2 ^ N.of_nat fuel).
      { rewrite Nat2N.inj_succ, N.pow_succ_r' in H. apply N.div_lt_upper_bound; lia. }
      destruct (IH (n / 10) ((48 + n mod 10) :: acc) HH) as (A&B&C). repeat split.
      * rewrite A. unfold dval. cbn [fold_left]. f_equal. lia.
      * intros X. apply B. cbn [forallb]. rewrite X, D. reflexivity.
      * exact C.
Qed.

Lemma size_lt n : n < 2 ^ N.size n.
Proof. apply N.size_gt. Qed.

Lemma dec_spec n : dval 0 (dec n) = n /\ forallb is_digit (dec n) = true /\ dec n <> [].
Proof.
  unfold dec. destruct (dec_aux_spec (N.to_nat (N.size n)) n []) as (A&B&C).
  - rewrite N2Nat.id. apply size_lt.
  - repeat split; [rewrite A; reflexivity|apply B; reflexivity|exact C].
Qed.

Lemma parse_digits_dval ds : forall a, forallb is_digit ds = true -> dval a ds < 2^64 -> parse_digits a ds = Some (dval a ds).
Proof.
  induction ds as [|d ds IH]; intros a H L; cbn [parse_digits]; [reflexivity|].
  cbn [forallb] in H. apply andb_true_iff in H. destruct H as [D H]. rewrite D.
  unfold dval in *. cbn [fold_left] in *. pose proof (dval_mono ds (a * 10 + (d - 48))) as M. unfold dval in M.
  destruct (N.leb_spec (a * 10 + (d - 48)) (2^64 - 1)); [apply IH; assumption|lia].
Qed.

Lemma parse_usize_dec n : n < 2^64 -> parse_usize (dec n) = Some n.
Proof.
  intros H. destruct (dec_spec n) as (A&B&C). unfold parse_usize.
  destruct (dec n) as [|d ds] eqn:E; [congruence|].
  assert (D : is_digit d = true) by (cbn [forallb] in B; apply andb_true_iff in B; tauto).
  replace (d =? 43) with false by (unfold is_digit in D; lia).
  rewrite parse_digits_dval; rewrite ?A; auto.
Qed.

Lemma digits_no (P : N -> bool) ds : (forall b, is_digit b = true -> P b = false) -> forallb is_digit ds = true ->
  forallb (fun b => negb (P b)) ds = true.
Proof.
  intros H D. rewrite forallb_forall in *. intros b Hb. rewrite (H b (D b Hb)). reflexivity.
Qed.

Lemma split_piece sep w s r : forallb (fun b => negb (sep b)) w = true -> sep s = true ->
  split sep (w ++ s :: r) = w :: split sep r.
Proof.
  intros H S. induction w as [|b w IH]; cbn [app split]; [rewrite S; reflexivity|].
  cbn [forallb] in H. rewrite andb_true_iff, negb_true_iff in H. destruct H as [-> H]. rewrite (IH H). reflexivity.
Qed.

Lemma split_ws_word w : forall cur r, forallb is_digit w = true -> 
  split_ws 0 cur (w ++ r) = split_ws 0 (cur ++ w) r.
Proof.
  induction w as [|b w IH]; intros cur r H; [rewrite app_nil_r; reflexivity|].
  cbn [forallb] in H. apply andb_true_iff in H. destruct H as [D H]. cbn [app split_ws].
  assert (WL : ws_len (b :: w ++ r) = 0%nat).
  { unfold is_digit in D. unfold ws_len.
    repeat match goal with |- context [if ?c then _ else _] => replace c with false by lia end.
    destruct (w ++ r) as [|? [|? ?]]; try reflexivity;
    repeat match goal with |- context [if ?c then _ else _] => replace c with false by lia end; reflexivity. }
  rewrite WL, IH by exact H. rewrite <- app_assoc. reflexivity.
Qed.

Lemma ref_header_written v c : v <= max_count -> c < 2^64 ->
  ref_header ([112; 32; 99; 110; 102; 32] ++ dec v ++ [32] ++ dec c) = Some (v, c).
Proof.
  intros HV HC. unfold ref_header. cbn [app]. cbn [N.eqb Pos.eqb andb negb].
  assert (S : split_ws 0 [] (99 :: 110 :: 102 :: 32 :: dec v ++ 32 :: dec c) = [str_cnf; dec v; dec c]).
  { cbn [split_ws ws_len N.leb N.eqb Pos.eqb N.compare Pos.compare Pos.compare_cont andb orb app].
    destruct (dec_spec v) as (_&Dv&Nv). destruct (dec_spec c) as (_&Dc&Nc).
    rewrite (split_ws_word (dec v) []) by exact Dv. cbn [app split_ws ws_len N.leb N.eqb Pos.eqb N.compare Pos.compare Pos.compare_cont andb orb].
    destruct (dec v) as [|d ds] eqn:E; [congruence|].
    assert (X : split_ws 0 [] (dec c) = [dec c]).
    { rewrite <- (app_nil_r (dec c)) at 1. rewrite (split_ws_word (dec c) []) by exact Dc. cbn [app split_ws].
      destruct (dec c); [congruence|]. reflexivity. }
    rewrite X. reflexivity. }
  rewrite S. change (list_eqb str_cnf str_cnf) with true. cbv iota.
  rewrite !parse_usize_dec by (rewrite ?max_count_val in *; lia).
  destruct (N.leb_spec v max_count); [reflexivity|lia].
Qed.

Lemma word_itoa z : word_int (itoa z) = Some z /\ itoa z <> [] /\ forallb (fun b => negb (is_sep b)) (itoa z) = true /\
  starts_with 99 (itoa z) = false /\ starts_with 112 (itoa z) = false.
Proof.
  unfold itoa. destruct (dec_spec (Z.abs_N z)) as (A&B&C).
  assert (NS : forallb (fun b => negb (is_sep b)) (dec (Z.abs_N z)) = true) by (apply digits_no; [apply digit_not_sep|exact B]).
  destruct (Z.ltb_spec z 0) as [L|L].
  - unfold word_int, word_abs, word_neg. cbn [N.eqb Pos.eqb].
    destruct (dec (Z.abs_N z)) as [|d ds] eqn:E; [congruence|]. rewrite B, A.
    repeat split; try discriminate; [f_equal; lia|].
    cbn [forallb] in NS |- *. rewrite NS. reflexivity.
  - unfold word_int, word_abs, word_neg. destruct (dec (Z.abs_N z)) as [|d ds] eqn:E; [congruence|].
    assert (D : is_digit d = true) by (cbn [forallb] in B; apply andb_true_iff in B; tauto).
    replace (d =? 45) with false by (unfold is_digit in D; lia). rewrite B, A.
    repeat split; try discriminate; [f_equal; lia|exact NS| |]; cbn [starts_with]; unfold is_digit in D; lia.
Qed.

Definition lits_ok (c : list N) : Prop := Forall (fun l => valid_lit l = true) c.

Lemma ref_word_lit cls pc l : valid_lit l = true ->
  ref_word (Some (cls, pc)) (itoa (lit_to_dimacs l)) = Some (cls, pc ++ [l]).
Proof.
  intros V. destruct (word_itoa (lit_to_dimacs l)) as (A&B&_). unfold ref_word.
  destruct (itoa (lit_to_dimacs l)) as [|b w]; [congruence|]. rewrite A.
  destruct (lit_roundtrip l V) as (R1&R2&R3).
  destruct (Z.leb_spec (Z.abs (lit_to_dimacs l)) (Z.of_N max_count)); [|lia].
  destruct (Z.eqb_spec (lit_to_dimacs l) 0); [congruence|]. rewrite R3. reflexivity.
Qed.

Definition clause_body (c : list N) : list N := flat_map (fun l => itoa (lit_to_dimacs l) ++ [32]) c ++ [48].

Lemma body_words c : forall cls pc, lits_ok c ->
  fold_left ref_word (split is_space (clause_body c)) (Some (cls, pc)) = Some (cls ++ [pc ++ c], []).
Proof.
  induction c as [|l c IH]; intros cls pc H.
  - rewrite app_nil_r. reflexivity.
  - inversion H; subst. unfold clause_body. cbn [flat_map]. rewrite <- !app_assoc.
    change ([32] ++ flat_map (fun l0 => itoa (lit_to_dimacs l0) ++ [32]) c ++ [48])
      with (32 :: clause_body c).
    destruct (word_itoa (lit_to_dimacs l)) as (_&_&N&_).
    rewrite split_piece; [|rewrite forallb_forall in *; intros b Hb; specialize (N b Hb); unfold is_sep, is_space in *; lia|reflexivity].
    cbn [fold_left]. rewrite ref_word_lit by assumption. rewrite IH by assumption. rewrite <- app_assoc. reflexivity.
Qed.

Lemma body_nl c : forallb (fun b => negb (is_nl b)) (clause_body c) = true.
Proof.
  unfold clause_body. rewrite forallb_app. apply andb_true_iff. split; [|reflexivity].
  induction c as [|l c IH]; cbn [flat_map]; [reflexivity|]. rewrite !forallb_app, IH, andb_true_r. cbn [forallb]. rewrite andb_true_r.
  destruct (word_itoa (lit_to_dimacs l)) as (_&_&N&_).
  rewrite forallb_forall in *; intros b Hb; specialize (N b Hb). unfold is_sep, is_nl in *. lia.
Qed.

Lemma body_start c x : x = 99 \/ x = 112 -> starts_with x (clause_body c) = false.
Proof.
  intros Hx. unfold clause_body. destruct c as [|l c]; cbn [flat_map]; [destruct Hx; subst; reflexivity|].
  destruct (word_itoa (lit_to_dimacs l)) as (_&NE&_&S1&S2). destruct (itoa (lit_to_dimacs l)) as [|b w]; [congruence|].
  destruct Hx; subst; assumption.
Qed.

Lemma ref_lines_clauses cs : forall h cls, Forall lits_ok cs ->
  fold_left ref_line (split is_nl (write_dimacs_clauses cs)) (Some (h, (cls, []))) = Some (h, (cls ++ cs, [])) /\
  last (split is_nl (write_dimacs_clauses cs)) [] = [].
Proof.
  induction cs as [|c cs IH]; intros h cls H.
  - cbn. rewrite app_nil_r. split; reflexivity.
  - inversion H; subst. unfold write_dimacs_clauses. cbn [flat_map]. fold (write_dimacs_clauses cs).
    replace (write_clause c ++ write_dimacs_clauses cs) with (clause_body c ++ 10 :: write_dimacs_clauses cs)
      by (unfold write_clause, clause_body; rewrite <- !app_assoc; reflexivity).
    rewrite split_piece by (try reflexivity; apply body_nl). cbn [fold_left].
    replace (ref_line (Some (h, (cls, []))) (clause_body c)) with (Some (h, (cls ++ [c], @nil N))).
    2:{ unfold ref_line. rewrite !body_start by auto. rewrite body_words by assumption. reflexivity. }
    destruct (IH h (cls ++ [c]) ltac:(assumption)) as [A B]. rewrite A, <- app_assoc. split; [reflexivity|].
    pose proof (split_ne is_nl (write_dimacs_clauses cs)). destruct (split is_nl (write_dimacs_clauses cs)); [congruence|exact B].
Qed.

Lemma ref_parse_written v c cs : v <= max_count -> c < 2^64 -> Forall lits_ok cs ->
  let bs := write_dimacs_header v c ++ write_dimacs_clauses cs in
  ref_parse bs = Some (Some (v, c), cs) /\ ~ dangling_minus bs.
Proof.
  intros HV HC HL bs. subst bs. unfold write_dimacs_header.
  set (hl := [112; 32; 99; 110; 102; 32] ++ dec v ++ [32] ++ dec c).
  replace (([112; 32; 99; 110; 102; 32] ++ dec v ++ [32] ++ dec c ++ [10]) ++ write_dimacs_clauses cs)
    with (hl ++ 10 :: write_dimacs_clauses cs) by (unfold hl; rewrite <- !app_assoc; reflexivity).
  assert (NL : forallb (fun b => negb (is_nl b)) hl = true).
  { unfold hl. rewrite !forallb_app. rewrite !andb_true_iff. repeat split; try reflexivity;
      (apply digits_no; [unfold is_digit, is_nl; lia|apply dec_spec]). }
  destruct (ref_lines_clauses cs (Some (v, c)) [] HL) as [A B].
  unfold ref_parse, dangling_minus. rewrite split_piece by (try exact NL; reflexivity). split.
  - cbn [fold_left]. replace (ref_line (Some (None, ([], []))) hl) with (Some (Some (v, c), (@nil (list N), @nil N))).
    + rewrite A. reflexivity.
    + unfold ref_line. replace (starts_with 99 hl) with false by reflexivity. replace (starts_with 112 hl) with true by reflexivity.
      unfold hl. rewrite ref_header_written by assumption. reflexivity.
  - pose proof (split_ne is_nl (write_dimacs_clauses cs)). destruct (split is_nl (write_dimacs_clauses cs)) as [|x y]; [congruence|].
    change (last (hl :: x :: y) []) with (last (x :: y) []). rewrite B. cbn. discriminate.
Qed.

Lemma parse_chunks_plain chunks : forall i p out, p_error p = false ->
  parse_chunks (fun _ => false) i p out chunks = (let '(q, e) := parse_bytes p (concat chunks) in (q, out, e)).
Proof.
  induction chunks as [|c cs IH]; intros i p out H; cbn [parse_chunks concat]; [reflexivity|].
  unfold parse_chunk. rewrite H, parse_bytes_app. pose proof (parse_bytes_error p c) as PE.
  destruct (parse_bytes p c) as [q [e|]]; [reflexivity|]. unfold callback. cbv iota. apply IH.
  rewrite PE. exact H.
Qed.

Lemma parse_concat chunks : parse chunks = parse [concat chunks].
Proof.
  unfold parse, parse_incremental. rewrite !parse_chunks_plain by reflexivity. cbn [concat]. rewrite app_nil_r.
  destruct (parse_bytes parser_new (concat chunks)) as [q [e|]]; [reflexivity|].
  destruct (parse_eof q) as [q' [e|]]; reflexivity.
Qed.

(** for any way of cutting the written text into chunks *)
Lemma parse_written ops chunks :
  let f := cnf_run ops in
  var_count f <= max_count -> Forall lits_ok (op_clauses ops) -> N.of_nat (length (op_clauses ops)) < 2^64 ->
  write_dimacs f = Some (concat chunks) ->
  exists g, parse chunks = inl g /\ cnf_iter g = cnf_iter f /\ var_count g = var_count f /\ cnf_len g = cnf_len f.
Proof.
  intros f HV HL HC HW. destruct (cnf_run_spec ops) as (I&V&L). fold f in I, V, L.
  unfold write_dimacs in HW. rewrite I in HW.
  assert (HW' : write_dimacs_header (var_count f) (N.of_nat (cnf_len f)) ++ write_dimacs_clauses (op_clauses ops) = concat chunks) by congruence.
  assert (LC : N.of_nat (cnf_len f) < 2^64) by (rewrite L; exact HC).
  destruct (ref_parse_written (var_count f) (N.of_nat (cnf_len f)) (op_clauses ops) HV LC HL) as [R D].
  cbv zeta in R, D. rewrite HW' in R, D. pose proof (parse_spec _ D) as PS. rewrite R in PS.
  assert (OK : hdr_ok (Some (var_count f, N.of_nat (cnf_len f))) (op_clauses ops) = true).
  { cbn [hdr_ok]. rewrite L, N.eqb_refl. cbn [andb]. rewrite forallb_forall. intros c Hc. rewrite forallb_forall. intros l Hl.
    pose proof (var_count_bounds ops c l Hc Hl). fold f in H. rewrite lit_var_div. lia. }
  rewrite parse_concat. destruct (parse [concat chunks]) as [g|e].
  - destruct PS as (h&cls&E&_&IG&LG&VG). inversion E; subst h cls. exists g. repeat split; congruence.
  - congruence.
Qed.

(* ---- ranges and header for every accepted input ---- *)
Lemma acc_eof p : acc_ok p -> acc_ok (fst (parse_eof p)).
Proof.
  intros H. unfold parse_eof.
  assert (A : acc_ok (fst (if p_in_header p then parse_header_line p else (p, None)))).
  { destruct (p_in_header p); [apply acc_header; exact H|exact H]. }
  destruct (if p_in_header p then parse_header_line p else (p, None)) as [q [e|]]; cbn [fst] in *; [exact A|].
  apply acc_finish in A. destruct (p_partial_clause (finish_literal q)); exact A.
Qed.

Lemma incr_plain chunks : parse_incremental (fun _ => false) chunks =
  match parse_bytes parser_new (concat chunks) with
  | (p, Some e) => (p, [], Some e)
  | (p, None) => match parse_eof p with
                 | (p, Some e) => (p, [], Some e)
                 | (p, None) => (p, [], check_header p)
                 end
  end.
Proof.
  unfold parse_incremental. rewrite parse_chunks_plain by reflexivity.
  destruct (parse_bytes parser_new (concat chunks)) as [q [e|]]; [reflexivity|].
  destruct (parse_eof q) as [q' [e|]]; reflexivity.
Qed.

Lemma parse_result_valid chunks f : parse chunks = inl f ->
  exists cs, cnf_iter f = Some cs /\ Forall (Forall (fun l => valid_lit l = true)) cs.
Proof.
  unfold parse. rewrite incr_plain. pose proof (acc_bytes (concat chunks) _ acc_new) as A.
  destruct (parse_bytes parser_new (concat chunks)) as [q [e|]]; [discriminate|]. cbn [fst] in A.
  apply acc_eof in A. destruct (parse_eof q) as [q' [e|]]; [discriminate|]. cbn [fst] in A.
  destruct (check_header q'); [discriminate|]. intros H.
  assert (PF : fst (take_formula q') = p_formula q') by (destruct q'; reflexivity). rewrite PF in H.
  inversion H; subst f. destruct A as (_&B&_&cs&D). exists cs. auto.
Qed.

(** header bound, clause count and variable bound, for every byte sequence *)
Definition hdr_inv (p : parser) : Prop :=
  hdr_vars (p_header p) <= max_count /\
  exists cs, cnf_iter (p_formula p) = Some cs /\ p_clause_count p = N.of_nat (length cs) /\
    var_count (p_formula p) = N.max (cls_vars cs) (hdr_vars (p_header p)).

Lemma hi_header p : hdr_inv p -> p_header p = None -> hdr_inv (fst (parse_header_line p)).
Proof.
  destruct p as [f pc h ln cc pl ng il ic ih sol er hl].
  intros (A&cs&B&C&D) HN. cbn in HN. subst h. rewrite parse_header_line_eq. cbn [p_line p_header_line].
  pose proof (header_outcome_ref ln hl) as HO. destruct (ref_header hl) as [[v c]|] eqn:RH.
  - rewrite HO. split; [cbn; eapply ref_header_bound; exact RH|]. exists cs. cbn in *. repeat split; [exact B|exact C|lia].
  - destruct HO as (e&->). split; [exact A|]. exists cs. auto.
Qed.

Lemma cls_vars_app a b : cls_vars (a ++ b) = N.max (cls_vars a) (cls_vars b).
Proof. unfold cls_vars. induction a as [|x a IHa]; cbn [app fold_right]; [lia|]. rewrite IHa. lia. Qed.

Lemma hi_finish p : hdr_inv p -> hdr_inv (finish_literal p).
Proof.
  destruct p as [f pc h ln cc pl ng il ic ih sol er hl]. intros (A&cs&B&C&D). cbn [p_header p_formula p_clause_count] in *.
  unfold finish_literal. destruct il; [|split; [exact A|exists cs; auto]].
  destruct (pl =? 0); [|split; [exact A|exists cs; auto]].
  split; [exact A|]. exists (cs ++ [pc]). cbn [p_header p_formula p_clause_count].
  rewrite (cnf_add_clause_iter _ _ _ B), cnf_add_clause_vc, app_length, cls_vars_app. cbn [length cls_vars fold_right].
  repeat split; lia.
Qed.

Definition hl_only (p : parser) : Prop := p_in_header p = true -> p_header p = None.

Lemma hi_byte p b : hdr_inv p -> hl_only p -> hdr_inv (fst (parse_byte p b)) /\
  (snd (parse_byte p b) = None -> hl_only (fst (parse_byte p b))).
Proof.
  destruct p as [f pc h ln cc pl ng il ic ih sol er hl]. intros H O. unfold parse_byte.
  set (ln' := if b =? 10 then ln + 1 else ln). unfold hl_only in O. cbn [p_in_header p_header] in O.
  assert (T : forall pc ln pl ng il ic ih sol er hl, hdr_inv (mkParser f pc h ln cc pl ng il ic ih sol er hl))
    by (intros; exact H).
  destruct (is_nl b && ic).
  { destruct ih; [|split; [apply T|intros _ X; discriminate X]].
    pose proof (hi_header _ (T pc ln' pl ng il ic false sol er hl) (O eq_refl)) as A.
    assert (IH : p_in_header (fst (parse_header_line (mkParser f pc h ln' cc pl ng il ic false sol er hl))) = false).
    { rewrite parse_header_line_eq. destruct (header_outcome _ _); reflexivity. }
    destruct (parse_header_line _) as [q [e|]]; cbn [fst snd] in *; [split; [exact A|discriminate]|].
    destruct q. split; [exact A|]. intros _ X. cbn in *. congruence. }
  destruct ic; [split; [apply T|intros _; exact O]|].
  destruct (is_digit b). { destruct (_ && _); (split; [apply T|intros _; exact O]). }
  destruct (_ && _ && _); [split; [apply T|intros _; exact O]|].
  destruct (_ && _).
  { pose proof (hi_finish _ (T pc ln' pl ng il false ih sol er hl)) as A.
    assert (X : p_in_header (finish_literal (mkParser f pc h ln' cc pl ng il false ih sol er hl)) = ih /\
                p_header (finish_literal (mkParser f pc h ln' cc pl ng il false ih sol er hl)) = h).
    { unfold finish_literal. destruct il; [destruct (pl =? 0)|]; split; reflexivity. }
    destruct (finish_literal _). destruct X as [X1 X2]. cbn in X1, X2. subst. split; [exact A|]. intros _. exact O. }
  destruct (_ && _); [split; [apply T|intros _; exact O]|].
  destruct ((b =? 112) && sol); [|split; [apply T|discriminate]].
  destruct h; (split; [apply T|]); [discriminate|]. intros _ _. reflexivity.
Qed.

Lemma hi_bytes bs : forall p, hdr_inv p -> hl_only p -> hdr_inv (fst (parse_bytes p bs)) /\
  (snd (parse_bytes p bs) = None -> hl_only (fst (parse_bytes p bs))).
Proof.
  induction bs as [|b bs IH]; intros p H O; cbn [parse_bytes]; [auto|].
  destruct (hi_byte p b H O) as [A B]. destruct (parse_byte p b) as [q [e|]]; [split; [exact A|discriminate]|].
  apply IH; [exact A|]. apply B. reflexivity.
Qed.

Lemma hi_eof p : hdr_inv p -> hl_only p -> hdr_inv (fst (parse_eof p)).
Proof.
  intros H O. unfold parse_eof.
  assert (A : hdr_inv (fst (if p_in_header p then parse_header_line p else (p, None)))).
  { destruct (p_in_header p) eqn:E; [apply hi_header; [exact H|apply O; exact E]|exact H]. }
  destruct (if p_in_header p then parse_header_line p else (p, None)) as [q [e|]]; cbn [fst] in *; [exact A|].
  apply hi_finish in A. destruct (p_partial_clause (finish_literal q)); exact A.
Qed.

Lemma hi_new : hdr_inv parser_new /\ hl_only parser_new.
Proof. split; [|discriminate]. split; [cbn; rewrite max_count_val; lia|]. exists []. repeat split. Qed.

Lemma header_enforced chunks p out : parse_incremental (fun _ => false) chunks = (p, out, None) ->
  forall v c, p_header p = Some (v, c) ->
  v <= max_count /\ var_count (p_formula p) = v /\ p_clause_count p = c /\
  exists cs, cnf_iter (p_formula p) = Some cs /\ N.of_nat (length cs) = c /\
    Forall (Forall (fun l => N.div2 l < v)) cs.
Proof.
  rewrite incr_plain. destruct hi_new as [N1 N2].
  destruct (hi_bytes (concat chunks) _ N1 N2) as [A B].
  destruct (parse_bytes parser_new (concat chunks)) as [q [e|]]; [discriminate|]. cbn [fst snd] in *.
  pose proof (hi_eof q A (B eq_refl)) as E. destruct (parse_eof q) as [q' [e|]]; [discriminate|]. cbn [fst] in E.
  intros X v c HH. inversion X as [[X1 X2 X3]]. subst q'. destruct E as (E1&cs&E2&E3&E4).
  unfold check_header in X3. rewrite HH in *. cbn [hdr_vars] in *.
  destruct (N.eqb_spec (var_count (p_formula p)) v) as [V|V]; [|discriminate].
  destruct (N.eqb_spec (p_clause_count p) c) as [C|C]; [|discriminate].
  split; [exact E1|]. split; [exact V|]. split; [exact C|]. exists cs. split; [exact E2|]. split; [congruence|].
  assert (L : cls_vars cs <= v) by lia. apply cls_vars_le in L.
  rewrite forallb_forall in L. apply Forall_forall. intros x Hx. specialize (L x Hx).
  rewrite forallb_forall in L. apply Forall_forall. intros l Hl. specialize (L l Hl). rewrite lit_var_div in L. lia.
Qed.
