(** The byte-wise parser computes the reference description [ref_parse]. *)
From Coq Require Import Arith ZArith ZifyBool ZifyNat ZifyN.
From Verif Require Import Spec Lit LitProofs Cnf CnfProofs Dimacs DimacsSpec DimacsProofs.

Definition fail (r : parser * option parse_error) : Prop := exists p e, r = (p, Some e).

Lemma fail_app p a b : fail (parse_bytes p a) -> fail (parse_bytes p (a ++ b)).
Proof. intros (q&e&E). rewrite parse_bytes_app, E. exists q, e. reflexivity. Qed.

Lemma fail_cons p b r : fail (parse_byte p b) -> fail (parse_bytes p (b :: r)).
Proof. intros (q&e&E). cbn [parse_bytes]. rewrite E. exists q, e. reflexivity. Qed.

Lemma ok_app p a b q : parse_bytes p a = (q, None) -> parse_bytes p (a ++ b) = parse_bytes q b.
Proof. intros E. rewrite parse_bytes_app, E. reflexivity. Qed.

Lemma fail_unexpected p e : fail (p, Some e). Proof. exists p, e. reflexivity. Qed.

Definition is_sep (b : N) : bool := (b =? 32) || is_nl b.
Definition no_sep (w : list N) : Prop := forallb (fun b => negb (is_sep b)) w = true.

Lemma digit_not_sep b : is_digit b = true -> is_sep b = false.
Proof. unfold is_digit, is_sep, is_nl. lia. Qed.

Lemma overflow_check pl d : d <= 9 -> pl <= max_count ->
  (can_overflow <=? pl) && (can_overflow + (if d <=? overflow_digit then 1 else 0) <=? pl) = (max_count <? pl * 10 + d).
Proof.
  unfold can_overflow, overflow_digit. rewrite max_count_val. change (268435456 / 10) with 26843545.
  change (268435456 mod 10) with 6. intros. destruct (N.leb_spec d 6); lia.
Qed.

Lemma dval_mono ds : forall a, a <= dval a ds.
Proof.
  induction ds as [|d ds IH]; intros a; unfold dval in *; cbn [fold_left]; [lia|].
  specialize (IH (a * 10 + (d - 48))). lia.
Qed.

(** inside a literal *)
Lemma feed_digits w : forall f pc h ln cc pl ng hl, no_sep w -> pl <= max_count ->
  let r := parse_bytes (mkParser f pc h ln cc pl ng true false false false false hl) w in
  if forallb is_digit w && (dval pl w <=? max_count)
  then r = (mkParser f pc h ln cc (dval pl w) ng true false false false false hl, None)
  else fail r.
Proof.
  induction w as [|b w IH]; intros f pc h ln cc pl ng hl NS PL r; subst r.
  - unfold dval. cbn. destruct (N.leb_spec pl max_count); [reflexivity|lia].
  - unfold no_sep in NS. cbn [forallb] in NS. rewrite andb_true_iff, negb_true_iff in NS. destruct NS as [NB NS].
    cbn [forallb dval fold_left]. fold (dval (pl * 10 + (b - 48)) w).
    assert (NL : (b =? 10) = false) by (unfold is_sep, is_nl in NB; lia).
    assert (NNL : is_nl b = false) by (unfold is_sep, is_nl in *; lia).
    destruct (is_digit b) eqn:D.
    + cbn [andb]. cbn [parse_bytes]. unfold parse_byte. rewrite NL, NNL, D. cbn [andb].
      rewrite overflow_check by (unfold is_digit in D; lia).
      pose proof (dval_mono w (pl * 10 + (b - 48))) as MO.
      destruct (N.ltb_spec max_count (pl * 10 + (b - 48))) as [L|L].
      * destruct (N.leb_spec (dval (pl * 10 + (b - 48)) w) max_count); [lia|].
        rewrite andb_false_r. apply fail_unexpected.
      * apply (IH f pc h ln cc (pl * 10 + (b - 48)) ng hl NS L).
    + cbn [andb]. apply fail_cons. unfold parse_byte. rewrite NL, NNL, D. cbn [andb negb].
      assert (SP : (b =? 32) = false) by (unfold is_sep, is_nl in *; lia).
      rewrite ?andb_false_r. rewrite SP. cbn [orb andb]. apply fail_unexpected.
Qed.

(** parser states between literals, with the clauses and header seen so far *)
Definition St (cls : list (list N)) (pc : list N) (h : option (N * N)) (ln : N) (sol : bool) (hl : list N) : parser :=
  mkParser (cnf_set_var_count (cnf_from cls) (hdr_vars h)) pc h ln (N.of_nat (length cls)) 0 false false false false sol false hl.

(** after a (possibly empty) word, before its separator *)
Definition Wd (cls : list (list N)) (pc : list N) (h : option (N * N)) (ln : N) (hl : list N) (n : N) (ng : bool) : parser :=
  mkParser (cnf_set_var_count (cnf_from cls) (hdr_vars h)) pc h ln (N.of_nat (length cls)) n ng true false false false false hl.

Lemma starts_with_spec b w : starts_with b w = true <-> exists r, w = b :: r.
Proof.
  destruct w as [|c w]; cbn; [split; [discriminate|intros (r&E); discriminate]|].
  rewrite N.eqb_eq. split; [intros ->; eauto|intros (r&E); congruence].
Qed.

Lemma feed_word w cls pc h ln sol hl : w <> [] -> no_sep w ->
  (sol = true -> starts_with 99 w = false /\ starts_with 112 w = false) ->
  let r := parse_bytes (St cls pc h ln sol hl) w in
  match word_abs w with
  | Some n => if n <=? max_count then r = (Wd cls pc h ln hl n (word_neg w), None) else fail r
  | None =>
      if list_eqb w [45] then
        r = (mkParser (cnf_set_var_count (cnf_from cls) (hdr_vars h)) pc h ln (N.of_nat (length cls)) 0 true false false false false false hl, None)
      else fail r
  end.
Proof.
  intros NE NS HS r. destruct w as [|b w]; [congruence|]. clear NE.
  unfold no_sep in NS. cbn [forallb] in NS. rewrite andb_true_iff, negb_true_iff in NS. destruct NS as [NB NS].
  assert (NL : (b =? 10) = false) by (unfold is_sep, is_nl in NB; lia).
  assert (NNL : is_nl b = false) by (unfold is_sep, is_nl in *; lia).
  assert (SP : (b =? 32) = false) by (unfold is_sep, is_nl in *; lia).
  subst r. unfold St. set (f := cnf_set_var_count (cnf_from cls) (hdr_vars h)). set (cc := N.of_nat (length cls)).
  unfold word_abs, word_neg.
  destruct (N.eqb_spec b 45) as [E|E].
  - subst b. destruct w as [|d w].
    + cbn. reflexivity.
    + assert (LE : list_eqb (45 :: d :: w) [45] = false) by (cbn; reflexivity). rewrite LE.
      change (parse_bytes (mkParser f pc h ln cc 0 false false false false sol false hl) (45 :: d :: w))
        with (parse_bytes (mkParser f pc h ln cc 0 true false false false false false hl) (d :: w)).
      unfold no_sep in NS. cbn [forallb] in NS. rewrite andb_true_iff, negb_true_iff in NS. destruct NS as [NB' NS'].
      assert (NL' : (d =? 10) = false) by (unfold is_sep, is_nl in NB'; lia).
      assert (NNL' : is_nl d = false) by (unfold is_sep, is_nl in *; lia).
      assert (SP' : (d =? 32) = false) by (unfold is_sep, is_nl in *; lia).
      destruct (is_digit d) eqn:D.
      * assert (PD : parse_byte (mkParser f pc h ln cc 0 true false false false false false hl) d
          = (mkParser f pc h ln cc (0 * 10 + (d - 48)) true true false false false false hl, None)).
        { unfold parse_byte. rewrite NL', NNL', D. cbn [andb]. rewrite overflow_check by (rewrite ?max_count_val; unfold is_digit in D; lia).
          destruct (N.ltb_spec max_count (0 * 10 + (d - 48))) as [L|L]; [rewrite max_count_val in L; unfold is_digit in D; lia|]. reflexivity. }
        cbn [parse_bytes]. rewrite PD.
        assert (PL : 0 * 10 + (d - 48) <= max_count) by (rewrite max_count_val; unfold is_digit in D; lia).
        pose proof (feed_digits w f pc h ln cc (0 * 10 + (d - 48)) true hl NS' PL) as FD. cbv zeta in FD.
        cbn [forallb dval fold_left]. rewrite D. cbn [andb]. fold (dval (0 * 10 + (d - 48)) w).
        destruct (forallb is_digit w); cbn [andb] in FD; [|exact FD].
        destruct (dval (0 * 10 + (d - 48)) w <=? max_count); exact FD.
      * cbn [forallb]. rewrite D. cbn [andb]. apply fail_cons. unfold parse_byte. rewrite NL', NNL', D, SP'.
        cbn [andb negb orb]. rewrite ?andb_false_r. cbn [andb]. rewrite ?andb_false_r. apply fail_unexpected.
  - destruct (is_digit b) eqn:D.
    + assert (PD : parse_byte (mkParser f pc h ln cc 0 false false false false sol false hl) b
          = (mkParser f pc h ln cc (0 * 10 + (b - 48)) false true false false false false hl, None)).
      { unfold parse_byte. rewrite NL, NNL, D. cbn [andb]. rewrite overflow_check by (rewrite ?max_count_val; unfold is_digit in D; lia).
        destruct (N.ltb_spec max_count (0 * 10 + (b - 48))) as [L|L]; [rewrite max_count_val in L; unfold is_digit in D; lia|]. reflexivity. }
      cbn [parse_bytes]. rewrite PD.
      assert (PL : 0 * 10 + (b - 48) <= max_count) by (rewrite max_count_val; unfold is_digit in D; lia).
      pose proof (feed_digits w f pc h ln cc (0 * 10 + (b - 48)) false hl NS PL) as FD. cbv zeta in FD.
      cbn [forallb dval fold_left]. rewrite D. cbn [andb]. fold (dval (0 * 10 + (b - 48)) w).
      assert (LE : list_eqb (b :: w) [45] = false) by (cbn; destruct (N.eqb_spec b 45); [congruence|reflexivity]).
      rewrite LE.
      destruct (forallb is_digit w); cbn [andb] in FD; [|exact FD].
      destruct (dval (0 * 10 + (b - 48)) w <=? max_count); exact FD.
    + cbn [forallb]. rewrite D. cbn [andb].
      assert (LE : list_eqb (b :: w) [45] = false) by (cbn; destruct (N.eqb_spec b 45); [congruence|reflexivity]).
      rewrite LE. apply fail_cons. unfold parse_byte. rewrite NL, NNL, D, SP.
      destruct (N.eqb_spec b 45); [congruence|]. cbn [andb orb].
      cbn [starts_with] in HS. destruct sol.
      * destruct (HS eq_refl) as [H1 H2]. rewrite H1, H2. cbn [andb]. apply fail_unexpected.
      * rewrite ?andb_false_r. cbn [andb]. apply fail_unexpected.
Qed.

Lemma set_vc_add f c v : cnf_add_clause (cnf_set_var_count f v) c = cnf_set_var_count (cnf_add_clause f c) v.
Proof.
  unfold cnf_add_clause, cnf_set_var_count. cbn [literals clause_ranges var_count].
  rewrite !fold_max_clause. f_equal. lia.
Qed.

Lemma cnf_from_snoc cls c : cnf_from (cls ++ [c]) = cnf_add_clause (cnf_from cls) c.
Proof. unfold cnf_from. rewrite fold_left_app. reflexivity. Qed.

Lemma lit_of_word n ng : n <> 0 -> n <= max_count ->
  lit_from_var (var_from_dimacs (Z.of_N n)) (negb ng) = lit_from_dimacs (if ng then - Z.of_N n else Z.of_N n)%Z.
Proof.
  intros H0 H. unfold lit_from_dimacs. f_equal.
  - f_equal. destruct ng; lia.
  - destruct ng; cbn; lia.
Qed.

(** what [finish_literal] does after a word *)
Lemma finish_word cls pc h ln hl n ng : n <= max_count ->
  finish_literal (Wd cls pc h ln hl n ng) =
  match ref_word (Some (cls, pc)) (if ng then [45; 48] else [48]) with _ =>
    if n =? 0 then Wd (cls ++ [pc]) [] h ln hl n ng
    else Wd cls (pc ++ [lit_from_dimacs (if ng then - Z.of_N n else Z.of_N n)%Z]) h ln hl n ng end.
Proof.
  intros H. unfold finish_literal, Wd. destruct (N.eqb_spec n 0) as [E|E].
  - rewrite set_vc_add, cnf_from_snoc, app_length, Nat.add_comm. cbn [length Nat.add]. f_equal. lia.
  - rewrite lit_of_word by assumption. reflexivity.
Qed.

Lemma ref_word_some w cls pc n : w <> [] -> word_abs w = Some n ->
  ref_word (Some (cls, pc)) w =
  if n <=? max_count then
    if n =? 0 then Some (cls ++ [pc], [])
    else Some (cls, pc ++ [lit_from_dimacs (if word_neg w then - Z.of_N n else Z.of_N n)%Z])
  else None.
Proof.
  intros NE E. unfold ref_word. destruct w as [|b w]; [congruence|]. unfold word_int. rewrite E.
  set (z := (if word_neg (b :: w) then - Z.of_N n else Z.of_N n)%Z).
  assert (A : Z.abs z = Z.of_N n) by (subst z; destruct (word_neg (b :: w)); lia). rewrite A.
  replace (Z.of_N n <=? Z.of_N max_count)%Z with (n <=? max_count) by lia.
  destruct (n <=? max_count); [|reflexivity].
  replace (z =? 0)%Z with (n =? 0) by lia. reflexivity.
Qed.

Lemma ref_word_none w cls pc : w <> [] -> word_abs w = None -> ref_word (Some (cls, pc)) w = None.
Proof. intros NE E. unfold ref_word, word_int. destruct w; [congruence|]. rewrite E. reflexivity. Qed.

Definition nl_inc (b : N) (ln : N) : N := if b =? 10 then ln + 1 else ln.

(** a word and the separator that ends it *)
Lemma feed_word_sep w s cls pc h ln sol hl : no_sep w -> is_sep s = true ->
  (sol = true -> starts_with 99 w = false /\ starts_with 112 w = false) ->
  let r := parse_bytes (St cls pc h ln sol hl) (w ++ [s]) in
  match ref_word (Some (cls, pc)) w with
  | Some (cls', pc') => r = (St cls' pc' h (nl_inc s ln) (negb (s =? 32)) hl, None)
  | None => fail r
  end.
Proof.
  intros NS SS HS r. subst r.
  assert (SEP : is_digit s = false /\ (s =? 45) = false /\ ((s =? 32) || is_nl s) = true)
    by (unfold is_sep, is_nl, is_digit in *; lia).
  destruct SEP as (SD&SM&S32).
  destruct w as [|b w].
  - cbn [ref_word app]. unfold St. cbn [parse_bytes]. unfold parse_byte. rewrite andb_false_r, SD, SM, S32.
    cbn [andb negb orb finish_literal]. reflexivity.
  - assert (NE : b :: w <> []) by discriminate. remember (b :: w) as w' eqn:Ew. clear Ew.
    pose proof (feed_word w' cls pc h ln sol hl NE NS HS) as FW. cbv zeta in FW.
    destruct (word_abs w') as [n|] eqn:WA.
    + rewrite (ref_word_some w' cls pc n NE WA). destruct (N.leb_spec n max_count) as [L|L].
      * rewrite (ok_app _ _ _ _ FW). cbn [parse_bytes]. unfold Wd at 1 2. unfold parse_byte.
        rewrite andb_false_r, SD, SM, S32. cbn [andb negb orb]. rewrite orb_true_r.
        fold (nl_inc s ln).
        change (mkParser (cnf_set_var_count (cnf_from cls) (hdr_vars h)) pc h (nl_inc s ln) (N.of_nat (length cls)) n (word_neg w') true false false false false hl)
          with (Wd cls pc h (nl_inc s ln) hl n (word_neg w')).
        rewrite finish_word by exact L.
        destruct (N.eqb_spec n 0) as [E|E]; unfold Wd; reflexivity.
      * apply fail_app. exact FW.
    + rewrite (ref_word_none w' cls pc NE WA). destruct (list_eqb w' [45]).
      * rewrite (ok_app _ _ _ _ FW). apply fail_cons. unfold parse_byte. rewrite andb_false_r, SD, SM.
        cbn [andb negb orb]. rewrite ?andb_false_r. apply fail_unexpected.
      * apply fail_app. exact FW.
Qed.

(** a word at the end of the input *)
Lemma feed_word_end w cls pc h ln sol hl : no_sep w -> w <> [45] ->
  (sol = true -> starts_with 99 w = false /\ starts_with 112 w = false) ->
  let r := parse_bytes (St cls pc h ln sol hl) w in
  match ref_word (Some (cls, pc)) w with
  | Some (cls', pc') => exists q, r = (q, None) /\ p_in_header q = false /\
       p_formula (finish_literal q) = cnf_set_var_count (cnf_from cls') (hdr_vars h) /\
       p_partial_clause (finish_literal q) = pc' /\ p_header (finish_literal q) = h /\
       p_clause_count (finish_literal q) = N.of_nat (length cls')
  | None => fail r
  end.
Proof.
  intros NS NM HS r. subst r. destruct w as [|b w].
  - cbn [ref_word parse_bytes]. exists (St cls pc h ln sol hl). repeat split.
  - assert (NE : b :: w <> []) by discriminate. remember (b :: w) as w' eqn:Ew. clear Ew.
    pose proof (feed_word w' cls pc h ln sol hl NE NS HS) as FW. cbv zeta in FW.
    destruct (word_abs w') as [n|] eqn:WA.
    + rewrite (ref_word_some w' cls pc n NE WA). destruct (N.leb_spec n max_count) as [L|L]; [|exact FW].
      destruct (N.eqb_spec n 0) as [E|E].
      * exists (Wd cls pc h ln hl n (word_neg w')). split; [exact FW|]. split; [reflexivity|].
        rewrite finish_word by exact L. destruct (N.eqb_spec n 0); [|congruence]. repeat split.
      * exists (Wd cls pc h ln hl n (word_neg w')). split; [exact FW|]. split; [reflexivity|].
        rewrite finish_word by exact L. destruct (N.eqb_spec n 0); [congruence|]. repeat split.
    + rewrite (ref_word_none w' cls pc NE WA). destruct (list_eqb w' [45]) eqn:LE; [|exact FW].
      apply list_eqb_eq in LE. congruence.
Qed.

(* ---- lines ---- *)
Fixpoint join (s : N) (ws : list (list N)) : list N :=
  match ws with
  | [] => []
  | [w] => w
  | w :: ws => w ++ s :: join s ws
  end.

Lemma split_ne sep bs : split sep bs <> [].
Proof. destruct bs as [|b bs]; cbn; [discriminate|]. destruct (sep b); [discriminate|]. destruct (split sep bs); discriminate. Qed.

Lemma split_pieces sep bs : Forall (fun w => forallb (fun b => negb (sep b)) w = true) (split sep bs).
Proof.
  induction bs as [|b bs IH]; cbn [split]; [repeat constructor|].
  destruct (sep b) eqn:E; [constructor; [reflexivity|exact IH]|].
  destruct (split sep bs) as [|w ws].
  - constructor; [|constructor]. cbn. rewrite E. reflexivity.
  - inversion IH; subst. constructor; [|assumption]. cbn [forallb]. rewrite E. assumption.
Qed.

Lemma join_split_space bs : join 32 (split is_space bs) = bs.
Proof.
  induction bs as [|b bs IH]; cbn [split]; [reflexivity|]. unfold is_space at 1.
  pose proof (split_ne is_space bs) as NE.
  destruct (N.eqb_spec b 32) as [->|E].
  - destruct (split is_space bs) as [|w ws] eqn:S; [congruence|]. cbn [join app]. rewrite <- IH. reflexivity.
  - destruct (split is_space bs) as [|w ws] eqn:S; [congruence|].
    rewrite <- IH. destruct ws as [|w2 ws]; reflexivity.
Qed.

Lemma ref_word_fold_none ws : fold_left ref_word ws None = None.
Proof. induction ws; cbn; auto. Qed.

Lemma ref_line_fold_none ls : fold_left ref_line ls None = None.
Proof. induction ls; cbn; auto. Qed.

(** words of a line, ended by a newline *)
Lemma feed_words ws : forall cls pc h ln sol hl s, ws <> [] -> Forall no_sep ws -> is_nl s = true ->
  (sol = true -> starts_with 99 (hd [] ws) = false /\ starts_with 112 (hd [] ws) = false) ->
  let r := parse_bytes (St cls pc h ln sol hl) (join 32 ws ++ [s]) in
  match fold_left ref_word ws (Some (cls, pc)) with
  | Some (cls', pc') => r = (St cls' pc' h (nl_inc s ln) true hl, None)
  | None => fail r
  end.
Proof.
  induction ws as [|w ws IH]; intros cls pc h ln sol hl s NE NS SN HS; [congruence|]. cbv zeta. cbn [hd] in HS.
  inversion NS as [|? ? N1 N2]; subst. cbn [fold_left].
  assert (S32 : (s =? 32) = false) by (unfold is_nl in SN; lia).
  destruct ws as [|w2 ws].
  - cbn [join fold_left]. pose proof (feed_word_sep w s cls pc h ln sol hl N1) as FW. cbv zeta in FW.
    assert (SS : is_sep s = true) by (unfold is_sep; rewrite SN; apply orb_true_r). specialize (FW SS HS).
    rewrite S32 in FW. cbn [negb] in FW. exact FW.
  - change (join 32 (w :: w2 :: ws)) with (w ++ 32 :: join 32 (w2 :: ws)).
    replace ((w ++ 32 :: join 32 (w2 :: ws)) ++ [s]) with ((w ++ [32]) ++ (join 32 (w2 :: ws) ++ [s]))
      by (rewrite <- !app_assoc; reflexivity).
    pose proof (feed_word_sep w 32 cls pc h ln sol hl N1 eq_refl HS) as FW. cbv zeta in FW.
    destruct (ref_word (Some (cls, pc)) w) as [[cls' pc']|].
    + rewrite (ok_app _ _ _ _ FW). cbn [nl_inc N.eqb Pos.eqb negb].
      apply (IH cls' pc' h ln false hl s ltac:(discriminate) N2 SN). discriminate.
    + rewrite ref_word_fold_none. apply fail_app. exact FW.
Qed.

(** words of the last line *)
Lemma feed_words_end ws : forall cls pc h ln sol hl, ws <> [] -> Forall no_sep ws ->
  last ws [] <> [45] ->
  (sol = true -> starts_with 99 (hd [] ws) = false /\ starts_with 112 (hd [] ws) = false) ->
  let r := parse_bytes (St cls pc h ln sol hl) (join 32 ws) in
  match fold_left ref_word ws (Some (cls, pc)) with
  | Some (cls', pc') => exists q, r = (q, None) /\ p_in_header q = false /\
       p_formula (finish_literal q) = cnf_set_var_count (cnf_from cls') (hdr_vars h) /\
       p_partial_clause (finish_literal q) = pc' /\ p_header (finish_literal q) = h /\
       p_clause_count (finish_literal q) = N.of_nat (length cls')
  | None => fail r
  end.
Proof.
  induction ws as [|w ws IH]; intros cls pc h ln sol hl NE NS NM HS; [congruence|]. cbv zeta. cbn [hd] in HS.
  inversion NS as [|? ? N1 N2]; subst. cbn [fold_left].
  destruct ws as [|w2 ws].
  - cbn [join fold_left]. apply feed_word_end; assumption.
  - change (join 32 (w :: w2 :: ws)) with (w ++ 32 :: join 32 (w2 :: ws)).
    replace (w ++ 32 :: join 32 (w2 :: ws)) with ((w ++ [32]) ++ join 32 (w2 :: ws))
      by (rewrite <- !app_assoc; reflexivity).
    pose proof (feed_word_sep w 32 cls pc h ln sol hl N1 eq_refl HS) as FW. cbv zeta in FW.
    destruct (ref_word (Some (cls, pc)) w) as [[cls' pc']|].
    + rewrite (ok_app _ _ _ _ FW). cbn [nl_inc N.eqb Pos.eqb negb].
      apply (IH cls' pc' h ln false hl ltac:(discriminate) N2 NM). discriminate.
    + rewrite ref_word_fold_none. apply fail_app. exact FW.
Qed.

Lemma feed_comment r : forall f pc h ln cc sol hl, forallb (fun b => negb (is_nl b)) r = true ->
  parse_bytes (mkParser f pc h ln cc 0 false false true false sol false hl) r =
  (mkParser f pc h ln cc 0 false false true false sol false hl, None).
Proof.
  induction r as [|b r IH]; intros f pc h ln cc sol hl H; cbn [parse_bytes]; [reflexivity|].
  cbn [forallb] in H. rewrite andb_true_iff, negb_true_iff in H. destruct H as [H1 H2].
  unfold parse_byte. rewrite H1. cbn [andb]. replace (b =? 10) with false by (unfold is_nl in H1; lia). apply IH. exact H2.
Qed.

Lemma feed_header r : forall f pc h ln cc sol hl, forallb (fun b => negb (is_nl b)) r = true ->
  parse_bytes (mkParser f pc h ln cc 0 false false true true sol false hl) r =
  (mkParser f pc h ln cc 0 false false true true sol false (hl ++ r), None).
Proof.
  induction r as [|b r IH]; intros f pc h ln cc sol hl H; cbn [parse_bytes]; [rewrite app_nil_r; reflexivity|].
  cbn [forallb] in H. rewrite andb_true_iff, negb_true_iff in H. destruct H as [H1 H2].
  unfold parse_byte. rewrite H1. cbn [andb]. replace (b =? 10) with false by (unfold is_nl in H1; lia).
  rewrite IH by exact H2. rewrite <- app_assoc. reflexivity.
Qed.

(** lines without newline bytes split at spaces into separator-free words *)
Lemma line_words line : forallb (fun b => negb (is_nl b)) line = true -> Forall no_sep (split is_space line).
Proof.
  intros H. pose proof (split_pieces is_space line) as P. pose proof (join_split_space line) as J.
  apply Forall_forall. intros w Hw. rewrite Forall_forall in P. specialize (P w Hw).
  unfold no_sep. rewrite forallb_forall in *. intros b Hb. specialize (P b Hb).
  assert (IL : In b line).
  { rewrite <- J. clear - Hw Hb. induction (split is_space line) as [|w' ws IH]; [destruct Hw|].
    destruct Hw as [->|Hw].
    - destruct ws as [|w2 ws]; [exact Hb|]. cbn [join]. apply in_or_app. left. exact Hb.
    - specialize (IH Hw). destruct ws as [|w2 ws]; [destruct Hw|].
      change (join 32 (w' :: w2 :: ws)) with (w' ++ 32 :: join 32 (w2 :: ws)).
      apply in_or_app. right. right. exact IH. }
  specialize (H b IL). unfold is_sep, is_nl, is_space in *. lia.
Qed.

Lemma hd_split_starts line c : c <> 32 -> starts_with c (hd [] (split is_space line)) = starts_with c line.
Proof.
  intros Hc. destruct line as [|b r]; [reflexivity|]. cbn [split]. unfold is_space at 1.
  destruct (N.eqb_spec b 32) as [->|E].
  - cbn [hd starts_with]. symmetry. apply N.eqb_neq. congruence.
  - destruct (split is_space r); reflexivity.
Qed.

Definition hl_inv (h : option (N * N)) (hl : list N) : Prop := h = None -> hl = [].

Lemma start_p cls pc ln r :
  parse_bytes (St cls pc None ln true []) (112 :: r) =
  parse_bytes (mkParser (cnf_set_var_count (cnf_from cls) (hdr_vars None)) pc None ln (N.of_nat (length cls)) 0 false false true true true false [112]) r.
Proof. reflexivity. Qed.

(** one line with its newline, from the start of a line *)
Lemma feed_line line s cls pc h ln hl : forallb (fun b => negb (is_nl b)) line = true -> is_nl s = true -> hl_inv h hl ->
  let r := parse_bytes (St cls pc h ln true hl) (line ++ [s]) in
  match ref_line (Some (h, (cls, pc))) line with
  | Some (h', (cls', pc')) => exists hl', hl_inv h' hl' /\ r = (St cls' pc' h' (nl_inc s ln) true hl', None)
  | None => fail r
  end.
Proof.
  intros NL SN HI r. subst r. unfold ref_line.
  destruct (starts_with 99 line) eqn:SC.
  { apply starts_with_spec in SC. destruct SC as (rest&->). exists hl. split; [exact HI|].
    cbn [forallb] in NL. apply andb_true_iff in NL. destruct NL as [_ NL].
    cbn [app parse_bytes]. unfold St at 1, parse_byte at 1. cbn [is_nl N.eqb Pos.eqb orb andb is_digit N.leb N.compare Pos.compare Pos.compare_cont].
    change (is_digit 99) with false. cbv iota.
    rewrite (ok_app _ _ _ _ (feed_comment rest _ _ _ _ _ _ _ NL)).
    cbn [parse_bytes]. unfold parse_byte. rewrite SN. cbn [andb]. reflexivity. }
  destruct (starts_with 112 line) eqn:SP.
  { apply starts_with_spec in SP. destruct SP as (rest&->).
    cbn [forallb] in NL. apply andb_true_iff in NL. destruct NL as [_ NL].
    destruct h as [hd|].
    - apply fail_app. apply fail_cons. unfold St, parse_byte. cbn. apply fail_unexpected.
    - rewrite (HI eq_refl). cbn [app]. rewrite start_p.
      pose proof (feed_header rest (cnf_set_var_count (cnf_from cls) (hdr_vars None)) pc None ln (N.of_nat (length cls)) true [112] NL) as FH.
      rewrite (ok_app _ _ _ _ FH). cbn [app]. cbn [parse_bytes].
      unfold parse_byte. rewrite SN. cbn [andb]. fold (nl_inc s ln). rewrite parse_header_line_eq. cbn [p_line p_header_line].
      pose proof (header_outcome_ref (nl_inc s ln) (112 :: rest)) as HO.
      destruct (ref_header (112 :: rest)) as [hdr|].
      + rewrite HO. cbn [set_header]. exists (112 :: rest). split; [intros X; discriminate|].
        unfold St. cbn [hdr_vars]. destruct hdr as [v c]. cbn [fst]. f_equal. f_equal.
        unfold cnf_set_var_count. cbn. f_equal. lia.
      + destruct HO as (e&HO). rewrite HO. apply fail_unexpected. }
  pose proof (feed_words (split is_space line) cls pc h ln true hl s (split_ne _ _) (line_words _ NL) SN) as FW.
  cbv zeta in FW. rewrite join_split_space in FW. rewrite !hd_split_starts in FW by discriminate. specialize (FW (fun _ => conj SC SP)).
  destruct (fold_left ref_word (split is_space line) (Some (cls, pc))) as [[cls' pc']|]; [|exact FW].
  exists hl. split; [exact HI|exact FW].
Qed.

(** the last line and [eof] *)
Lemma feed_line_end line cls pc h ln hl : forallb (fun b => negb (is_nl b)) line = true -> hl_inv h hl ->
  last (split is_space line) [] <> [45] ->
  let r := parse_bytes (St cls pc h ln true hl) line in
  match ref_line (Some (h, (cls, pc))) line with
  | Some (h', (cls', pc')) => exists q, r = (q, None) /\
      match pc' with
      | [] => exists q', parse_eof q = (q', None) /\ p_header q' = h' /\
         p_formula q' = cnf_set_var_count (cnf_from cls') (hdr_vars h') /\ p_clause_count q' = N.of_nat (length cls')
      | _ => fail (parse_eof q)
      end
  | None => fail r \/ exists q, r = (q, None) /\ fail (parse_eof q)
  end.
Proof.
  intros NL HI NM r. subst r. unfold ref_line.
  destruct (starts_with 99 line) eqn:SC.
  { apply starts_with_spec in SC. destruct SC as (rest&->).
    cbn [forallb] in NL. apply andb_true_iff in NL. destruct NL as [_ NL].
    eexists. split.
    - cbn [parse_bytes]. unfold St at 1, parse_byte at 1. cbn [is_nl N.eqb Pos.eqb orb andb].
      change (is_digit 99) with false. cbv iota. apply feed_comment. exact NL.
    - unfold parse_eof. cbn [p_in_header finish_literal p_partial_clause].
      destruct pc; [|apply fail_unexpected]. eexists. split; [reflexivity|]. repeat split. }
  destruct (starts_with 112 line) eqn:SP.
  { apply starts_with_spec in SP. destruct SP as (rest&->).
    cbn [forallb] in NL. apply andb_true_iff in NL. destruct NL as [_ NL].
    destruct h as [hd|].
    - left. apply fail_cons. unfold St, parse_byte. cbn. apply fail_unexpected.
    - rewrite (HI eq_refl). rewrite start_p.
      pose proof (feed_header rest (cnf_set_var_count (cnf_from cls) (hdr_vars None)) pc None ln (N.of_nat (length cls)) true [112] NL) as FH.
      rewrite FH. cbn [app].
      pose proof (header_outcome_ref ln (112 :: rest)) as HO.
      destruct (ref_header (112 :: rest)) as [hdr|].
      + eexists. split; [reflexivity|]. unfold parse_eof. cbn [p_in_header]. rewrite parse_header_line_eq.
        cbn [p_line p_header_line]. rewrite HO. cbn [set_header finish_literal p_partial_clause].
        destruct pc; [|apply fail_unexpected]. eexists. split; [reflexivity|]. destruct hdr as [v c].
        repeat split. cbn. unfold cnf_set_var_count. cbn. f_equal. lia.
      + right. eexists. split; [reflexivity|]. destruct HO as (e&HO).
        unfold parse_eof. cbn [p_in_header]. rewrite parse_header_line_eq.
        cbn [p_line p_header_line]. rewrite HO. apply fail_unexpected. }
  pose proof (feed_words_end (split is_space line) cls pc h ln true hl (split_ne _ _) (line_words _ NL) NM) as FW.
  cbv zeta in FW. rewrite !hd_split_starts in FW by discriminate. specialize (FW (fun _ => conj SC SP)).
  rewrite join_split_space in FW.
  destruct (fold_left ref_word (split is_space line) (Some (cls, pc))) as [[cls' pc']|]; [|left; exact FW].
  destruct FW as (q&E&IH&F&P&H&C). exists q. split; [exact E|]. unfold parse_eof. rewrite IH, P.
  destruct pc'; [|apply fail_unexpected]. eexists. split; [reflexivity|]. repeat split; assumption.
Qed.

(** newline-separated pieces, whichever newline byte separated them *)
Inductive glued : list (list N) -> list N -> Prop :=
| glued_one l : glued [l] l
| glued_cons l s ls bs : is_nl s = true -> glued ls bs -> glued (l :: ls) (l ++ s :: bs).

Lemma split_glued bs : glued (split is_nl bs) bs.
Proof.
  induction bs as [|b bs IH]; cbn [split]; [constructor|].
  destruct (is_nl b) eqn:E; [apply (glued_cons [] b _ _ E IH)|].
  inversion IH as [l E1 E2|l s ls r Hs G E1 E2]; [constructor|].
  apply (glued_cons (b :: l) s ls r Hs G).
Qed.

Lemma feed_lines ls bs : glued ls bs -> forall cls pc h ln hl,
  Forall (fun l => forallb (fun b => negb (is_nl b)) l = true) ls -> hl_inv h hl ->
  last (split is_space (last ls [])) [] <> [45] ->
  let r := parse_bytes (St cls pc h ln true hl) bs in
  match fold_left ref_line ls (Some (h, (cls, pc))) with
  | Some (h', (cls', pc')) => exists q, r = (q, None) /\
      match pc' with
      | [] => exists q', parse_eof q = (q', None) /\ p_header q' = h' /\
         p_formula q' = cnf_set_var_count (cnf_from cls') (hdr_vars h') /\ p_clause_count q' = N.of_nat (length cls')
      | _ => fail (parse_eof q)
      end
  | None => fail r \/ exists q, r = (q, None) /\ fail (parse_eof q)
  end.
Proof.
  induction 1 as [l|l s ls bs Hs G IH]; intros cls pc h ln hl FA HI NM.
  - cbn [fold_left last] in *. inversion FA; subst. apply feed_line_end; assumption.
  - inversion FA as [|? ? N1 N2]; subst.
    replace (l ++ s :: bs) with ((l ++ [s]) ++ bs) by (rewrite <- app_assoc; reflexivity).
    pose proof (feed_line l s cls pc h ln hl N1 Hs HI) as FL. cbv zeta in *. cbn [fold_left].
    destruct (ref_line (Some (h, (cls, pc))) l) as [[h' [cls' pc']]|].
    + destruct FL as (hl'&HI'&FL). rewrite (ok_app _ _ _ _ FL). apply IH; try assumption.
      assert (ls <> []) by (inversion G; discriminate). destruct ls; [congruence|exact NM].
    + rewrite ref_line_fold_none. left. apply fail_app. exact FL.
Qed.

Lemma parse_ref bs : ~ dangling_minus bs ->
  match ref_parse bs with
  | Some (h, cls) => exists p, parse_incremental (fun _ => false) [bs] = (p, [], check_header p) /\
      p_header p = h /\ p_formula p = cnf_set_var_count (cnf_from cls) (hdr_vars h) /\
      p_clause_count p = N.of_nat (length cls)
  | None => exists p e, parse_incremental (fun _ => false) [bs] = (p, [], Some e)
  end.
Proof.
  intros NM. unfold ref_parse, dangling_minus in *.
  pose proof (feed_lines _ _ (split_glued bs) [] [] None 1 [] (split_pieces is_nl bs) (fun _ => eq_refl) NM) as FL.
  cbv zeta in FL. change (St [] [] None 1 true []) with parser_new in FL.
  unfold parse_incremental. cbn [parse_chunks length]. unfold parse_chunk. change (p_error parser_new) with false. cbv iota.
  unfold callback. cbv iota. cbn [parse_chunks].
  destruct (fold_left ref_line (split is_nl bs) (Some (None, ([], [])))) as [[h [cls pc]]|].
  - destruct FL as (q&E&X). rewrite E. destruct pc as [|l pc].
    + destruct X as (q'&E'&A&B&C). rewrite E'. exists q'. split; [reflexivity|]. auto.
    + destruct X as (q'&e&E'). rewrite E'. eauto.
  - destruct FL as [(q&e&E)|(q&E&q'&e&E')].
    + rewrite E. eauto.
    + rewrite E, E'. eauto.
Qed.

(* ---- consequences ---- *)
Lemma cnf_set_iter f v : cnf_iter (cnf_set_var_count f v) = cnf_iter f. Proof. reflexivity. Qed.

Definition cls_vars (cls : list (list N)) : N := fold_right (fun c m => N.max (clause_vars c) m) 0 cls.

Lemma cnf_from_vc cls : var_count (cnf_from cls) = cls_vars cls.
Proof.
  induction cls as [|c cls IH] using rev_ind; [reflexivity|].
  rewrite cnf_from_snoc, cnf_add_clause_vc, IH.
  assert (G : forall a b, cls_vars (a ++ b) = N.max (cls_vars a) (cls_vars b)).
  { induction a as [|x a IHa]; intros b; cbn [app cls_vars fold_right]; [unfold cls_vars; cbn [fold_right]; lia|]. fold (cls_vars (a ++ b)). fold (cls_vars a). rewrite IHa. lia. }
  rewrite G. cbn [cls_vars fold_right]. lia.
Qed.

Lemma cls_vars_le cls v : cls_vars cls <= v <-> forallb (forallb (fun l => lit_var l <? v)) cls = true.
Proof.
  induction cls as [|c cls IH]; cbn [cls_vars fold_right forallb]; [split; [reflexivity|lia]|].
  fold (cls_vars cls). rewrite andb_true_iff, <- IH.
  assert (C : clause_vars c <= v <-> forallb (fun l => lit_var l <? v) c = true).
  { clear. induction c as [|l c IH]; cbn [clause_vars fold_right forallb]; [split; [reflexivity|lia]|].
    fold (clause_vars c). rewrite andb_true_iff, N.ltb_lt, <- IH, (lit_var_div l). split; [intros ?; split|intros [? ?]]; lia. }
  rewrite <- C. lia.
Qed.

Lemma cnf_from_len cls : cnf_len (cnf_from cls) = length cls.
Proof. rewrite cnf_from_run. destruct (cnf_run_spec (map OpAddClause cls)) as (_&_&->). rewrite op_clauses_map. reflexivity. Qed.

Lemma parse_spec bs : ~ dangling_minus bs ->
  match parse [bs] with
  | inl f => exists h cls, ref_parse bs = Some (h, cls) /\ hdr_ok h cls = true /\
       cnf_iter f = Some cls /\ cnf_len f = length cls /\
       var_count f = match h with Some (v, _) => v | None => cls_vars cls end
  | inr _ => match ref_parse bs with Some (h, cls) => hdr_ok h cls = false | None => True end
  end.
Proof.
  intros NM. pose proof (parse_ref bs NM) as PR. unfold parse.
  destruct (ref_parse bs) as [[h cls]|] eqn:RP.
  - destruct PR as (p&E&H&F&C). rewrite E.
    assert (CH : check_header p = None <-> hdr_ok h cls = true).
    { unfold check_header. rewrite H, F, C. destruct h as [[v c]|]; [|split; reflexivity].
      cbn [hdr_ok hdr_vars]. cbn [cnf_set_var_count var_count]. rewrite cnf_from_vc.
      pose proof (cls_vars_le cls v) as CV.
      destruct (N.eqb_spec (N.max (cls_vars cls) v) v) as [M|M]; cbn [negb].
      - rewrite (proj1 CV) by lia. rewrite andb_true_r. rewrite N.eqb_sym.
        destruct (c =? N.of_nat (length cls)); cbn; split; congruence.
      - split; [discriminate|]. rewrite andb_true_iff. intros [_ Q]. apply CV in Q. lia. }
    destruct (check_header p) as [e|].
    + destruct (hdr_ok h cls); [|reflexivity]. destruct CH as [_ CH]. discriminate (CH eq_refl).
    + destruct CH as [CH _]. specialize (CH eq_refl).
      assert (PF : fst (take_formula p) = p_formula p) by (destruct p; reflexivity). rewrite PF, F.
      exists h, cls. repeat split; try assumption.
      * rewrite cnf_set_iter. apply cnf_iter_from.
      * change (cnf_len (cnf_set_var_count (cnf_from cls) (hdr_vars h))) with (cnf_len (cnf_from cls)). apply cnf_from_len.
      * cbn [cnf_set_var_count var_count]. rewrite cnf_from_vc. destruct h as [[v c]|]; cbn [hdr_vars]; [|lia].
        cbn [hdr_ok] in CH. apply andb_true_iff in CH. destruct CH as [_ CH]. apply cls_vars_le in CH. lia.
  - destruct PR as (p&e&E). rewrite E. exact I.
Qed.

(** all literals of the reference clauses are valid *)
Lemma ref_word_valid cls pc w cls' pc' :
  ref_word (Some (cls, pc)) w = Some (cls', pc') ->
  Forall (Forall (fun l => valid_lit l = true)) cls -> Forall (fun l => valid_lit l = true) pc ->
  Forall (Forall (fun l => valid_lit l = true)) cls' /\ Forall (fun l => valid_lit l = true) pc'.
Proof.
  intros H A B. destruct w as [|b w]; cbn [ref_word] in H; [inversion H; subst; auto|].
  destruct (word_int (b :: w)) as [z|]; [|discriminate].
  destruct (Z.leb_spec (Z.abs z) (Z.of_N max_count)) as [L|L]; [|discriminate].
  destruct (Z.eqb_spec z 0) as [Z0|Z0]; inversion H; subst.
  - split; [|constructor]. apply Forall_app. split; [exact A|]. constructor; [exact B|constructor].
  - split; [exact A|]. apply Forall_app. split; [exact B|]. constructor; [|constructor].
    apply dimacs_roundtrip; assumption.
Qed.

Lemma ref_words_valid ws : forall cls pc cls' pc',
  fold_left ref_word ws (Some (cls, pc)) = Some (cls', pc') ->
  Forall (Forall (fun l => valid_lit l = true)) cls -> Forall (fun l => valid_lit l = true) pc ->
  Forall (Forall (fun l => valid_lit l = true)) cls' /\ Forall (fun l => valid_lit l = true) pc'.
Proof.
  induction ws as [|w ws IH]; intros cls pc cls' pc' H A B; cbn [fold_left] in H; [inversion H; subst; auto|].
  destruct (ref_word (Some (cls, pc)) w) as [[c1 p1]|] eqn:E; [|rewrite ref_word_fold_none in H; discriminate].
  destruct (ref_word_valid _ _ _ _ _ E A B) as [A1 B1]. eapply IH; eassumption.
Qed.

Lemma ref_header_bound l v c : ref_header l = Some (v, c) -> v <= max_count.
Proof.
  unfold ref_header. destruct l as [|b0 [|b1 rest]]; try discriminate.
  destruct (negb _); [discriminate|]. destruct (split_ws 0 [] rest) as [|w [|x [|y [|z ws]]]]; try discriminate.
  destruct (list_eqb w str_cnf); [|discriminate]. destruct (parse_usize x) as [vc|]; [|discriminate].
  destruct (parse_usize y); [|discriminate]. destruct (N.leb_spec vc max_count); [|discriminate]. congruence.
Qed.

Lemma ref_lines_valid ls : forall h cls pc h' cls' pc',
  fold_left ref_line ls (Some (h, (cls, pc))) = Some (h', (cls', pc')) ->
  Forall (Forall (fun l => valid_lit l = true)) cls -> Forall (fun l => valid_lit l = true) pc -> hdr_vars h <= max_count ->
  Forall (Forall (fun l => valid_lit l = true)) cls' /\ Forall (fun l => valid_lit l = true) pc' /\ hdr_vars h' <= max_count.
Proof.
  induction ls as [|l ls IH]; intros h cls pc h' cls' pc' H A B HB; cbn [fold_left] in H; [inversion H; subst; auto|].
  destruct (ref_line (Some (h, (cls, pc))) l) as [[h1 [c1 p1]]|] eqn:E; [|rewrite ref_line_fold_none in H; discriminate].
  unfold ref_line in E. destruct (starts_with 99 l); [inversion E; subst; eapply IH; eassumption|].
  destruct (starts_with 112 l).
  - destruct h; [discriminate|]. destruct (ref_header l) as [[v c]|] eqn:RH; [|discriminate]. inversion E; subst.
    eapply IH; try eassumption. cbn. eapply ref_header_bound. exact RH.
  - destruct (fold_left ref_word (split is_space l) (Some (cls, pc))) as [[c2 p2]|] eqn:F; [|discriminate].
    inversion E; subst. destruct (ref_words_valid _ _ _ _ _ F A B) as [A1 B1]. eapply IH; eassumption.
Qed.

Lemma ref_parse_valid bs h cls : ref_parse bs = Some (h, cls) ->
  Forall (Forall (fun l => valid_lit l = true)) cls /\ hdr_vars h <= max_count.
Proof.
  unfold ref_parse. destruct (fold_left _ _ _) as [[h' [cls' [|]]]|] eqn:E; try discriminate. intros H. inversion H; subst.
  edestruct ref_lines_valid as (A&_&C); [exact E|constructor|constructor|rewrite max_count_val; cbn; lia|]. auto.
Qed.

(* ---- accumulator bound, for any byte sequence ---- *)
Definition acc_ok (p : parser) : Prop := p_partial_lit p <= max_count /\
  (forall cs, cnf_iter (p_formula p) = Some cs -> Forall (Forall (fun l => valid_lit l = true)) cs) /\
  Forall (fun l => valid_lit l = true) (p_partial_clause p) /\
  exists cs, cnf_iter (p_formula p) = Some cs.

Lemma acc_header p : acc_ok p -> acc_ok (fst (parse_header_line p)).
Proof.
  intros (A&B&C&D). rewrite parse_header_line_eq. destruct (header_outcome _ _); destruct p; cbn in *; repeat split; assumption.
Qed.

Lemma acc_finish p : acc_ok p -> acc_ok (finish_literal p).
Proof.
  destruct p as [f pc h ln cc pl ng il ic ih sol er hl]. intros (A&B&C&D&ID). cbn in *.
  destruct il; [|repeat split; eauto]. destruct (N.eqb_spec pl 0) as [E|E].
  - repeat split; cbn [p_partial_lit p_formula p_partial_clause]; try assumption.
    + intros cs H. rewrite (cnf_add_clause_iter _ pc _ ID) in H. inversion H; subst.
      apply Forall_app. split; [apply B; exact ID|]. constructor; [exact C|constructor].
    + constructor.
    + exists (D ++ [pc]). apply cnf_add_clause_iter. exact ID.
  - repeat split; cbn [p_partial_lit p_formula p_partial_clause]; eauto. apply Forall_app. split; [exact C|]. constructor; [|constructor].
    rewrite lit_of_word by assumption. apply dimacs_roundtrip; destruct ng; lia.
Qed.

Lemma acc_byte p b : acc_ok p -> acc_ok (fst (parse_byte p b)).
Proof.
  destruct p as [f pc h ln cc pl ng il ic ih sol er hl]. intros H. unfold parse_byte.
  set (ln' := if b =? 10 then ln + 1 else ln).
  assert (T : forall h ln cc ng il ic ih sol er hl, acc_ok (mkParser f pc h ln cc pl ng il ic ih sol er hl))
    by (intros; exact H).
  destruct (is_nl b && ic).
  { destruct ih; [|apply T].
    pose proof (acc_header _ (T h ln' cc ng il ic false sol er hl)) as A.
    destruct (parse_header_line _) as [q [e|]]; cbn [fst] in *; [exact A|]. destruct q; exact A. }
  destruct ic; [apply T|].
  destruct (is_digit b) eqn:D.
  { destruct H as (A&B&C&ID). cbn in A. rewrite overflow_check by (try exact A; unfold is_digit in D; lia).
    destruct (N.ltb_spec max_count (pl * 10 + (b - 48))); [apply T|]. repeat split; cbn [p_partial_lit p_formula p_partial_clause]; eauto. }
  destruct (_ && _ && _); [apply T|].
  destruct (_ && _).
  { pose proof (acc_finish _ (T h ln' cc ng il false ih sol er hl)) as A.
    destruct (finish_literal _) as [f1 pc1 ? ? ? ? ? ? ? ? ? ? ?]. cbn [fst]. destruct A as (A&B&C&ID). repeat split; try assumption. cbn. rewrite max_count_val. lia. }
  destruct (_ && _); [apply T|]. destruct (_ && _ && _); apply T.
Qed.

Lemma acc_bytes bs : forall p, acc_ok p -> acc_ok (fst (parse_bytes p bs)).
Proof.
  induction bs as [|b bs IH]; intros p H; cbn [parse_bytes]; [exact H|].
  pose proof (acc_byte p b H) as A. destruct (parse_byte p b) as [q [e|]]; [exact A|]. apply IH. exact A.
Qed.

Lemma acc_new : acc_ok parser_new.
Proof. repeat split; cbn [p_partial_lit p_formula p_partial_clause]; [rewrite max_count_val; cbn; lia| |constructor|exists []; reflexivity].
  intros cs H. inversion H. constructor. Qed.
