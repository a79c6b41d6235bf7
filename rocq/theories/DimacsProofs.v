From Coq Require Import Arith ZArith ZifyBool ZifyNat ZifyN.
From Verif Require Import Spec Lit LitProofs Cnf CnfProofs Dimacs DimacsSpec.

(* ---- generic ---- *)
Lemma parse_bytes_app p a b : parse_bytes p (a ++ b) =
  match parse_bytes p a with
  | (p, None) => parse_bytes p b
  | (p, Some e) => (p, Some e)
  end.
Proof.
  revert p. induction a as [|x a IH]; intros p; cbn [app parse_bytes]; [reflexivity|].
  destruct (parse_byte p x) as [q [e|]]; [reflexivity|apply IH].
Qed.

Definition header_outcome (ln : N) (hl : list N) : (N * N) + parse_error :=
  match parse_header_line (mkParser cnf_new [] None ln 0 0 false false false false false false hl) with
  | (q, Some e) => inr e
  | (q, None) => match p_header q with Some h => inl h | None => inr PreviousError end
  end.

Lemma parse_header_line_eq p : parse_header_line p =
  match header_outcome (p_line p) (p_header_line p) with
  | inl h => (set_header p h, None)
  | inr e => (set_error p, Some e)
  end.
Proof.
  unfold header_outcome, parse_header_line, invalid_header. cbn [p_header_line p_line].
  destruct (p_header_line p) as [|b0 [|b1 rest]]; try reflexivity.
  destruct ((b0 =? 112) && (b1 =? 32)); [|reflexivity].
  destruct (split_ws 0 [] rest) as [|w ws]; [reflexivity|].
  destruct (list_eqb w str_cnf); [|reflexivity].
  destruct ws as [|v ws]; [reflexivity|]. destruct (parse_usize v) as [vc|]; [|reflexivity].
  destruct (max_count <? vc); [reflexivity|].
  destruct ws as [|c ws]; [reflexivity|]. destruct (parse_usize c) as [cc|]; [|reflexivity].
  destruct ws; reflexivity.
Qed.

Lemma header_outcome_ref ln hl : match ref_header hl with
  | Some h => header_outcome ln hl = inl h
  | None => exists e, header_outcome ln hl = inr e
  end.
Proof.
  unfold header_outcome, parse_header_line, invalid_header, ref_header. cbn [p_header_line p_line].
  destruct hl as [|b0 [|b1 rest]]; try (eexists; reflexivity).
  destruct ((b0 =? 112) && (b1 =? 32)); cbn [negb]; [|eexists; reflexivity].
  destruct (split_ws 0 [] rest) as [|w ws]; [eexists; reflexivity|].
  destruct ws as [|v ws]; [destruct (list_eqb w str_cnf); eexists; reflexivity|].
  destruct ws as [|c ws].
  { destruct (list_eqb w str_cnf); [|eexists; reflexivity]. destruct (parse_usize v); [|eexists; reflexivity].
    destruct (max_count <? n); eexists; reflexivity. }
  destruct ws as [|x ws].
  - destruct (list_eqb w str_cnf); [|eexists; reflexivity].
    destruct (parse_usize v) as [vc|]; [|eexists; reflexivity].
    destruct (N.ltb_spec max_count vc) as [L|L]; destruct (N.leb_spec vc max_count) as [M|M]; try lia.
    + destruct (parse_usize c); eexists; reflexivity.
    + destruct (parse_usize c); [reflexivity|eexists; reflexivity].
  - destruct (list_eqb w str_cnf); [|eexists; reflexivity].
    destruct (parse_usize v) as [vc|]; [|eexists; reflexivity].
    destruct (max_count <? vc); [eexists; reflexivity|]. destruct (parse_usize c); eexists; reflexivity.
Qed.

Lemma parse_header_line_error p : match parse_header_line p with
  | (q, None) => p_error q = p_error p
  | (q, Some _) => p_error q = true
  end.
Proof. rewrite parse_header_line_eq. destruct (header_outcome _ _); destruct p; reflexivity. Qed.

Lemma finish_literal_error p : p_error (finish_literal p) = p_error p.
Proof. destruct p as [? ? ? ? ? pl ? il ? ? ? ? ?]; cbn. destruct il; [destruct (pl =? 0)|]; reflexivity. Qed.

Lemma parse_byte_error p b : match parse_byte p b with
  | (q, None) => p_error q = p_error p
  | (q, Some _) => p_error q = true
  end.
Proof.
  destruct p as [f pc h ln cc pl ng il ic ih sol er hl]. unfold parse_byte.
  set (ln' := if b =? 10 then ln + 1 else ln).
  destruct (is_nl b && ic).
  { destruct ih; [|reflexivity].
    pose proof (parse_header_line_error (mkParser f pc h ln' cc pl ng il ic false sol er hl)) as H.
    destruct (parse_header_line _) as [q [e|]]; [exact H|]. destruct q; exact H. }
  destruct ic; [reflexivity|].
  destruct (is_digit b). { destruct (_ && _); reflexivity. }
  destruct (_ && _ && _); [reflexivity|].
  destruct (_ && _).
  { pose proof (finish_literal_error (mkParser f pc h ln' cc pl ng il false ih sol er hl)) as H.
    destruct (finish_literal _). exact H. }
  destruct (_ && _); [reflexivity|]. destruct (_ && _); reflexivity.
Qed.

Lemma parse_bytes_error p bs : match parse_bytes p bs with
  | (q, None) => p_error q = p_error p
  | (q, Some _) => p_error q = true
  end.
Proof.
  revert p. induction bs as [|b bs IH]; intros p; cbn [parse_bytes]; [reflexivity|].
  pose proof (parse_byte_error p b) as H. destruct (parse_byte p b) as [q [e|]]; [exact H|].
  specialize (IH q). destruct (parse_bytes q bs) as [r [e|]]; congruence.
Qed.

Lemma error_sticky p bs q e more : parse_chunk p bs = (q, Some e) ->
  parse_chunk q more = (q, Some PreviousError).
Proof.
  unfold parse_chunk. destruct (p_error p) eqn:E.
  - intros H. inversion H; subst. rewrite E. reflexivity.
  - intros H. pose proof (parse_bytes_error p bs) as X. rewrite H in X. rewrite X. reflexivity.
Qed.

(* ---- chunking, also with the formula taken out in between ---- *)
Definition with_formula (p : parser) (f : cnf) : parser :=
  let 'mkParser _ pc h ln cc pl ng il ic ih sol er hl := p in
  mkParser f pc h ln cc pl ng il ic ih sol er hl.

(** [q] is [p] where the clauses [pre] have not been taken out *)
Definition taken (pre : list (list N)) (p q : parser) : Prop :=
  with_formula p cnf_new = with_formula q cnf_new /\
  var_count (p_formula p) = var_count (p_formula q) /\
  exists cs, cnf_iter (p_formula p) = Some cs /\ cnf_iter (p_formula q) = Some (pre ++ cs).

Lemma taken_split pre p q : taken pre p q -> exists f g pc h ln cc pl ng il ic ih sol er hl,
  p = mkParser f pc h ln cc pl ng il ic ih sol er hl /\
  q = mkParser g pc h ln cc pl ng il ic ih sol er hl /\
  var_count f = var_count g /\ exists cs, cnf_iter f = Some cs /\ cnf_iter g = Some (pre ++ cs).
Proof.
  destruct p, q; unfold taken; cbn. intros (E&V&H). inversion E; subst.
  do 14 eexists. split; [reflexivity|]. split; [reflexivity|]. split; assumption.
Qed.

Lemma taken_intro pre f g pc h ln cc pl ng il ic ih sol er hl :
  var_count f = var_count g -> (exists cs, cnf_iter f = Some cs /\ cnf_iter g = Some (pre ++ cs)) ->
  taken pre (mkParser f pc h ln cc pl ng il ic ih sol er hl) (mkParser g pc h ln cc pl ng il ic ih sol er hl).
Proof. intros V H. repeat split; assumption. Qed.

Lemma taken_add pre f g c cs : var_count f = var_count g ->
  cnf_iter f = Some cs -> cnf_iter g = Some (pre ++ cs) ->
  var_count (cnf_add_clause f c) = var_count (cnf_add_clause g c) /\
  exists cs, cnf_iter (cnf_add_clause f c) = Some cs /\ cnf_iter (cnf_add_clause g c) = Some (pre ++ cs).
Proof.
  intros V I J. rewrite !cnf_add_clause_vc, V. split; [reflexivity|].
  exists (cs ++ [c]). split; [apply cnf_add_clause_iter; exact I|].
  rewrite app_assoc. apply cnf_add_clause_iter. exact J.
Qed.

Lemma taken_finish pre p q : taken pre p q -> taken pre (finish_literal p) (finish_literal q).
Proof.
  intros H. apply taken_split in H.
  destruct H as (f&g&pc&h&ln&cc&pl&ng&il&ic&ih&sol&er&hl&->&->&V&cs&I&J). cbn.
  destruct il; [destruct (pl =? 0)|].
  - destruct (taken_add pre f g pc cs V I J). apply taken_intro; assumption.
  - apply taken_intro; eauto.
  - apply taken_intro; eauto.
Qed.

Lemma taken_header pre p q : taken pre p q ->
  taken pre (fst (parse_header_line p)) (fst (parse_header_line q)) /\
  snd (parse_header_line p) = snd (parse_header_line q).
Proof.
  intros H. apply taken_split in H.
  destruct H as (f&g&pc&h&ln&cc&pl&ng&il&ic&ih&sol&er&hl&->&->&V&cs&I&J).
  rewrite !parse_header_line_eq. cbn [p_header_line p_line].
  destruct (header_outcome ln hl) as [hd|e]; cbn [fst snd set_header set_error]; (split; [|reflexivity]).
  - apply taken_intro; [cbn; rewrite V; reflexivity|]. exists cs. split; assumption.
  - apply taken_intro; eauto.
Qed.

Lemma taken_byte pre p q b : taken pre p q ->
  taken pre (fst (parse_byte p b)) (fst (parse_byte q b)) /\ snd (parse_byte p b) = snd (parse_byte q b).
Proof.
  intros H. apply taken_split in H.
  destruct H as (f&g&pc&h&ln&cc&pl&ng&il&ic&ih&sol&er&hl&->&->&V&cs&I&J). unfold parse_byte.
  set (ln' := if b =? 10 then ln + 1 else ln).
  assert (T : forall pc h ln cc pl ng il ic ih sol er hl,
    taken pre (mkParser f pc h ln cc pl ng il ic ih sol er hl) (mkParser g pc h ln cc pl ng il ic ih sol er hl))
    by (intros; apply taken_intro; eauto).
  destruct (is_nl b && ic).
  { destruct ih; [|split; [apply T|reflexivity]].
    destruct (taken_header pre _ _ (T pc h ln' cc pl ng il ic false sol er hl)) as [A B].
    destruct (parse_header_line (mkParser f _ _ _ _ _ _ _ _ _ _ _ _)) as [p' e1].
    destruct (parse_header_line (mkParser g _ _ _ _ _ _ _ _ _ _ _ _)) as [q' e2]. cbn [fst snd] in *. subst e2.
    destruct e1 as [e|]; [split; [exact A|reflexivity]|].
    apply taken_split in A. destruct A as (?&?&?&?&?&?&?&?&?&?&?&?&?&?&->&->&V'&X). cbn. split; [|reflexivity].
    apply taken_intro; assumption. }
  destruct ic; [split; [apply T|reflexivity]|].
  destruct (is_digit b). { destruct (_ && _); (split; [apply T|reflexivity]). }
  destruct (_ && _ && _); [split; [apply T|reflexivity]|].
  destruct (_ && _).
  { pose proof (taken_finish pre _ _ (T pc h ln' cc pl ng il false ih sol er hl)) as A.
    apply taken_split in A. destruct A as (?&?&?&?&?&?&?&?&?&?&?&?&?&?&->&->&V'&X). cbn. split; [|reflexivity].
    apply taken_intro; assumption. }
  destruct (_ && _); [split; [apply T|reflexivity]|]. destruct (_ && _ && _); (split; [apply T|reflexivity]).
Qed.

Lemma taken_bytes pre bs : forall p q, taken pre p q ->
  taken pre (fst (parse_bytes p bs)) (fst (parse_bytes q bs)) /\ snd (parse_bytes p bs) = snd (parse_bytes q bs).
Proof.
  induction bs as [|b bs IH]; intros p q H; cbn [parse_bytes]; [split; [exact H|reflexivity]|].
  destruct (taken_byte pre p q b H) as [A B].
  destruct (parse_byte p b) as [p' e1]. destruct (parse_byte q b) as [q' e2]. cbn [fst snd] in *. subst e2.
  destruct e1; [split; [exact A|reflexivity]|]. apply IH. exact A.
Qed.

Lemma taken_take pre p q f p' : taken pre p q -> take_formula p = (f, p') ->
  exists cs, cnf_iter f = Some cs /\ taken (pre ++ cs) p' q.
Proof.
  intros H. apply taken_split in H.
  destruct H as (f0&g&pc&h&ln&cc&pl&ng&il&ic&ih&sol&er&hl&->&->&V&cs&I&J). cbn. intros E. inversion E; subst.
  exists cs. split; [exact I|]. apply taken_intro; [cbn; rewrite V; lia|].
  exists []. rewrite app_nil_r. split; [reflexivity|exact J].
Qed.

Definition outs_are (out : list cnf) (pre : list (list N)) : Prop :=
  exists l, map cnf_iter out = map Some l /\ concat l = pre.

Lemma outs_snoc out pre f cs : outs_are out pre -> cnf_iter f = Some cs -> outs_are (out ++ [f]) (pre ++ cs).
Proof.
  intros (l&A&B) H. exists (l ++ [cs]). rewrite !map_app, A, concat_app, B. cbn. rewrite H, app_nil_r. split; reflexivity.
Qed.

Lemma callback_taken t pre p q out : taken pre p q -> outs_are out pre ->
  exists pre', taken pre' (fst (callback t p out)) q /\ outs_are (snd (callback t p out)) pre'.
Proof.
  intros T O. unfold callback. destruct t; [|exists pre; split; assumption].
  destruct (take_formula p) as [f p'] eqn:E. destruct (taken_take _ _ _ _ _ T E) as (cs&I&T').
  exists (pre ++ cs). cbn. split; [exact T'|]. apply outs_snoc; assumption.
Qed.

Lemma parse_chunks_taken take chunks : forall i p q out pre,
  taken pre p q -> outs_are out pre -> p_error p = false ->
  let '(p', out', e) := parse_chunks take i p out chunks in
  let '(q', e') := parse_bytes q (concat chunks) in
  e = e' /\ exists pre', taken pre' p' q' /\ outs_are out' pre'.
Proof.
  induction chunks as [|c cs IH]; intros i p q out pre T O Er; cbn [parse_chunks concat parse_bytes].
  - split; [reflexivity|eauto].
  - unfold parse_chunk. rewrite Er. rewrite parse_bytes_app.
    destruct (taken_bytes pre c p q T) as [A B]. pose proof (parse_bytes_error p c) as PE.
    destruct (parse_bytes p c) as [p1 e1]. destruct (parse_bytes q c) as [q1 e2]. cbn [fst snd] in *. subst e2.
    destruct e1 as [e|]; [split; [reflexivity|eauto]|].
    destruct (callback_taken (take i) pre p1 q1 out A O) as (pre1&A1&O1).
    assert (Er1 : p_error (fst (callback (take i) p1 out)) = false).
    { unfold callback. destruct (take i); [|cbn; congruence]. destruct p1; cbn in *. congruence. }
    destruct (callback (take i) p1 out) as [p2 out2]. cbn [fst snd] in *.
    apply (IH (S i) p2 q1 out2 pre1 A1 O1 Er1).
Qed.

Lemma taken_eof pre p q : taken pre p q ->
  taken pre (fst (parse_eof p)) (fst (parse_eof q)) /\ snd (parse_eof p) = snd (parse_eof q).
Proof.
  intros T. unfold parse_eof.
  assert (IH : p_in_header p = p_in_header q).
  { apply taken_split in T. destruct T as (?&?&?&?&?&?&?&?&?&?&?&?&?&?&->&->&_). reflexivity. }
  rewrite IH.
  assert (X : taken pre (fst (if p_in_header q then parse_header_line p else (p, None)))
                        (fst (if p_in_header q then parse_header_line q else (q, None))) /\
              snd (if p_in_header q then parse_header_line p else (p, None)) =
              snd (if p_in_header q then parse_header_line q else (q, None))).
  { destruct (p_in_header q); [apply taken_header; exact T|split; [exact T|reflexivity]]. }
  destruct (if p_in_header q then parse_header_line p else (p, None)) as [p1 e1].
  destruct (if p_in_header q then parse_header_line q else (q, None)) as [q1 e2].
  cbn [fst snd] in X. destruct X as [A ->]. destruct e2; [split; [exact A|reflexivity]|].
  apply taken_finish in A. cbv zeta.
  assert (PC : p_partial_clause (finish_literal p1) = p_partial_clause (finish_literal q1) /\
               p_line (finish_literal p1) = p_line (finish_literal q1)).
  { apply taken_split in A. destruct A as (?&?&?&?&?&?&?&?&?&?&?&?&?&?&->&->&_). split; reflexivity. }
  destruct PC as [PC PL]. rewrite PC, PL. destruct (p_partial_clause (finish_literal q1)); (split; [exact A|reflexivity]).
Qed.

Lemma taken_check pre p q : taken pre p q -> check_header p = check_header q.
Proof.
  intros T. apply taken_split in T. destruct T as (?&?&?&?&?&?&?&?&?&?&?&?&?&?&->&->&V&_).
  unfold check_header. cbn. rewrite V. reflexivity.
Qed.

Lemma chunking_independent take chunks :
  let '(p, out, e) := parse_incremental take chunks in
  let '(q, _, e') := parse_incremental (fun _ => false) [concat chunks] in
  e = e' /\ p_header p = p_header q /\ p_clause_count p = p_clause_count q /\ p_line p = p_line q /\
  var_count (p_formula p) = var_count (p_formula q) /\
  exists pieces rest all, map cnf_iter out = map Some pieces /\ cnf_iter (p_formula p) = Some rest /\
     cnf_iter (p_formula q) = Some all /\ concat pieces ++ rest = all.
Proof.
  assert (FIN : forall pre p q out, taken pre p q -> outs_are out pre ->
    p_header p = p_header q /\ p_clause_count p = p_clause_count q /\ p_line p = p_line q /\
    var_count (p_formula p) = var_count (p_formula q) /\
    exists pieces rest all, map cnf_iter out = map Some pieces /\ cnf_iter (p_formula p) = Some rest /\
     cnf_iter (p_formula q) = Some all /\ concat pieces ++ rest = all).
  { intros pre p q out T (l&A&B). apply taken_split in T.
    destruct T as (f&g&pc&h&ln&cc&pl&ng&il&ic&ih&sol&er&hl&->&->&V&cs&I&J). cbn.
    repeat split; try assumption. exists l, cs, (pre ++ cs). subst pre. auto. }
  unfold parse_incremental at 1.
  assert (T0 : taken [] parser_new parser_new) by (apply taken_intro; [reflexivity|exists []; split; reflexivity]).
  pose proof (parse_chunks_taken take chunks 0 parser_new parser_new [] [] T0) as H.
  assert (O0 : outs_are [] []) by (exists []; split; reflexivity). specialize (H O0 eq_refl).
  unfold parse_incremental. cbn [parse_chunks length].
  unfold parse_chunk. change (p_error parser_new) with false. cbv iota.
  destruct (parse_chunks take 0 parser_new [] chunks) as [[p1 out1] e1].
  destruct (parse_bytes parser_new (concat chunks)) as [q1 e1']. destruct H as (->&pre1&T1&O1).
  destruct e1' as [e|]. { split; [reflexivity|]. eapply FIN; eassumption. }
  unfold callback at 2. cbv iota. cbn [parse_chunks].
  destruct (taken_eof pre1 p1 q1 T1) as [T2 E2].
  destruct (parse_eof p1) as [p2 e2]. destruct (parse_eof q1) as [q2 e2']. cbn [fst snd] in *. subst e2'.
  destruct e2 as [e|]. { split; [reflexivity|]. eapply FIN; eassumption. }
  destruct (callback_taken (take (length chunks)) pre1 p2 q2 out1 T2 O1) as (pre2&T3&O3).
  destruct (callback (take (length chunks)) p2 out1) as [p3 out3]. cbn [fst snd] in *.
  unfold callback. cbv iota. split; [eapply taken_check; exact T3|]. eapply FIN; eassumption.
Qed.
