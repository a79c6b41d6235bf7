(** LRAT output (C17) and DRAT output (C33). *)
From Coq Require Import Arith ZArith ZifyBool ZifyNat ZifyN Sorted.
From Verif Require Import Spec Lit LitProofs SortedLits SortedLitsProofs Hash Vli Dimacs DimacsSpec BinFormat Checker CheckerStore CheckerInv CheckerOps CheckerRup CheckerSteps CheckerRun CheckerCount CheckerReplay P_Checker P_CheckerStore P_CheckerReplay Lrat LratSpec LratProofs LratReplay.

(** * C17 *)

(** Whatever steps are processed and however often the writer is flushed in
    between, the file decodes (in both formats), and its operations are exactly
    the additions and deletions of the steps, in order.  In the textual format,
    deletions of duplicated and tautological input clauses are kept back until the
    next step that is not about an input clause, so those of the last input clauses
    ([ks2]) may be missing. *)
Theorem C17_file_decodes : forall binary calls, Forall step_ok (call_steps calls) ->
  exists lines ks1 ks2,
    lrat_parse binary (w_target (lrat_flush (fold_left do_call calls (lrat_new binary)))) = Some lines /\
    call_steps calls = ks1 ++ ks2 /\ flat_map line_ops lines = flat_map step_ops ks1 /\
    Forall input_step ks2 /\ (binary = true -> ks2 = []).
Proof. intros b xs F. destruct (calls_flush b xs F) as (l&k1&k2&A&B&C&D&E&_). exists l, k1, k2. auto. Qed.
Print Assumptions C17_file_decodes.

(** The lines of the textual format are numbered in order. *)
Theorem C17_line_numbers_increase : forall binary calls lines, Forall step_ok (call_steps calls) ->
  StronglySorted N.le (flat_map intro_id (call_steps calls)) ->
  lrat_parse binary (w_target (lrat_flush (fold_left do_call calls (lrat_new binary)))) = Some lines ->
  StronglySorted Z.le (flat_map line_no lines).
Proof. intros b xs lines F S P. destruct (calls_flush b xs F) as (l&k1&k2&A&_&_&_&_&G). assert (l = lines) by congruence. subst l. auto. Qed.
Print Assumptions C17_line_numbers_increase.

Lemma input_dec log1 log2 id red hints : Forall input_step log2 -> In (KAtClause id red [] hints) (log1 ++ log2) -> In (KAtClause id red [] hints) log1.
Proof. intros F IN. apply in_app_or in IN as [IN|IN]; [exact IN|]. rewrite Forall_forall in F. destruct (F _ IN). Qed.

(** End to end: for a formula that is loaded and a proof that the checker accepts,
    an independent LRAT checker that numbers the clauses of the formula from one
    accepts the file, and if the proof was a refutation then the file derives the
    empty clause.  A checker that insists on unused numbers ([fresh]) needs that
    loading the formula did not already yield a conflict. *)
Theorem C17_lrat_accepted : forall f steps c0 c c' binary fresh calls,
  reaches (map Load f) c0 -> Forall event_u32 (map Step steps) -> run c0 (map Step steps) = ROk tt c ->
  has_processors (c_proc c) = true -> no_late_deletion (map Load f ++ map Step steps) ->
  self_check_delayed_steps c = ROk tt c' -> (forall cl, ~ In (AddClause cl) steps) ->
  call_steps calls = proc_log (c_proc c') -> Forall step_ok (proc_log (c_proc c')) ->
  (fresh = true -> ~ reports_unsat c0) ->
  exists lines, lrat_parse binary (w_target (lrat_flush (fold_left do_call calls (lrat_new binary)))) = Some lines /\
    lrat_ops fresh (lrat_init f) (flat_map line_ops lines) <> None /\
    (refuted (proc_log (c_proc c')) -> In [] f \/ exists id hints, In (OAdd id [] hints) (flat_map line_ops lines)).
Proof.
  intros f steps c0 c c' binary fresh calls R0 U1 RUN HP NL DEL NA CALLS OK FRESH.
  pose proof (reaches_inv _ _ R0) as I0.
  assert (R : reaches (map Load f ++ map Step steps) c).
  { destruct R0 as (p&t&pf&tf&sh&S&F&R0). exists p, t, pf, tf, sh. split; [exact S|]. split; [apply Forall_app; auto|]. rewrite run_app, R0. exact RUN. }
  assert (L : exists ks0, proc_log (c_proc c0) = ks0 /\ load_log 0 f ks0 /\ (s_unsat (c_state c0) = false -> next_clause_id (c_clauses c0) = N.of_nat (length f))).
  { destruct R0 as (p&t&pf&tf&sh&S&F&R0). destruct (load_spec f _ c0 (new_inv p t pf tf sh S)) with (2 := R0) as (ks&A&B&C); [|reflexivity|].
    - clear - F. induction f as [|cl f IH]; [constructor|]. cbn [map] in F. apply Forall_cons_iff in F as [F1 F2]. constructor; [exact F1|auto].
    - exists ks. split; [exact A|]. split; [exact B|]. intros V. rewrite (C V). reflexivity. }
  destruct L as (ks0&L1&L2&L3). destruct (steps_quiet _ _ _ I0 U1 RUN NA) as (ks1&Q1&Q2&Q3&Q4).
  assert (T : exists ks2, quiet_log c0 c' ks2).
  { unfold self_check_delayed_steps, process_unit_conflicts in DEL. destruct (unit_conflict (c_clauses c)) as [[i j]|] eqn:UC; [|inversion DEL; subst; exists ks1; repeat split; auto].
    destruct (process_step_spec _ _ _ _ DEL) as [E EM]. exists (ks1 ++ [KAtClause (next_clause_id (c_clauses c)) false [] [i; j]]). apply (quiet_log_trans c0 c c'); [repeat split; auto|].
    split; [exact (em_log _ _ _ EM)|]. split; [repeat constructor; cbn; auto|]. split; [cbn; repeat constructor; lia|]. rewrite E. cbn [with_proc c_clauses]. lia. }
  destruct T as (ks2&T1&T2&T3&_). rewrite L1 in T1.
  destruct (replay false db_empty (proc_log (c_proc c'))) as [D|] eqn:RP; [|destruct (C16_final_refutation _ _ _ R HP NL DEL RP)].
  pose proof (C14_identifiers_increase_delayed _ _ _ R DEL) as SS. rewrite T1 in *.
  assert (ACC : lrat_ops fresh (lrat_init f) (flat_map step_ops (ks0 ++ ks2)) <> None).
  { apply (log_accepted fresh f ks0 ks2 D L2 T2 RP SS). intros FT. specialize (FRESH FT). rewrite <- L3; [exact T3|].
    destruct (s_unsat (c_state c0)) eqn:V; [|reflexivity]. destruct FRESH. unfold reports_unsat. auto. }
  rewrite <- CALLS in OK. destruct (C17_file_decodes binary calls OK) as (lines&k1&k2&P1&P2&P3&P4&P5). exists lines. split; [exact P1|].
  rewrite P3. rewrite <- CALLS in *. rewrite P2 in *. split.
  - intros E. apply ACC. rewrite flat_map_app, lrat_ops_app, E. reflexivity.
  - intros (id&red&hints&[IN|IN]).
    + right. apply input_dec in IN; [|exact P4]. exists (zid id), (map zid hints). apply in_flat_map. exists (KAtClause id red [] hints). split; [exact IN|left; reflexivity].
    + left. rewrite CALLS in IN. apply in_app_or in IN as [IN|IN]; [|rewrite Forall_forall in T2; destruct (T2 _ IN Logic.I)].
      clear - L2 IN. induction L2 as [j f|j cl f k mk ks _ IH K M|j f k ks NI _ _ IH]; [destruct IN| |destruct IN as [->|IN]; [destruct (NI Logic.I)|auto]]. apply in_app_or in IN as [IN|[IN|IN]].
      * destruct M as [->|[s ->]]; [destruct IN|]. destruct IN as [IN|[]]. discriminate.
      * left. subst k. destruct K as [K|[K|[s K]]]; try discriminate. injection K as -> K. destruct cl as [|x cl]; [reflexivity|]. exfalso.
        assert (X : In x (canon (x :: cl))) by (apply (canonical_in (x :: cl) x); left; reflexivity). rewrite <- K in X. destruct X.
      * right. auto.
Qed.
Print Assumptions C17_lrat_accepted.

(** The independent checker is sound, so an accepted file that derives the empty
    clause shows that the formula has no solution. *)
Theorem C17_lrat_checker_sound : forall fresh f os id hints, lrat_ops fresh (lrat_init f) os <> None -> In (OAdd id [] hints) os ->
  forall a, formula_holds a f = false.
Proof.
  intros fresh f os id hints H IN a. destruct (formula_holds a f) eqn:E; [|reflexivity]. destruct (lrat_ops fresh (lrat_init f) os) as [d|] eqn:O; [|congruence].
  pose proof (lrat_ops_sound fresh a os _ _ (lrat_init_holds a f E) O id [] hints IN). discriminate.
Qed.
Print Assumptions C17_lrat_checker_sound.

(** Non-trivial: the refutation of [square] (with a duplicate and a tautology in
    front), in both formats, flushed after every step. *)
Definition ex_formula : list (list N) := [[0;2]; [1;2]; [0;2;2]; [4;5]; [0;3]; [3;1]].
Definition chk1 : ctx := checker_new true false (fun _ => false) (fun _ => false) (fun _ l => l).
Definition flushed (ks : list checked_step) : list wcall := flat_map (fun k => [WStep k; WFlush]) ks.
Definition ex_steps : list proof_step := flat_map (fun e => match e with Step s => [s] | _ => [] end) refutation.
Example C17_ex : exists c0 c c' : ctx, reaches (map Load ex_formula) c0 /\ run c0 (map Step ex_steps) = ROk tt c /\ self_check_delayed_steps c = ROk tt c' /\
  has_processors (c_proc c) = true /\ Forall step_ok (proc_log (c_proc c')) /\ refuted (proc_log (c_proc c')) /\ ~ In [] ex_formula /\
  (forall binary, exists lines, lrat_parse binary (w_target (lrat_flush (fold_left do_call (flushed (proc_log (c_proc c'))) (lrat_new binary)))) = Some lines /\
     (4 <= length lines)%nat /\ lrat_ops true (lrat_init ex_formula) (flat_map line_ops lines) <> None /\
     StronglySorted N.le (flat_map intro_id (call_steps (flushed (proc_log (c_proc c')))))).
Proof.
  assert (X : exists c0 c c', run chk1 (map Load ex_formula) = ROk tt c0 /\ run c0 (map Step ex_steps) = ROk tt c /\ self_check_delayed_steps c = ROk tt c').
  { destruct (run chk1 (map Load ex_formula)) as [[] c0| |] eqn:E0; [|vm_compute in E0; discriminate..]. destruct (run c0 (map Step ex_steps)) as [[] c| |] eqn:E1.
    2,3: vm_compute in E0; inversion E0; subst c0; vm_compute in E1; discriminate.
    destruct (self_check_delayed_steps c) as [[] c'| |] eqn:E2; [exists c0, c, c'; auto| |]; exfalso; vm_compute in E0; inversion E0; subst c0; vm_compute in E1; inversion E1; subst c; vm_compute in E2; discriminate. }
  destruct X as (c0&c&c'&X0&X1&X2). exists c0, c, c'.
  split; [exists true, false, (fun _ => false), (fun _ => false), (fun _ l => l); split; [auto|]; split; [repeat constructor|exact X0]|]. split; [exact X1|]. split; [exact X2|].
  vm_compute in X0. inversion X0; subst c0. vm_compute in X1. inversion X1; subst c. vm_compute in X2. inversion X2; subst c'. clear.
  split; [reflexivity|]. split; [cbn [proc_log c_proc]; repeat constructor; vm_compute; reflexivity|]. split; [do 3 eexists; left; cbn [proc_log c_proc]; repeat (try (left; reflexivity); right)|].
  split; [intros H; repeat (destruct H as [H|H]; [discriminate|]); exact H|].
  intros [|]; eexists; (split; [vm_compute; reflexivity|]); (split; [cbn; lia|]); (split; [vm_compute; discriminate|]); vm_compute; repeat constructor; discriminate.
Qed.

(** The condition on [fresh] cannot be dropped: once the clauses loaded so far are
    contradictory, the remaining clauses of the formula get no number
    (state.rs:90-92 returns early), and the derived empty clause is written with
    the number of the next clause of the formula. *)
Theorem C17_fresh_number_refuted : exists f c c' lines, reaches (map Load f) c /\ has_processors (c_proc c) = true /\
  self_check_delayed_steps c = ROk tt c' /\ Forall step_ok (proc_log (c_proc c')) /\
  lrat_parse false (w_target (lrat_flush (lrat_run (lrat_new false) (proc_log (c_proc c'))))) = Some lines /\
  lrat_ops true (lrat_init f) (flat_map line_ops lines) = None /\ lrat_ops false (lrat_init f) (flat_map line_ops lines) <> None.
Proof.
  set (f := [[0]; [1]; [2;4]]).
  assert (X : exists c c', run chk0 (map Load f) = ROk tt c /\ self_check_delayed_steps c = ROk tt c') by (vm_compute; do 2 eexists; split; reflexivity).
  destruct X as (c&c'&X0&X1). exists f, c, c'.
  pose proof X0 as R. vm_compute in X0. inversion X0; subst c. pose proof X1 as D. vm_compute in X1. inversion X1; subst c'.
  eexists. split; [exists true, true, (fun _ => false), (fun _ => false), (fun _ l => l); split; [auto|]; split; [repeat constructor|exact R]|].
  split; [reflexivity|]. split; [exact D|]. split; [cbn [proc_log c_proc]; repeat constructor; vm_compute; reflexivity|].
  split; [vm_compute; reflexivity|]. split; vm_compute; [reflexivity|discriminate].
Qed.
Print Assumptions C17_fresh_number_refuted.

(** [ks2] in [C17_file_decodes] cannot be dropped: the deletion of a duplicated last
    clause is not in the textual file. *)
Theorem C17_pending_deletions_refuted : exists ks, Forall step_ok ks /\
  w_target (lrat_flush (lrat_run (lrat_new false) ks)) = [] /\ flat_map step_ops ks <> [].
Proof.
  exists [KAddClause 0 [0]; KDuplicatedClause 1 0 [0]]. split; [repeat constructor|]. split; [vm_compute; reflexivity|vm_compute; discriminate].
Qed.
Print Assumptions C17_pending_deletions_refuted.

(** * C33 *)

(** the additions ([true]) and deletions of a proof, as signed integers *)
Definition drat_entries (s : proof_step) : list (bool * list Z) :=
  match s with
  | AtClause _ clause _ => [(true, map zlit clause)]
  | UnitClauses units => map (fun u => (true, [zlit (fst u)])) units
  | DeleteClause clause _ => [(false, map zlit clause)]
  | _ => []
  end.
Definition incremental (s : proof_step) : bool := match s with AddClause _ | Assumptions _ | FailedAssumptions _ _ => true | _ => false end.
Definition drat_lits_ok (s : proof_step) : Prop :=
  match s with
  | AtClause _ clause _ | DeleteClause clause _ => Forall (fun l => l < 2^32) clause
  | UnitClauses units => Forall (fun u => fst u < 2^32) units
  | _ => True
  end.
(** the bytes of a whole proof; [None]: one of the calls panics *)
Fixpoint drat_file (write : proof_step -> option (list N)) (ss : list proof_step) : option (list N) :=
  match ss with
  | [] => Some []
  | s :: ss => match write s, drat_file write ss with Some a, Some b => Some (a ++ b) | _, _ => None end
  end.

(** one entry *)
Definition entry := (bool * list N)%type.
Definition eview (e : entry) : bool * list Z := (fst e, map zlit (snd e)).
Definition entry_ok (e : entry) : Prop := Forall (fun l => l < 2^32) (snd e).
Definition entries (s : proof_step) : list entry := match drat_step s with Some es => es | None => [] end.

Lemma entries_view s : drat_lits_ok s -> incremental s = false -> map eview (entries s) = drat_entries s /\ Forall entry_ok (entries s).
Proof.
  destruct s; cbn [drat_lits_ok incremental entries drat_step drat_entries map]; try discriminate; intros H _; try (split; [reflexivity|repeat constructor; exact H]); try (split; [reflexivity|constructor]).
  unfold entries. cbn [drat_step]. rewrite map_map. cbn [eview fst snd map]. split; [reflexivity|]. apply Forall_map. eapply Forall_impl; [|exact H]. intros u Hu. repeat constructor. exact Hu.
Qed.

Definition finish (add : bool) (ws : list (list N)) : option (bool * list Z) :=
  match ints ws with Some zs => match until_zero zs with Some (lits, []) => Some (add, lits) | _ => None end | None => None end.
Lemma drat_text_line_add w ws : w <> [100] -> drat_text_line (w :: ws) = finish true (w :: ws).
Proof.
  intros ND. unfold drat_text_line, finish. destruct w as [|b w]; [reflexivity|]. destruct w as [|b2 w]; [|destruct b as [|p]; [reflexivity|]; do 7 (destruct p; try reflexivity)].
  destruct b as [|p]; [reflexivity|]. do 7 (destruct p; try reflexivity). contradiction.
Qed.
Lemma drat_text_line_written e : entry_ok e -> drat_text_line (((if fst e then [] else [[100]]) ++ txt_lits (snd e)) ++ [[48]]) = Some (eview e).
Proof.
  destruct e as [add ls]. unfold entry_ok, eview. cbn [fst snd]. intros O.
  assert (E : drat_text_line (((if add then [] else [[100]]) ++ txt_lits ls) ++ [[48]]) = finish add (txt_lits ls ++ [[48]])).
  { destruct add; [|reflexivity]. cbn [app]. destruct ls as [|l ls]; cbn [txt_lits map app]; apply drat_text_line_add; [discriminate|apply itoa_not_d]. }
  rewrite E. unfold finish. rewrite ints_app, ints_lits by exact O. change (ints [[48]]) with (Some [0%Z]). cbv iota. rewrite until_zero_app by apply zlit_nz. reflexivity.
Qed.

Definition text_entry (e : entry) : list N := (if fst e then [] else [100; 32]) ++ drat_literals (snd e).
Definition binary_entry (e : entry) : list N := (if fst e then [97] else [100]) ++ drat_binary_literals (snd e).

Lemma drat_text_parse es : Forall entry_ok es -> drat_parse false (flat_map text_entry es) = Some (map eview es).
Proof.
  intros F. unfold drat_parse. pose proof (parse_text_lines drat_text_line (map (fun e : entry => ((if fst e then [] else [[100]]) ++ txt_lits (snd e), [48], eview e)) es)) as P.
  rewrite flat_map_concat_map, !map_map in P. cbn [fst snd] in P. rewrite flat_map_concat_map. transitivity (Some (map (fun x : entry => eview x) es)); [|reflexivity]. rewrite <- P.
  - f_equal. f_equal. apply map_ext. intros [add ls]. unfold text_entry, drat_literals. cbn [fst snd]. rewrite flat_map_app, <- !app_assoc. f_equal; [destruct add; reflexivity|].
    cbn [app]. f_equal. unfold txt_lits. rewrite !flat_map_concat_map, map_map. reflexivity.
  - apply Forall_map. eapply Forall_impl; [|exact F]. intros e O. cbn [fst snd]. split; [apply Forall_app; split; [destruct (fst e); repeat constructor|apply txt_lits_ok]|].
    split; [reflexivity|]. apply drat_text_line_written. exact O.
Qed.

Lemma drat_binary_parse es : drat_parse true (flat_map binary_entry es) = Some (map eview es).
Proof.
  unfold drat_parse, parse_binary. generalize (le_n (length (flat_map binary_entry es))). generalize (length (flat_map binary_entry es)) at 2 3.
  induction es as [|e es IH]; intros fuel L; [destruct fuel; reflexivity|]. cbn [flat_map map] in *.
  assert (W : exists b bs, binary_entry e ++ flat_map binary_entry es = b :: bs /\ drat_binary_line b bs = Some (eview e, flat_map binary_entry es) /\ (length (flat_map binary_entry es) <= length bs)%nat).
  { set (R := flat_map binary_entry es). destruct e as [add ls]. unfold binary_entry, eview, drat_binary_literals. cbn [fst snd].
    exists (if add then 97 else 100), (flat_map (fun l => leb (l + 2)) ls ++ 0 :: R). split; [destruct add; rewrite <- !app_assoc; reflexivity|]. split; [|rewrite app_length; cbn [length]; lia].
    pose proof (bin_lits_read ls R) as B. cbv zeta in B. rewrite flat_map_concat_map, map_map, <- flat_map_concat_map in B.
    unfold drat_binary_line. destruct add; cbn [N.eqb orb Pos.eqb]; rewrite B; reflexivity. }
  destruct W as (b&bs&E1&E2&E3). rewrite E1 in *. destruct fuel as [|fuel]; [cbn [length] in L; lia|].
  cbn [binary_lines]. rewrite E2, IH; [reflexivity|]. cbn [length] in L. lia.
Qed.

Lemma drat_file_entries (binary : bool) ss : forallb (fun s => negb (incremental s)) ss = true ->
  drat_file (if binary then drat_write_binary_step else drat_write_step) ss = Some (flat_map (if binary then binary_entry else text_entry) (flat_map entries ss)).
Proof.
  induction ss as [|s ss IH]; intros H; [reflexivity|]. cbn [forallb] in H. apply andb_prop in H as [H1 H2]. cbn [drat_file flat_map]. rewrite (IH H2), flat_map_app.
  destruct binary; unfold drat_write_binary_step, drat_write_step, entries at 1; destruct s; try discriminate; reflexivity.
Qed.

(** The file contains one addition for each derived clause and unit and one
    deletion for each deleted clause, in order, in both formats. *)
Theorem C33_file_decodes : forall (binary : bool) ss, Forall drat_lits_ok ss -> forallb (fun s => negb (incremental s)) ss = true ->
  exists bytes, drat_file (if binary then drat_write_binary_step else drat_write_step) ss = Some bytes /\
    drat_parse binary bytes = Some (flat_map drat_entries ss).
Proof.
  intros binary ss F H. eexists. split; [apply drat_file_entries; exact H|].
  assert (E : map eview (flat_map entries ss) = flat_map drat_entries ss /\ Forall entry_ok (flat_map entries ss)).
  { clear binary. induction F as [|s ss F1 F2 IH]; [split; [reflexivity|constructor]|]. cbn [forallb] in H. apply andb_prop in H as [H1 H2]. destruct (IH H2) as [IH1 IH2].
    destruct (entries_view s F1) as [E1 E2]; [destruct (incremental s); [discriminate|reflexivity]|]. cbn [flat_map]. rewrite map_app, E1, IH1. split; [reflexivity|]. apply Forall_app. auto. }
  destruct E as [E1 E2]. rewrite <- E1. destruct binary; [apply drat_binary_parse|apply drat_text_parse; exact E2].
Qed.
Print Assumptions C33_file_decodes.

(** The writers panic exactly for proofs that use an incremental feature. *)
Theorem C33_panics_iff_incremental : forall (binary : bool) ss,
  drat_file (if binary then drat_write_binary_step else drat_write_step) ss = None <-> exists s, In s ss /\ incremental s = true.
Proof.
  intros binary ss. split.
  - intros H. destruct (forallb (fun s => negb (incremental s)) ss) eqn:E; [rewrite drat_file_entries in H by exact E; discriminate|].
    clear H. induction ss as [|s ss IH]; [discriminate|]. cbn [forallb] in E. destruct (incremental s) eqn:I; [exists s; split; [left; reflexivity|exact I]|].
    cbn [negb andb] in E. destruct (IH E) as (x&X1&X2). exists x. split; [right; exact X1|exact X2].
  - intros (s&IN&I). induction ss as [|x ss IH]; [destruct IN|]. cbn [drat_file]. destruct IN as [->|IN].
    + destruct binary; destruct s; try discriminate; reflexivity.
    + rewrite (IH IN). destruct ((if binary then drat_write_binary_step else drat_write_step) x); reflexivity.
Qed.
Print Assumptions C33_panics_iff_incremental.

(** Non-trivial: an addition, two units, an empty clause and a deletion. *)
Example C33_ex : let ss := [SolverVarName 0 (Some 3); AtClause true [0;3] [7]; UnitClauses [(2, 1); (5, 2)]; DeleteClause [0;3] DRedundant; AtClause false [] []; End] in
  Forall drat_lits_ok ss /\ forallb (fun s => negb (incremental s)) ss = true /\
  flat_map drat_entries ss = [(true, [1;-2]); (true, [2]); (true, [-3]); (false, [1;-2]); (true, [])]%Z /\
  drat_file drat_write_step ss = Some [49;32;45;50;32;48;10; 50;32;48;10; 45;51;32;48;10; 100;32;49;32;45;50;32;48;10; 48;10].
Proof. cbv zeta. split; [repeat constructor|]. split; [reflexivity|]. split; vm_compute; reflexivity. Qed.
