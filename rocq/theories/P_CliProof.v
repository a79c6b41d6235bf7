(** C48: the proof options of the command line solver. *)
From Coq Require Import Lia Arith PeanoNat Permutation ZArith String ZifyBool ZifyNat ZifyN.
From Verif Require Import Spec Lit LitProofs BinFormat Hash HashProofs F32 Vsids VsidsProofs VsidsWf Luby Config P_Config Search SearchBase Propagate P_Search ClauseDb DbProofs
  Analyze AnalyzeProofs Rup AnalyzeHints P_Hints SolverCtx CtxFrame VarsProofs Solver SolverInv SolverSimplify SolverAdd SolverLoad SolverFailed FailedHints SolverSearch SolverSolve CtxEvents P_Solver P_Proof
  ProofLog ProofSim ProofDerive ProofUnits ProofLoad ProofSearch P_SelfCheck ProofEarly P_ProofFile P_ProofTranscript P_DratFile Cli P_Cli.
From Verif Require Vli VliProofs Checker CheckerRun CheckerSafe CheckerSteps ProofTwin CtxKinds CtxRange VarsBound Cnf Dimacs LratProofs LratSpec DratSpec.
Local Open Scope N_scope.

(** * The tool as a history *)
Definition formula_calls (o : options) (chunks : list (list N)) : list call := CConfig (merged (o_updates o)) :: map CAdd (loaded chunks).
Lemma config_commutes fuel us f pick judge io : exists d, run fuel (CConfig (merged us)) (ctx_default pick judge io) = Ret (d, AConfig (fst (update_apply (merged us) config_default))) /\
  exists e, run fuel (CWriteProof f) d = Ret (e, ANone) /\ exists d', run fuel (CWriteProof f) (ctx_default pick judge io) = Ret (d', ANone) /\
  run fuel (CConfig (merged us)) d' = Ret (e, AConfig (fst (update_apply (merged us) config_default))).
Proof.
  cbn [run]. pose proof (C38_update_never_panics (merged us) config_default C38_default_valid) as V. change (c_cfg (ctx_default pick judge io)) with config_default.
  destruct (update_apply (merged us) config_default) as [[] cfg] eqn:Eu; cbn [fst snd] in *.
  - destruct V as (_&V&W). rewrite V, W. cbn [andb]. eexists. split; [reflexivity|]. eexists. split; [reflexivity|]. eexists. split; [reflexivity|].
    match goal with |- context [update_apply _ (c_cfg ?x)] => change (c_cfg x) with config_default end. rewrite Eu. cbn [fst snd]. rewrite V, W. reflexivity.
  - eexists. split; [reflexivity|]. eexists. split; [reflexivity|]. eexists. split; [reflexivity|].
    match goal with |- context [update_apply _ (c_cfg ?x)] => change (c_cfg x) with config_default end. rewrite Eu. reflexivity.
Qed.
Lemma file_history fuel pick judge io o f chunks c code text : o_proof o = Some (ToFile f) -> o_self_check o = false ->
  cli_solve fuel o chunks (ctx_default pick judge io) = Ret (c, (code, text)) -> settings_ok (o_updates o) -> forall g, Dimacs.parse chunks = inl g ->
  exists r a, run_all fuel (CWriteProof f :: formula_calls o chunks ++ [CSolve] ++ [CCloseProof]) (ctx_default pick judge io) = Ret (c, r) /\
    In a r /\ ((code = 10 /\ a = ASolved true) \/ (code = 20 /\ a = ASolved false) \/ (code = 0 /\ exists e, a = AError e)) /\
    exists c1 r1, run_all fuel (CWriteProof f :: formula_calls o chunks ++ [CSolve]) (ctx_default pick judge io) = Ret (c1, r1 ++ [a]).
Proof.
  intros P1 P2 E V g Ep. unfold cli_solve in E. rewrite main_eq in E. destruct (config_commutes fuel (o_updates o) f pick judge io) as (d&Ed&e&Ee&d'&Ed'&Ed2).
  apply config_ok in V. rewrite V in *. rewrite Ed in E. cbn [bind] in E. unfold proof_calls in E. rewrite P1, P2 in E. cbn [app run_all] in E. rewrite Ee in E. cbn [bind] in E.
  destruct (run_all fuel (map CAdd (loaded chunks)) e) as [[e1 r1]| |] eqn:E1; cbn [bind] in E; try discriminate. rewrite Ep in E.
  destruct (run fuel CSolve e1) as [[e2 a]| |] eqn:Es; cbn [bind] in E; try discriminate.
  destruct (report (e2, a)) as [[e3 [k t]]| |] eqn:Er; cbn [bind] in E; try discriminate. unfold call_only in E.
  destruct (run fuel CCloseProof e3) as [[e4 b]| |] eqn:Ec; cbn [bind] in E; try discriminate. injection E as <- <- <-.
  assert (X : e3 = e2 /\ ((k = 10 /\ a = ASolved true) \/ (k = 20 /\ a = ASolved false) \/ (k = 0 /\ exists e, a = AError e))).
  { unfold report in Er. destruct (solve_answer _ _ _ _ Es) as [([]&->)|(x&->)].
    - destruct (get_model e2) as [[m|]| |]; cbn [bind] in Er; try discriminate. injection Er as <- <- _. auto.
    - injection Er as <- <- _. auto.
    - injection Er as <- <- _. eauto 6. }
  destruct X as [-> X]. exists (ANone :: AConfig true :: r1 ++ [a; b]), a. split; [|split; [right; right; apply in_or_app; right; left; reflexivity|split; [exact X|]]].
  - unfold formula_calls. cbn [app run_all]. rewrite Ed'. cbn [bind]. rewrite Ed2. cbn [bind]. rewrite run_all_snoc, E1. cbn [bind run_all]. rewrite Es. cbn [bind]. rewrite Ec. reflexivity.
  - exists e2, (ANone :: AConfig true :: r1). unfold formula_calls. cbn [app run_all]. rewrite Ed'. cbn [bind]. rewrite Ed2. cbn [bind]. rewrite run_all_snoc, E1. cbn [bind run_all]. rewrite Es. reflexivity.
Qed.

Lemma formula_early o chunks : forallb early_call (formula_calls o chunks) = true.
Proof. unfold formula_calls. cbn [forallb early_call andb]. induction (loaded chunks) as [|C l IH]; [reflexivity|exact IH]. Qed.
Lemma formula_plain o chunks : forallb no_assumption (formula_calls o chunks) = true.
Proof. unfold formula_calls. cbn [forallb]. induction (loaded chunks) as [|C l IH]; [reflexivity|exact IH]. Qed.
Lemma formula_clauses o chunks : clauses_of (formula_calls o chunks) = loaded chunks.
Proof. unfold formula_calls. cbn. induction (loaded chunks) as [|C l IH]; [reflexivity|]. cbn. f_equal. exact IH. Qed.

Lemma loop_stop n m : forall c c', schedule_loop n m c = Ret c' -> st_sat (c_st c') <> Unknown \/ st_error (c_st c') <> None.
Proof.
  induction m as [|m IH]; intros c c' E; cbn [schedule_loop] in E; [discriminate|]. destruct (schedule_step n c) as [[c1 []]| |] eqn:S1; cbn [bind] in E; try discriminate; [exact (IH _ _ E)|].
  injection E as <-. unfold schedule_step in S1. destruct (st_sat (c_st c)) eqn:St; try (injection S1 as <-; left; congruence). destruct (st_error (c_st c)) eqn:Se; [injection S1 as <-; right; congruence|].
  exfalso. match type of S1 with context [bind ?x _] => destruct x as [z| |] end; cbn [bind] in S1; try discriminate.
  match type of S1 with context [collect_garbage ?a ?b] => destruct (collect_garbage a b) as [[s d]|] end; try discriminate. destruct (d_full d); try discriminate.
  match type of S1 with context [conflict_step ?a ?b] => destruct (conflict_step a b) end; cbn [bind] in S1; discriminate.
Qed.

(** A file that never fails and no checker: [solve] has an answer. *)
Lemma quiet_answer n c c' d a d' a' : ProofTwin.twin c c' -> solve n c = Ret (d, a) -> solve n c' = Ret (d', a') -> exists b, a = ASolved b.
Proof.
  intros T. unfold solve. cbv zeta.
  assert (T0 : ProofTwin.twin (set_invoked c true) (set_invoked c' true)) by (destruct T as (Q&hs&us&ha&L&->); split; [apply (ProofTwin.quiet_eq c); [reflexivity|reflexivity|exact Q]|exists hs, us, ha, L; reflexivity]).
  revert T0. generalize (set_invoked c true) (set_invoked c' true). clear c c' T. intros c c' T.
  assert (c_st c' = c_st c) as -> by (destruct T as (Q&hs&us&ha&L&->); reflexivity). destruct (st_invalid (c_st c)); [discriminate|].
  pose proof (ProofTwin.tw_schedule_loop n n c c' T) as K. pose proof (loop_stop n n c) as St. destruct (schedule_loop n n c) as [x| |]; cbn [bind]; try discriminate.
  destruct (schedule_loop n n c') as [x'| |]; cbn [bind]; try discriminate. cbn [ProofTwin.tw] in K. destruct K as (Q&_).
  unfold solve_finished. cbv zeta. rewrite ProofTwin.flush_quiet by exact Q. rewrite (ProofTwin.q_off _ Q). cbn [bind]. unfold take_error. rewrite (ProofTwin.q_err _ Q).
  intros E _. injection E as _ <-. pose proof (ProofTwin.q_err _ Q) as Qe. destruct (St _ eq_refl) as [X|X]; [|contradiction]. destruct (st_sat _); [contradiction|eauto..].
Qed.
Lemma file_answer fuel fm pick judge io ks c1 r1 a c2 : (forall b, io b = false) -> forallb ProofTwin.lasting ks = true ->
  run_all fuel (CWriteProof fm :: ks ++ [CSolve]) (ctx_default pick judge io) = Ret (c1, r1 ++ [a]) -> add_step true End c1 = Ret c2 -> exists b, a = ASolved b.
Proof.
  intros Io La E Es. assert (La2 : forallb ProofTwin.lasting (ks ++ [CSolve]) = true) by (rewrite forallb_app, La; reflexivity).
  destruct (file_run fuel fm pick judge io (ks ++ [CSolve]) c1 _ c2 Io La2 E Es) as (t1&t2&Et&_).
  set (d := ctx_default pick judge io) in *. set (c := ctx_default pick (fun _ => VOk) io) in *.
  set (d0 := cw_pf d (Proof (Some fm) false 64 0 [] [] judge io)). set (c0 := cw_pf c (Proof (Some fm) true 64 0 [] [] (fun _ => VOk) io)).
  assert (T0 : ProofTwin.twin d0 c0).
  { split; [constructor; [discriminate|reflexivity|exact Io|reflexivity]|]. exists [], [], [], []. reflexivity. }
  cbn [run_all] in E, Et. change (run fuel (CWriteProof fm) d) with (Ret (d0, ANone)) in E. change (run fuel CCheck c) with (Ret (cw_pf c (Proof None true 64 0 [] [] (fun _ => VOk) io), ANone)) in Et.
  cbn [bind] in E, Et. change (run fuel (CWriteProof fm) _) with (Ret (c0, ANone)) in Et. cbn [bind] in Et. rewrite run_all_snoc in E, Et.
  pose proof (ProofTwin.tw_run_all fuel ks d0 c0 La T0) as K. destruct (run_all fuel ks d0) as [[d1 s1]| |]; cbn [bind] in E; try discriminate.
  destruct (run_all fuel ks c0) as [[d2 s2]| |]; cbn [bind] in Et; try discriminate. destruct K as [K _]. cbn [fst] in K. cbn [run_all run] in E, Et.
  destruct (solve fuel d1) as [[d3 b1]| |] eqn:S1; cbn [bind] in E; try discriminate. destruct (solve fuel d2) as [[d4 b2]| |] eqn:S2; cbn [bind] in Et; try discriminate.
  destruct (quiet_answer _ _ _ _ _ _ _ K S1 S2) as (b&->). exists b. injection E as _ E.
  change (ANone :: s1 ++ [ASolved b]) with ((ANone :: s1) ++ [ASolved b]) in E. apply app_inj_tail in E. destruct E as [_ <-]. reflexivity.
Qed.

Lemma formula_lasting o chunks : forallb ProofTwin.lasting (formula_calls o chunks) = true.
Proof. unfold formula_calls. cbn [forallb ProofTwin.lasting andb]. induction (loaded chunks) as [|C l IH]; [reflexivity|exact IH]. Qed.
Lemma extras_app a b : VarsBound.extras (a ++ b) = VarsBound.extras a + VarsBound.extras b.
Proof. induction a as [|k a IH]; cbn [app VarsBound.extras]; [reflexivity|]. rewrite IH. lia. Qed.
Lemma formula_within o chunks g : Dimacs.parse chunks = inl g -> VarsBound.within_vars (formula_calls o chunks ++ [CSolve]).
Proof.
  intros E. exists max_count. pose proof (named_cli (Options (o_updates o) None false) chunks g E) as H. pose proof (extras_cli (Options (o_updates o) None false) chunks) as X.
  change (cli_calls (Options (o_updates o) None false) chunks) with (formula_calls o chunks) in H, X.
  split; [apply Forall_app; split; [exact H|repeat constructor]|]. rewrite extras_app, X. cbn [VarsBound.extras VarsBound.extra]. lia.
Qed.
Lemma formula_solved fuel pick judge io o f chunks c code text : (forall b, io b = false) -> o_proof o = Some (ToFile f) -> o_self_check o = false ->
  cli_solve fuel o chunks (ctx_default pick judge io) = Ret (c, (code, text)) -> settings_ok (o_updates o) -> forall g, Dimacs.parse chunks = inl g ->
  exists r, run_all fuel (CWriteProof f :: formula_calls o chunks ++ [CSolve] ++ [CCloseProof]) (ctx_default pick judge io) = Ret (c, r) /\
    ((code = 10 /\ In (ASolved true) r) \/ (code = 20 /\ In (ASolved false) r)).
Proof.
  intros Io P1 P2 E V g Eg. destruct (file_history _ _ _ _ _ _ _ _ _ _ P1 P2 E V g Eg) as (r&a&Er&Ia&Ha&c1&r1&E1). exists r. split; [exact Er|].
  replace (CWriteProof f :: formula_calls o chunks ++ [CSolve] ++ [CCloseProof]) with ((CWriteProof f :: formula_calls o chunks ++ [CSolve]) ++ [CCloseProof]) in Er by (cbn [app]; rewrite <- app_assoc; reflexivity).
  rewrite run_all_snoc, E1 in Er. cbn [bind run_all run] in Er. unfold close_proof in Er. destruct (add_step true End c1) as [c2| |] eqn:Es; cbn [bind] in Er; try discriminate.
  destruct (file_answer _ _ _ _ _ _ _ _ _ _ Io (formula_lasting o chunks) E1 Es) as (b&->). destruct Ha as [(->&Hb)|[(->&Hb)|(_&e&Hb)]]; [rewrite Hb in Ia; auto..|discriminate].
Qed.

(** * The theorems *)
(** With a proof file that can be written, and without self checking, the result is as certain as without (C47): there is no "s UNKNOWN". *)
Theorem C48_answer : forall fuel pick judge io o f chunks c code text, (forall b, io b = false) -> o_proof o = Some (ToFile f) -> o_self_check o = false ->
  cli_solve fuel o chunks (ctx_default pick judge io) = Ret (c, (code, text)) ->
  (code = 10 <-> settings_ok (o_updates o) /\ exists F, input chunks F /\ z_satisfiable F) /\
  (code = 20 <-> settings_ok (o_updates o) /\ exists F, input chunks F /\ ~ z_satisfiable F) /\
  (code = 1 <-> ~ settings_ok (o_updates o) \/ forall F, ~ input chunks F) /\
  (code = 10 \/ code = 20 \/ code = 1).
Proof.
  intros fuel pick judge io o f chunks c code text Io P1 P2 E.
  assert (Un : forall F F', input chunks F -> input chunks F' -> F = F') by (intros F F' (g&cls&E1&E2&->) (g'&cls'&E3&E4&->); assert (g' = g) by congruence; subst; congruence).
  destruct (C47_exit _ _ _ _ _ _ _ _ _ E) as [(->&V&F&m&HF&_&M)|[(->&V&_&F&HF&Us)|[(->&_&W)|(->&V&_&(F&HF)&_)]]].
  - pose proof (model_sat _ _ M) as Sa. split; [split; eauto|]. split; [split; [discriminate|]; intros (_&F'&HF'&U); rewrite (Un _ _ HF HF') in Sa; contradiction|].
    split; [split; [discriminate|]; intros [H|H]; [contradiction|exfalso; exact (H _ HF)]|]. auto.
  - split; [split; [discriminate|]; intros (_&F'&HF'&Sa); rewrite (Un _ _ HF HF') in Us; contradiction|]. split; [split; eauto|].
    split; [split; [discriminate|]; intros [H|H]; [contradiction|exfalso; exact (H _ HF)]|]. auto.
  - split; [split; [discriminate|]; intros (V&F&HF&_); exfalso; destruct W as [W|W]; [auto|exact (W _ HF)]|]. split; [split; [discriminate|]; intros (V&F&HF&_); exfalso; destruct W as [W|W]; [auto|exact (W _ HF)]|].
    split; [split; auto|]. auto.
  - exfalso. destruct HF as (g&cls&Eg&_). destruct (formula_solved _ _ _ _ _ _ _ _ _ _ Io P1 P2 E V g Eg) as (r&_&[[X _]|[X _]]); discriminate.
Qed.
Print Assumptions C48_answer.

(** [--proof FILE]: if the tool reports a result, a checker that reads the same input accepts the file, with or without transcript. *)
Theorem C48_varisat_file : forall fuel pick judge io o chunks c code text g cls, (forall b, io b = false) -> o_proof o = Some (ToFile FVarisat) -> o_self_check o = false ->
  cli_solve fuel o chunks (ctx_default pick judge io) = Ret (c, (code, text)) -> code = 10 \/ code = 20 ->
  Dimacs.parse chunks = inl g -> Cnf.cnf_iter g = Some cls -> CheckerSafe.history_size (map CheckerRun.Load cls) + N.of_nat (length (p_out (c_pf c))) < 2^32 ->
  forall procs trans pf tf sh file, (forall n l, Permutation (sh n l) l) -> (forall n, pf n = false) -> (forall n, tf n = false) -> (trans = true -> introduced cls) ->
  VliProofs.reader_ok file -> VliProofs.flat file = p_out (c_pf c) ->
  exists k k', Checker.add_formula (Checker.checker_new procs trans pf tf sh) cls = Checker.ROk tt k /\ Checker.check_proof k file = Some (Checker.ROk tt k').
Proof.
  intros fuel pick judge io o chunks c code text g cls Io P1 P2 E Cd Eg Ec Sz procs trans pf tf sh file SH PF TF Tr RO FL.
  assert (V : settings_ok (o_updates o)) by (destruct (C48_answer _ _ _ _ _ _ _ _ _ _ Io P1 P2 E) as (A&B&_); destruct Cd as [->| ->]; [apply A|apply B]; reflexivity).
  assert (cls = loaded chunks) by (pose proof (loaded_ok _ _ Eg); congruence). subst cls.
  destruct (formula_solved _ _ _ _ _ _ _ _ _ _ Io P1 P2 E V g Eg) as (r&Er&_). rewrite <- (formula_clauses o chunks) in *.
  assert (Sb : starts_solving [CSolve]) by (right; eexists; reflexivity). destruct trans.
  - exact (C44_transcript _ _ _ _ _ _ _ _ Io (formula_early o chunks) (formula_plain o chunks) Sb eq_refl (Tr eq_refl) Er (formula_within o chunks g Eg) Sz procs true pf tf sh file SH PF TF RO FL).
  - refine (C44_file_accepted_partial _ _ _ _ _ _ _ _ Io (formula_early o chunks) Sb eq_refl _ Er (formula_within o chunks g Eg) Sz procs pf tf sh file SH PF RO FL).
    apply no_assume_single. cbn [forallb no_assume andb]. rewrite forallb_app. apply andb_true_intro. split; [|reflexivity].
    pose proof (formula_plain o chunks) as H. rewrite forallb_forall in *. intros k I. specialize (H k I). destruct k; auto.
Qed.
Print Assumptions C48_varisat_file.

(** [--proof-format=drat] and [binary-drat]: the file is a DRAT proof over the input, and a refutation if the tool reports "s UNSATISFIABLE". *)
Theorem C48_drat_file : forall fuel pick judge io o (binary : bool) chunks c code text F, (forall b, io b = false) ->
  o_proof o = Some (ToFile (if binary then FBinaryDrat else FDrat)) -> o_self_check o = false ->
  cli_solve fuel o chunks (ctx_default pick judge io) = Ret (c, (code, text)) -> code = 10 \/ code = 20 -> input chunks F ->
  exists lines, LratSpec.drat_parse binary (p_out (c_pf c)) = Some lines /\ forall ignore, DratSpec.drat_valid ignore F lines /\ (code = 20 -> DratSpec.drat_refutes ignore F lines).
Proof.
  intros fuel pick judge io o bn chunks c code text F Io P1 P2 E Cd (g&cls&Eg&Ec&->).
  assert (V : settings_ok (o_updates o)) by (destruct (C48_answer _ _ _ _ _ _ _ _ _ _ Io P1 P2 E) as (A&B&_); destruct Cd as [->| ->]; [apply A|apply B]; reflexivity).
  assert (cls = loaded chunks) by (pose proof (loaded_ok _ _ Eg); congruence). subst cls.
  destruct (formula_solved _ _ _ _ _ _ _ _ _ _ Io P1 P2 E V g Eg) as (r&Er&Ia). 
  destruct (C45_drat_file fuel pick judge io bn (formula_calls o chunks) [CSolve] c r Io (formula_early o chunks) (or_intror (ex_intro _ [] eq_refl)) eq_refl Er (formula_within o chunks g Eg)) as (lines&D&H).
  rewrite formula_clauses in H. exists lines. split; [exact D|]. intros ignore. specialize (H ignore).
  assert (EQ : map (map LratProofs.zlit) (loaded chunks) = map (map lit_to_dimacs) (loaded chunks)).
  { pose proof (loaded_valid _ _ Eg) as W. rewrite Forall_forall in W. apply map_ext_in. intros C I. specialize (W C I). rewrite Forall_forall in W. apply map_ext_in. intros l Il. rewrite (lit_to_dimacs_val l (W l Il)). reflexivity. }
  rewrite EQ in H. destruct H as [H1 H2]. split; [exact H1|]. intros ->. apply H2. destruct Ia as [[X _]|[_ X]]; [discriminate|exact X].
Qed.
Print Assumptions C48_drat_file.

Lemma model_panics c us : model_lits c us <> Panic PSelfCheck.
Proof.
  induction us as [|u us IH]; cbn [model_lits]; [discriminate|]. destruct (v_gu (c_v c) u) as [g|]; [|exact IH]. destruct (nth_error _ _); [|discriminate].
  destruct (model_lits c us) as [r|p|]; cbn [bind]; [discriminate| |discriminate]. intros H. apply IH. congruence.
Qed.
(** [--self-check], and the conversion to LRAT, which checks as well: the check never fails.  [within judge] says that the checker is the one of the model,
    as long as its counters do not overflow (C43). *)
Theorem C48_self_check : forall fuel pick judge io o chunks, within judge -> cli_solve fuel o chunks (ctx_default pick judge io) <> Panic PSelfCheck.
Proof.
  intros fuel pick judge io o chunks J E. set (c := ctx_default pick judge io) in *. set (ks1 := CConfig (merged (o_updates o)) :: proof_calls o).
  assert (F1 : Forall setup ks1) by (constructor; [exact Logic.I|]; apply Forall_forall; intros k I; apply proof_calls_in in I; destruct I as [->|(f&->)]; exact Logic.I).
  assert (NA : forallb no_assume ks1 = true) by (apply forallb_forall; intros k [<-|I]; [reflexivity|]; apply proof_calls_in in I; destruct I as [->|(f&->)]; reflexivity).
  assert (K : forall ks2, (forall k, In k ks2 -> (exists C, k = CAdd C) \/ k = CSolve \/ k = CCloseProof) -> run_all fuel (ks1 ++ ks2) c <> Panic PSelfCheck).
  { intros ks2 H. apply (C43_no_assumptions fuel pick judge io ks1 ks2 J F1).
    - apply Forall_forall. intros k I. destruct (H k I) as [(C&->)|[->| ->]]; discriminate.
    - rewrite forallb_app, NA. apply forallb_forall. intros k I. destruct (H k I) as [(C&->)|[->| ->]]; reflexivity. }
  assert (A : forall k, In k (map CAdd (loaded chunks)) -> (exists C, k = CAdd C) \/ k = CSolve \/ k = CCloseProof) by (intros k I; apply in_map_iff in I; destruct I as (C&<-&_); eauto).
  unfold cli_solve in E. rewrite main_eq in E. destruct (config_run fuel (o_updates o) pick judge io) as (d&Ed). fold c in Ed. rewrite Ed in E. cbn [bind] in E.
  assert (Bc : forall x (y : N * list N), (do c <- call_only fuel CCloseProof x ; Ret (c, y)) = Panic PSelfCheck -> run fuel CCloseProof x = Panic PSelfCheck).
  { intros x y. unfold call_only. destruct (run fuel CCloseProof x) as [[z b]| |]; cbn [bind]; try discriminate. intros H. injection H as ->. reflexivity. }
  destruct (fst (update_apply _ _)) eqn:Eu.
  2:{ cbn [bind] in E. apply Bc in E. pose proof (C43_no_assumptions fuel pick judge io [CConfig (merged (o_updates o))] [CCloseProof] J ltac:(constructor; [exact Logic.I|constructor]) ltac:(constructor; [discriminate|constructor]) eq_refl) as [X _]. apply X.
      fold c. cbn [app run_all]. rewrite Ed. cbn [bind]. rewrite E. reflexivity. }
  assert (R : forall ks2, run_all fuel (ks1 ++ ks2) c = do (x, r) <- run_all fuel (proof_calls o ++ ks2) d ; Ret (x, AConfig true :: r)).
  { intros ks2. unfold ks1. cbn [app run_all]. rewrite Ed. cbn [bind]. reflexivity. }
  destruct (run_all fuel (proof_calls o ++ map CAdd (loaded chunks)) d) as [[e r]|p|] eqn:Ee; cbn [bind] in E; try discriminate.
  2:{ injection E as ->. apply (K _ A). rewrite R, Ee. reflexivity. }
  assert (R2 : forall ks2, run_all fuel (ks1 ++ map CAdd (loaded chunks) ++ ks2) c = do (x, r2) <- run_all fuel ks2 e ; Ret (x, AConfig true :: r ++ r2)).
  { intros ks2. rewrite R, app_assoc, run_all_snoc, Ee. cbn [bind]. destruct (run_all fuel ks2 e) as [[z b]| |]; reflexivity. }
  destruct (Dimacs.parse chunks) as [g|pe]; cbn [bind] in E.
  2:{ apply Bc in E. apply (K (map CAdd (loaded chunks) ++ [CCloseProof])); [intros k I; apply in_app_or in I; destruct I as [I|[<-|[]]]; auto|]. rewrite R2. cbn [run_all]. rewrite E. reflexivity. }
  destruct (run fuel CSolve e) as [[e2 a]|p|] eqn:Es; cbn [bind] in E; try discriminate.
  2:{ injection E as ->. apply (K (map CAdd (loaded chunks) ++ [CSolve])); [intros k I; apply in_app_or in I; destruct I as [I|[<-|[]]]; auto|]. rewrite R2. cbn [run_all]. rewrite Es. reflexivity. }
  destruct (report (e2, a)) as [[e3 y]|p|] eqn:Er; cbn [bind] in E; try discriminate.
  - assert (e3 = e2) as ->.
    { unfold report in Er. destruct a as [|[]| | | |]; try (injection Er as <- _; reflexivity). destruct (get_model e2) as [[m|]| |]; cbn [bind] in Er; try discriminate. injection Er as <- _. reflexivity. }
    apply Bc in E. apply (K (map CAdd (loaded chunks) ++ [CSolve; CCloseProof])); [intros k I; apply in_app_or in I; destruct I as [I|[<-|[<-|[]]]]; auto|].
    rewrite R2. cbn [run_all]. rewrite Es. cbn [bind]. rewrite E. reflexivity.
  - injection E as ->. unfold report in Er. destruct a as [|[]| | | |]; try discriminate. assert (Em : get_model e2 = Panic PSelfCheck) by (destruct (get_model e2) as [[m|]| |]; cbn [bind] in Er; try discriminate; congruence).
    unfold get_model in Em. destruct (st_sat (c_st e2)); try discriminate. destruct (model_lits e2 _) as [l|q|] eqn:El; cbn [bind] in Em; try discriminate. injection Em as ->. exact (model_panics e2 _ El).
Qed.
Print Assumptions C48_self_check.

(** Cases: an unsatisfiable input and a satisfiable one, with files of all formats and self checking; the clause with a literal and its negation has only known variables. *)
Definition C48_unsat : list (list N) := [line "p cnf 4 9" ++ line "1 2 3 0 2 -2 -3 0 1 -2 0 -1 3 4 0"; line "-1 3 -4 0 -3 4 0" ++ line "2 -3 4 0 -1 -3 -4 0 1 -3 -4 0"].
Definition C48_sat : list (list N) := [line "1 2 0 -1 2 0 3"; line " -2 0"].
Definition C48_result (f : option proof_option) (sc : bool) (chunks : list (list N)) : option (N * bool * nat) :=
  match cli_solve 300 (Options [] f sc) chunks (if sc then checked_ctx else plain_ctx) with Ret (c, (code, _)) => Some (code, file_ok (loaded chunks) (p_out (c_pf c)), length (p_out (c_pf c))) | _ => None end.
Example C48_case : introduced (loaded C48_unsat) /\ within (p_judge (c_pf checked_ctx)) /\
  C48_result (Some (ToFile FVarisat)) false C48_unsat = Some (20, true, 116%nat) /\ C48_result (Some (ToFile FVarisat)) false C48_sat = Some (10, true, 35%nat) /\
  C48_result (Some (ToFile FDrat)) false C48_unsat = Some (20, false, 104%nat) /\ C48_result (Some (ToFile FBinaryDrat)) false C48_unsat = Some (20, false, 52%nat) /\
  C48_result (Some (ToFile FVarisat)) true C48_unsat = Some (20, true, 116%nat) /\ C48_result (Some (ToLrat true)) true C48_unsat = Some (20, false, 0%nat) /\ C48_result None true C48_sat = Some (10, false, 0%nat).
Proof. split; [apply introduced_by; vm_compute; reflexivity|]. split; [exact careful_within|]. vm_compute. repeat split; reflexivity. Qed.
