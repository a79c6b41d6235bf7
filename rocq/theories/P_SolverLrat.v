(** C17, C48: the LRAT file of a solver with an LRAT processor. *)
From Coq Require Import Lia Arith PeanoNat Permutation Sorted ZArith String ZifyBool ZifyNat ZifyN.
From Verif Require Import Spec Lit LitProofs BinFormat Hash HashProofs SortedLits F32 Vsids VsidsProofs VsidsWf Luby Config P_Config Search SearchBase Propagate P_Search ClauseDb DbProofs
  Analyze AnalyzeProofs Rup AnalyzeHints P_Hints SolverCtx CtxFrame VarsProofs Solver SolverInv SolverSimplify SolverAdd SolverLoad SolverFailed FailedHints SolverSearch SolverSolve CtxEvents P_Solver P_Proof
  ProofLog ProofSim ProofDerive ProofUnits ProofLoad ProofSearch P_SelfCheck ProofEarly P_ProofFile P_ProofTranscript P_DratFile Cli P_Cli P_CliProof P_CliRound CliLrat.
From Verif Require Vli VliProofs P_Db SortedLitsProofs Checker CheckerSteps CheckerRun CheckerSafe CheckerNames CheckerUsers CheckerCount CheckerValid ProofReorder ProofAccept ProofTwin CtxRange CtxKinds
  CheckerInv P_CheckerSafe VarsBound P_Checker CliCheck P_CliCheck Lrat LratSpec LratReplay P_CliLrat P_Lrat LratEarly Cnf Dimacs P_Dimacs.
Local Open Scope N_scope.

(** * Logs without delayed steps *)
Definition prompt (c c' : ctx) : Prop := on c -> on c' /\ exists l, p_log (c_pf c') = p_log (c_pf c) ++ l /\ ~ In EvDelayed l.
Lemma prompt_refl c : prompt c c.
Proof. intros O. split; [exact O|]. exists []. rewrite app_nil_r. auto. Qed.
Lemma prompt_trans a b c : prompt a b -> prompt b c -> prompt a c.
Proof.
  intros H1 H2 O. destruct (H1 O) as (O1&l1&L1&D1). destruct (H2 O1) as (O2&l2&L2&D2). split; [exact O2|]. exists (l1 ++ l2). split; [rewrite L2, L1, app_assoc; reflexivity|]. rewrite in_app_iff. tauto.
Qed.
Lemma prompt_same c c' : c_pf c' = c_pf c -> st_error (c_st c') = st_error (c_st c) -> prompt c c'.
Proof. intros E1 E2 O. split; [eapply on_eq; eassumption|]. exists []. rewrite E1, app_nil_r. auto. Qed.
Lemma prompt_step sv s c c' : add_step sv s c = Ret c' -> prompt c c'.
Proof. intros E O. destruct (step_on _ _ _ _ O E) as (s'&p&_&->&O'&L). split; [exact O'|]. exists [EvStep s']. split; [exact L|]. intros [H|[]]; discriminate. Qed.
Lemma prompt_ev1 f c c' : ev1 f c c' -> prompt c c'.
Proof.
  intros H. destruct H as [c c' (_&E1&E2&E3&_)|c x _|c u _|sv s c c' _ _ E|cl c c' Ch E _|c n|c c1 c' g x (_&E1&E2&E3&_) E|c c1 c' g x (_&E1&E2&E3&_) E].
  - apply prompt_same; assumption.
  - apply prompt_same; reflexivity.
  - apply prompt_same; reflexivity.
  - eapply prompt_step; exact E.
  - intros O. destruct (ask_on _ _ _ O E) as [-> O']. split; [exact O'|]. exists [EvLoad cl]. split; [reflexivity|]. intros [H|[]]; discriminate.
  - intros O. split; [destruct O; constructor; assumption|]. exists []. rewrite app_nil_r. auto.
  - eapply prompt_trans; [|eapply prompt_step; exact E]. apply prompt_same; assumption.
  - eapply prompt_trans; [|eapply prompt_step; exact E]. apply prompt_same; assumption.
Qed.
Lemma prompt_ev f c c' : ev f c c' -> prompt c c'.
Proof. induction 1; [apply prompt_refl|]. eapply prompt_trans; [eapply prompt_ev1; eassumption|assumption]. Qed.
Lemma prompt_all fuel ks : forall c c' r, forallb CtxEvents.plain ks = true -> run_all fuel ks c = Ret (c', r) -> prompt c c'.
Proof.
  induction ks as [|k ks IH]; intros c c' r F E; cbn [run_all] in E; [injection E as <- _; apply prompt_refl|]. cbn [forallb] in F. apply andb_prop in F as [F1 F2].
  destruct (run fuel k c) as [[c1 a]| |] eqn:E1; cbn [bind] in E; try discriminate. destruct (run_all fuel ks c1) as [[c2 r2]| |] eqn:E2; cbn [bind] in E; try discriminate. injection E as <- _.
  eapply prompt_trans; [apply (prompt_ev true), (t_run fuel k c F1 _ E1)|apply (IH _ _ _ F2 E2)].
Qed.
Lemma fold_prompt l : ~ In EvDelayed l -> forall k, fold_left (fun r e => Checker.bind r (fun _ k => lrat_event k e)) l (Checker.ROk tt k) = CheckerRun.run k (events l).
Proof.
  induction l as [|e l IH]; intros D k; [reflexivity|]. cbn [fold_left Checker.bind].
  assert (D' : ~ In EvDelayed l) by (intros I; apply D; right; exact I).
  assert (St : forall r, (forall k', r = Checker.ROk tt k' -> fold_left (fun r e => Checker.bind r (fun _ k => lrat_event k e)) l r = CheckerRun.run k' (events l)) ->
    fold_left (fun r e => Checker.bind r (fun _ k => lrat_event k e)) l r = Checker.bind r (fun _ k => CheckerRun.run k (events l))).
  { intros [[] k'|x k'|] H; [apply H; reflexivity| |]; cbn [Checker.bind]; clear; induction l as [|e l IH]; [reflexivity|exact IH|reflexivity|exact IH]. }
  destruct e as [cl|s|]; [| |destruct D; left; reflexivity].
  - cbn [lrat_event]. rewrite St; [reflexivity|]. intros k' ->. apply IH, D'.
  - cbn [lrat_event]. rewrite St; [reflexivity|]. intros k' ->. apply IH, D'.
Qed.
Lemma events_steps l : loads_of (events l) = [] -> events l = map CheckerRun.Step (steps l).
Proof. induction l as [|[cl|s|] l IH]; intros E; [reflexivity|discriminate E|cbn; f_equal; apply IH; exact E|apply IH; exact E]. Qed.

(** * A solver with a checker *)
Lemma lrat_run_log fuel pick judge io before c answers : (forall log, judge log <> VProcessor) -> within judge -> (forall b, io b = false) ->
  forallb early_call before = true -> forallb no_assumption before = true ->
  run_all fuel (CCheck :: before ++ [CSolve; CCloseProof]) (ctx_default pick judge io) = Ret (c, answers) -> VarsBound.within_vars before ->
  exists l1 l2 f1 f2, p_log (c_pf c) = (l1 ++ l2 ++ [EvDelayed]) ++ [EvStep End] /\ ~ In EvDelayed l1 /\ ~ In EvDelayed l2 /\ loads_of (events l2) = [] /\
    clauses_of before = f1 ++ f2 /\ Forall2 ProofReorder.same_lits f1 (loads_of (events l1)) /\ (f2 = [] \/ CheckerValid.db_unsat (CheckerValid.db_after (events l1)) = true) /\
    (forall s, In s (steps l1) -> early s = true) /\ (forall cl, ~ In (AddClause cl) (steps l2)) /\ (forall v, ~ In (DeleteVar v) (steps l2)) /\
    fits (events (l1 ++ l2)) /\ CheckerValid.valid_history (events (l1 ++ l2)) /\
    (In (ASolved false) answers -> CheckerValid.db_unsat (CheckerValid.db_after (events (l1 ++ l2))) = true) /\
    exists r b, answers = r ++ [ASolved b; ANone].
Proof.
  intros NP J Io Ea Na E Wv.
  assert (Pl : forallb CtxEvents.plain before = true) by (rewrite forallb_forall in *; intros k I; specialize (Ea k I); destruct k; auto; discriminate).
  assert (Sh : forallb (CtxKinds.call_kind true false) before = true) by (rewrite forallb_forall in *; intros k I; specialize (Ea k I); specialize (Na k I); destruct k; auto; discriminate).
  assert (Ns : forall ks, forallb no_assume ks = true -> no_single fuel ks (ctx_default pick judge io)) by (intros ks; apply no_assume_single).
  assert (Nb : forallb no_assume before = true) by (rewrite forallb_forall in *; intros k I; specialize (Na k I); destruct k; auto; discriminate).
  assert (Fv : few_vars c).
  { apply (within_few _ _ _ _ _ _ _ E). destruct Wv as (n&H&L). exists n. replace (VarsBound.extras (CCheck :: before ++ [CSolve; CCloseProof])) with (VarsBound.extras before) by (cbn [VarsBound.extras VarsBound.extra]; rewrite extras_app; cbn [VarsBound.extras VarsBound.extra]; lia). split; [|exact L]. constructor; [exact Logic.I|]. apply Forall_app. split; [exact H|repeat constructor]. }
  pose proof (CtxRange.log_ranged _ _ _ _ _ _ _ E) as Rg. pose proof (few_fits c Rg Fv) as Ft.
  set (d := ctx_default pick judge io) in *. set (c0 := cw_pf d (Proof None true 64 0 [] [] judge io)).
  assert (Rc : forall ks', run_all fuel (CCheck :: ks') d = match run_all fuel ks' c0 with Ret (t, r) => Ret (t, ANone :: r) | Panic p => Panic p | NoFuel => NoFuel end).
  { intros ks'. cbn [run_all]. change (run fuel CCheck d) with (Ret (c0, ANone)). cbn [bind]. destruct (run_all fuel ks' c0) as [[t r]| |]; reflexivity. }
  rewrite Rc in E. destruct (run_all fuel (before ++ [CSolve; CCloseProof]) c0) as [[y ry]| |] eqn:Ey; try discriminate. injection E as -> <-.
  destruct (run_all_app _ _ _ _ _ _ Ey) as (m&ra&rb&Em&Eb&->).
  assert (O0 : on c0) by (constructor; [reflexivity|exact NP|exact Io|reflexivity]).
  assert (F0 : first c0) by (constructor; [exact O0|reflexivity|discriminate|reflexivity|discriminate]).
  assert (G0 : exists S, good true true S [] c0).
  { exists (fun _ => True). eapply good_st; [|apply (default_good pick judge io)]. exists (c_st c0), (c_pf c0). split; reflexivity. }
  destruct G0 as [S0 G0]. destruct (early_all fuel before true true S0 [] [] c0 m ra G0 C38_default_valid Ea F0 (first_sent _ F0 eq_refl) Em) as [Fm (f1&f2&Ef&Lf&Un&Se)]. cbn [app] in Ef.
  destruct (prompt_all _ _ _ _ _ Pl Em O0) as (Om&l1&L1&D1). cbn [c0 cw_pf c_pf p_log app] in L1.
  assert (St0 : settled c0).
  { constructor; [exact O0|split; cbn; [intros pre e post H; destruct pre; discriminate|auto]|discriminate|discriminate|reflexivity|intros core h []]. }
  destruct (settled_all _ _ _ _ _ Na St0 Em) as [Stm Unm].
  cbn [run_all] in Eb. destruct (run fuel CSolve m) as [[c1 a]| |] eqn:Es; cbn [bind] in Eb; try discriminate.
  destruct (settled_run fuel CSolve m c1 a eq_refl Stm Es) as [St1 Un1].
  assert (Q0 : exists b, a = ASolved b).
  { pose proof Es as Es'. cbn [run] in Es'. unfold solve in Es'. cbv zeta in Es'. destruct (st_invalid _); [discriminate|]. destruct (schedule_loop fuel fuel (set_invoked m true)) as [x| |] eqn:E1; cbn [bind] in Es'; try discriminate.
    pose proof (t_schedule_loop _ _ _ _ E1) as Ev. assert (Oi : on (set_invoked m true)) by (eapply on_eq; [| |exact Om]; reflexivity).
    destruct (late_ev true _ _ Ev Oi) as (Ox&_). pose proof (loop_stop _ _ _ _ E1) as St.
    unfold solve_finished in Es'. cbv zeta in Es'. rewrite flush_on in Es' by exact Ox. rewrite (on_checker _ Ox) in Es'.
    destruct (ask_checker x EvDelayed) as [x2| |] eqn:E2; try discriminate. destruct (ask_on _ _ _ Ox E2) as [E2' O2]. pose proof (ask_sat _ _ _ E2) as S2. cbn [bind] in Es'. unfold take_error in Es'. rewrite (on_err _ O2) in Es'. injection Es' as _ <-.
    rewrite S2. rewrite (on_err _ Ox) in St. destruct St as [St|St]; [|contradiction]. destruct (st_sat (c_st x)); [contradiction|eauto..]. }
  assert (Q : exists l2, p_log (c_pf c1) = p_log (c_pf m) ++ l2 ++ [EvDelayed] /\ ~ In EvDelayed l2 /\ loads_of (events l2) = []).
  { pose proof Es as Es'. cbn [run] in Es'. unfold solve in Es'. cbv zeta in Es'. destruct (st_invalid _); [discriminate|]. destruct (schedule_loop fuel fuel (set_invoked m true)) as [x| |] eqn:E1; cbn [bind] in Es'; try discriminate.
    pose proof (t_schedule_loop _ _ _ _ E1) as Ev. assert (Oi : on (set_invoked m true)) by (eapply on_eq; [| |exact Om]; reflexivity).
    destruct (late_ev true _ _ Ev Oi) as (Ox&_&_&l2&L2&_&N2). destruct (prompt_ev true _ _ Ev Oi) as (_&l2'&L2'&D2). assert (l2' = l2) by (rewrite L2 in L2'; apply app_inv_head in L2'; congruence). subst l2'.
    unfold solve_finished in Es'. cbv zeta in Es'. rewrite flush_on in Es' by exact Ox. rewrite (on_checker _ Ox) in Es'.
    destruct (ask_checker x EvDelayed) as [x2| |] eqn:E2; try discriminate. destruct (ask_on _ _ _ Ox E2) as [E2' O2]. cbn [bind] in Es'. unfold take_error in Es'. rewrite (on_err _ O2) in Es'. injection Es' as <- _.
    exists l2. rewrite E2'. cbn [cw_pf c_pf p_push p_log]. rewrite L2. change (c_pf (set_invoked m true)) with (c_pf m). rewrite <- app_assoc. split; [reflexivity|]. split; [exact D2|]. apply N2. reflexivity. }
  destruct Q as (l2&L2&D2&N2). cbn [run] in Eb. unfold close_proof in Eb. destruct (add_step true End c1) as [c2| |] eqn:Ec; cbn [bind] in Eb; try discriminate.
  destruct (step_on _ _ _ _ (se_on _ St1) Ec) as (s'&p&Ms&E2&O2&Lp). cbn [map_step] in Ms. injection Ms as <-.
  rewrite (flush_on c2 O2) in Eb. unfold take_error in Eb. cbn [cw_pf c_st] in Eb. rewrite (on_err _ O2) in Eb. cbn [bind] in Eb. injection Eb as <- <-.
  cbn [cw_pf c_pf p_log] in Ft |- *. rewrite E2 in Ft |- *. cbn [cw_pf c_pf] in Ft |- *. rewrite Lp, L2, L1 in Ft |- *.
  assert (Ft1 : fits (events (p_log (c_pf c1)))) by (rewrite L2, L1; rewrite events_app in Ft; apply (fits_app _ _ Ft)).
  assert (EV1 : events (p_log (c_pf c1)) = events (l1 ++ l2)) by (rewrite L2, L1, !events_app; cbn [events flat_map]; rewrite app_nil_r; reflexivity).
  assert (Sy : forall ks t r, forallb no_assume ks = true -> forallb (fun k => match k with CCheck => false | _ => true end) ks = true -> run_all fuel ks c0 = Ret (t, r) -> exists U, P_SelfCheck.synced U t).
  { intros ks t r Nk Ck Ek. assert (Nc : Forall not_check ks) by (apply Forall_forall; intros k I ->; rewrite forallb_forall in Ck; specialize (Ck _ I); discriminate).
    pose proof (history_sim fuel ks [CCheck] d ltac:(repeat constructor) Nc J (default_ready _ _ _) (Ns (CCheck :: ks) Nk)) as H. cbn [app] in H. rewrite Rc, Ek in H. apply H. }
  assert (Cb : forallb (fun k => match k with CCheck => false | _ => true end) before = true) by (rewrite forallb_forall in *; intros k I; specialize (Ea k I); destruct k; auto; discriminate).
  assert (E1 : run_all fuel (before ++ [CSolve]) c0 = Ret (c1, ra ++ [a])) by (rewrite run_all_snoc, Em; cbn [bind run_all]; rewrite Es; reflexivity).
  destruct (Sy (before ++ [CSolve]) c1 _ ltac:(rewrite forallb_app, Nb; reflexivity) ltac:(rewrite forallb_app, Cb; reflexivity) E1) as (U1&J1&H1). destruct (H1 (on_checker _ (se_on _ St1)) Ft1) as (_&Va&[Nr Rl]).
  assert (Ftm : fits (events (p_log (c_pf m)))) by (rewrite L1; rewrite EV1, events_app in Ft1; apply (fits_app _ _ Ft1)).
  destruct (Sy before m _ Nb Cb Em) as (Um&Jm&Hm). destruct (Hm (on_checker _ Om) Ftm) as (_&_&[_ Rm]).
  exists l1, l2, f1, f2. split; [reflexivity|]. split; [exact D1|]. split; [exact D2|]. split; [exact N2|]. split; [exact Ef|].
  rewrite L1 in Lf, Se. split; [clear - Lf; induction Lf as [|x y f g [X _] _ IH]; constructor; assumption|].
  split. { destruct Un as [->|Un]; [left; reflexivity|right]. rewrite Un in Rm. rewrite <- L1. apply (dd_unsat _ _ Rm). }
  split; [exact Se|].
  assert (K : forall s, In s (steps l2) -> In s (steps l1) \/ CtxKinds.kind false false s = true).
  { intros s I. pose proof (CtxKinds.kinds_run fuel false false CSolve m c1 a eq_refl Es) as K. destruct (K (se_free _ Stm)) as [_ K']. rewrite L2, L1, !steps_list_app in K'. apply K'. rewrite !in_app_iff. auto. }
  split; [intros cl I; destruct (K _ I) as [X|X]; [specialize (Se _ X)|]; discriminate|].
  assert (KA : forall g, ~ In (CheckerRun.Step (UserVarName g None)) (events (l1 ++ l2))).
  { intros g I. apply event_step in I. rewrite steps_list_app, in_app_iff in I.
    assert (I1 : In (UserVarName g None) (steps l1)) by (destruct I as [I|I]; [exact I|destruct (K _ I) as [X|X]; [exact X|discriminate]]).
    destruct (CtxKinds.kinds_all fuel true false before c0 m ra Sh Em eq_refl) as [_ K1]. rewrite L1 in K1. destruct (K1 _ I1) as [[]|X]. discriminate. }
  rewrite EV1 in *.
  split; [intros v I; apply (shown_kept _ (ProofSim.nr_del _ _ Nr) KA v); apply event_step; rewrite steps_list_app; apply in_or_app; right; exact I|].
  split; [exact Ft1|]. split; [exact Va|]. split.
  2:{ destruct Q0 as (b&->). exists (ANone :: ra), b. reflexivity. }
  intros I. assert (Ia : a = ASolved false \/ In (ASolved false) ra). { destruct I as [I|I]; [discriminate|]. apply in_app_iff in I as [I|[I|[I|[]]]]; auto; discriminate. }
  destruct Ia as [->|I'].
  - rewrite (Un1 _ eq_refl) in Rl. apply (dd_unsat _ _ Rl).
  - destruct (Unm _ I') as (ks1&ks2&m'&r1&r2&Ek&X1&X2&Sm&X3). rewrite Ek, forallb_app in Nb, Cb, Pl. apply andb_prop in Nb as [Nb1 _], Cb as [Cb1 _], Pl as [_ Pl2].
    destruct (Sy ks1 m' _ Nb1 Cb1 X1) as (U'&J'&H'). destruct (prompt_all _ _ _ _ _ Pl2 X2 (se_on _ Sm)) as (_&l'&Ll&_). rewrite L1 in Ll.
    rewrite Ll, <- app_assoc, events_app in Ft1 |- *. destruct (H' (on_checker _ (se_on _ Sm)) (fits_app _ _ Ft1)) as (_&_&[_ R']). rewrite X3 in R'.
    apply stays_dead. apply (dd_unsat _ _ R').
Qed.

(** * The theorems *)
(** A solver with an LRAT processor that can write its file: clauses are added (and variables made) without assumptions, [solve] is called and the solver is dropped.
    An LRAT checker that reads the clauses in this order accepts the file.  If the answer was that there is no model, the file derives the empty clause.
    A checker that rejects numbers in use ([fresh]) accepts it if there are no two contradicting unit clauses and no empty clause ([C17_fresh_number_refuted]). *)
Theorem C17_solver_lrat : forall fuel pick judge io before c answers, (forall log, judge log <> VProcessor) -> within judge -> (forall b, io b = false) ->
  forallb early_call before = true -> forallb no_assumption before = true ->
  run_all fuel (CCheck :: before ++ [CSolve; CCloseProof]) (ctx_default pick judge io) = Ret (c, answers) -> VarsBound.within_vars before ->
  room (events (p_log (c_pf c))) -> P_CliLrat.ids_used (events (p_log (c_pf c))) < 2^32 ->
  forall binary sh fresh, (forall n l, Permutation (sh n l) l) -> (fresh = true -> P_CliLrat.no_clash (clauses_of before)) ->
  exists bytes lines, lrat_written binary sh (p_log (c_pf c)) = Some bytes /\ LratSpec.lrat_parse binary bytes = Some lines /\
    LratReplay.lrat_ops fresh (LratReplay.lrat_init (clauses_of before)) (flat_map LratSpec.line_ops lines) <> None /\
    (In (ASolved false) answers -> ~ In [] (clauses_of before) -> exists id hints, In (LratSpec.OAdd id [] hints) (flat_map LratSpec.line_ops lines)).
Proof.
  intros fuel pick judge io before c answers NP J Io Ea Na E Wv Rm Id binary sh fresh SH Fr.
  destruct (lrat_run_log _ _ _ _ _ _ _ NP J Io Ea Na E Wv) as (l1&l2&f1&f2&Lg&D1&D2&N2&Ef&Sl&F2&Se&NA&ND&Ft&Va&Un&_). rewrite Lg in *. rewrite Ef in *.
  assert (EV : events ((l1 ++ l2 ++ [EvDelayed]) ++ [EvStep End]) = (events l1 ++ map CheckerRun.Step (steps l2)) ++ [CheckerRun.Step End]).
  { rewrite !events_app, (events_steps l2 N2). cbn [events flat_map app]. rewrite app_nil_r. reflexivity. }
  rewrite EV in Rm, Id. rewrite events_app, (events_steps l2 N2) in Ft, Va, Un.
  assert (U : Forall CheckerRun.event_u32 (events l1 ++ map CheckerRun.Step (steps l2))) by (eapply Forall_impl; [|exact Ft]; intros x [X _]; exact X).
  unfold room in Rm. rewrite ProofAccept.hist_app in Rm. rewrite P_CliLrat.ids_app in Id.
  destruct (LratEarly.valid_lrat sh (events l1) (steps l2) f1 f2 binary fresh SH U ltac:(lia) ltac:(lia) Va) as (k1&k2&R1&R2&_&lines&P1&P2&P3); try assumption.
  { intros s I. apply Se. apply event_step. exact I. }
  exists (LratEarly.lrat_of binary (Checker.proc_log (Checker.c_proc k2))), lines.
  split; [|split; [exact P1|split; [exact P2|intros I NE; apply P3; [apply Un; exact I|exact NE]]]].
  unfold lrat_written, lrat_check. rewrite fold_left_app, app_assoc, fold_left_app, fold_prompt by (rewrite in_app_iff; tauto).
  rewrite events_app, (events_steps l2 N2). change (lrat_checker sh) with (LratEarly.quiet_checker sh). rewrite R1. cbn [fold_left Checker.bind lrat_event]. rewrite R2. cbn [Checker.bind].
  reflexivity.
Qed.
Print Assumptions C17_solver_lrat.

(** ** The command line tool *)
Lemma lrat_config fuel us pick judge io : exists d, run fuel (CConfig (merged us)) (ctx_default pick judge io) = Ret (d, AConfig (fst (update_apply (merged us) config_default))) /\
  exists e, run fuel CCheck d = Ret (e, ANone) /\ run fuel CCheck e = Ret (e, ANone) /\ exists d', run fuel CCheck (ctx_default pick judge io) = Ret (d', ANone) /\
  run fuel (CConfig (merged us)) d' = Ret (e, AConfig (fst (update_apply (merged us) config_default))).
Proof.
  cbn [run]. pose proof (C38_update_never_panics (merged us) config_default C38_default_valid) as V. change (c_cfg (ctx_default pick judge io)) with config_default.
  destruct (update_apply (merged us) config_default) as [[] cfg] eqn:Eu; cbn [fst snd] in *.
  - destruct V as (_&V&W). rewrite V, W. cbn [andb]. eexists. split; [reflexivity|]. eexists. split; [reflexivity|]. split; [reflexivity|]. eexists. split; [reflexivity|].
    match goal with |- context [update_apply _ (c_cfg ?x)] => change (c_cfg x) with config_default end. rewrite Eu. cbn [fst snd]. rewrite V, W. reflexivity.
  - eexists. split; [reflexivity|]. eexists. split; [reflexivity|]. split; [reflexivity|]. eexists. split; [reflexivity|].
    match goal with |- context [update_apply _ (c_cfg ?x)] => change (c_cfg x) with config_default end. rewrite Eu. reflexivity.
Qed.
Lemma lrat_history fuel pick judge io o bin chunks c code text : o_proof o = Some (ToLrat bin) ->
  cli_solve fuel o chunks (ctx_default pick judge io) = Ret (c, (code, text)) -> settings_ok (o_updates o) -> forall g, Dimacs.parse chunks = inl g ->
  exists r a b, run_all fuel (CCheck :: formula_calls o chunks ++ [CSolve; CCloseProof]) (ctx_default pick judge io) = Ret (c, r ++ [a; b]) /\
    ((code = 10 /\ a = ASolved true) \/ (code = 20 /\ a = ASolved false) \/ (code = 0 /\ exists e, a = AError e)).
Proof.
  intros P1 E V g Ep. unfold cli_solve in E. rewrite main_eq in E. destruct (lrat_config fuel (o_updates o) pick judge io) as (d&Ed&e&Ee&Ee'&d'&Ed'&Ed2).
  apply config_ok in V. rewrite V in *. rewrite Ed in E. cbn [bind] in E. unfold proof_calls in E. rewrite P1 in E.
  assert (X : exists r0, run_all fuel (([CCheck] ++ (if o_self_check o then [CCheck] else [])) ++ map CAdd (loaded chunks)) d = match run_all fuel (map CAdd (loaded chunks)) e with Ret (t, r) => Ret (t, r0 ++ r) | Panic p => Panic p | NoFuel => NoFuel end).
  { destruct (o_self_check o); cbn [app run_all]; rewrite Ee; cbn [bind]; [rewrite Ee'; cbn [bind]; exists [ANone; ANone]|exists [ANone]]; destruct (run_all fuel (map CAdd (loaded chunks)) e) as [[t r]| |]; reflexivity. }
  destruct X as (r0&X). rewrite X in E. clear X.
  destruct (run_all fuel (map CAdd (loaded chunks)) e) as [[e1 r1]| |] eqn:E1; cbn [bind] in E; try discriminate. rewrite Ep in E.
  destruct (run fuel CSolve e1) as [[e2 a]| |] eqn:Es; cbn [bind] in E; try discriminate.
  destruct (report (e2, a)) as [[e3 [k t]]| |] eqn:Er; cbn [bind] in E; try discriminate. unfold call_only in E.
  destruct (run fuel CCloseProof e3) as [[e4 b4]| |] eqn:Ec; cbn [bind] in E; try discriminate. injection E as <- <- <-.
  assert (X : e3 = e2 /\ ((k = 10 /\ a = ASolved true) \/ (k = 20 /\ a = ASolved false) \/ (k = 0 /\ exists e, a = AError e))).
  { unfold report in Er. destruct (solve_answer _ _ _ _ Es) as [([]&->)|(x&->)].
    - destruct (get_model e2) as [[m|]| |]; cbn [bind] in Er; try discriminate. injection Er as <- <- _. auto.
    - injection Er as <- <- _. auto.
    - injection Er as <- <- _. eauto 6. }
  destruct X as [-> X].
  exists (ANone :: AConfig true :: r1), a, b4. split; [|exact X]. unfold formula_calls. cbn [app run_all]. rewrite Ed'. cbn [bind]. rewrite Ed2. cbn [bind]. rewrite run_all_snoc, E1. cbn [bind run_all].
  rewrite Es. cbn [bind]. rewrite Ec. reflexivity.
Qed.
(** [--proof FILE --proof-format lrat] or [clrat], with or without [--self-check], and a file that can be written: if the settings and the input are accepted, the tool reports a result.  An LRAT checker that reads the clauses
    of the input accepts the file, which derives the empty clause if the tool reported "s UNSATISFIABLE" and the input has no empty clause. *)
Theorem C48_lrat_file : forall fuel pick judge io o binary sh chunks c code text file g cls, (forall log, judge log <> VProcessor) -> within judge -> (forall b, io b = false) ->
  (forall n l, Permutation (sh n l) l) -> o_proof o = Some (ToLrat binary) -> cli_lrat fuel o chunks sh (ctx_default pick judge io) = Ret (c, (code, text), file) ->
  settings_ok (o_updates o) -> Dimacs.parse chunks = inl g -> Cnf.cnf_iter g = Some cls -> room (events (p_log (c_pf c))) -> P_CliLrat.ids_used (events (p_log (c_pf c))) < 2^32 ->
  (code = 10 \/ code = 20) /\ exists bytes lines, file = Some bytes /\ LratSpec.lrat_parse binary bytes = Some lines /\
    (forall fresh, (fresh = true -> P_CliLrat.no_clash cls) -> LratReplay.lrat_ops fresh (LratReplay.lrat_init cls) (flat_map LratSpec.line_ops lines) <> None) /\
    (code = 20 -> ~ In [] cls -> exists id hints, In (LratSpec.OAdd id [] hints) (flat_map LratSpec.line_ops lines)) /\
    (code = 10 -> forall id hints, ~ In (LratSpec.OAdd id [] hints) (flat_map LratSpec.line_ops lines)).
Proof.
  intros fuel pick judge io o binary sh chunks c code text file g cls NP J Io SH P1 E V Eg Ec Rm Id. unfold cli_lrat in E.
  destruct (cli_solve fuel o chunks (ctx_default pick judge io)) as [[c1 [k t]]| |] eqn:Es; cbn [bind] in E; try discriminate. rewrite P1 in E. injection E as -> -> -> <-.
  assert (cls = loaded chunks) by (pose proof (loaded_ok _ _ Eg); congruence). subst cls.
  destruct (lrat_history _ _ _ _ _ _ _ _ _ _ P1 Es V g Eg) as (r&a&b&Er&Ha). set (ks := formula_calls o chunks) in *.
  assert (Wv : VarsBound.within_vars ks).
  { destruct (formula_within o chunks g Eg) as (n&H&L). exists n. rewrite extras_app in L. cbn [VarsBound.extras VarsBound.extra] in L. apply Forall_app in H as [H _]. split; [exact H|]. fold ks in L. lia. }
  destruct (lrat_run_log _ _ _ _ _ _ _ NP J Io (formula_early o chunks) (formula_plain o chunks) Er Wv) as (_&_&_&_&_&_&_&_&_&_&_&_&_&_&_&_&_&r'&b'&Ea).
  assert (X : a = ASolved b'). { replace [a; b] with ([a] ++ [b]) in Ea by reflexivity. replace [ASolved b'; ANone] with ([ASolved b'] ++ [ANone]) in Ea by reflexivity.
    rewrite !app_assoc in Ea. apply app_inj_tail in Ea as [Ea _]. apply app_inj_tail in Ea as [_ Ea]. exact Ea. }
  subst a. assert (Cd : (code = 10 /\ b' = true) \/ (code = 20 /\ b' = false)) by (destruct Ha as [[-> H]|[[-> H]|[_ [e H]]]]; [injection H as ->; auto..|discriminate]).
  split; [destruct Cd as [[-> _]|[-> _]]; auto|].
  pose proof (C17_solver_lrat _ _ _ _ _ _ _ NP J Io (formula_early o chunks) (formula_plain o chunks) Er Wv Rm Id binary sh) as T. fold ks in T. assert (CO : clauses_of ks = loaded chunks) by apply formula_clauses. rewrite CO in T.
  destruct (T false SH ltac:(discriminate)) as (bytes&lines&W&Pa&Ac&De). exists bytes, lines. split; [exact W|]. split; [exact Pa|]. split.
  - intros fresh Fr. destruct (T fresh SH Fr) as (bytes'&lines'&W'&Pa'&Ac'&_). assert (bytes' = bytes) by congruence. subst bytes'. assert (lines' = lines) by congruence. subst lines'. exact Ac'.
  - split; [intros -> NE; apply De; [|exact NE]; destruct Cd as [[H _]|[_ ->]]; [discriminate|]; apply in_or_app; right; left; reflexivity|].
    intros -> id hints I. pose proof (P_Lrat.C17_lrat_checker_sound _ _ _ _ _ Ac I) as Us.
    destruct (C47_exit _ _ _ _ _ _ _ _ _ Es) as [(_&_&F&m&(f&cls&Ef&Ef2&->)&_&M)|[(H&_)|[(H&_)|(H&_)]]]; try discriminate H.
    assert (cls = loaded chunks) by (pose proof (loaded_ok _ _ Ef); congruence). subst cls.
    destruct (model_sat _ _ M) as (s&Hs). pose proof (proj1 (z_formula s _ (loaded_valid _ _ Ef)) Hs) as Hf.
    specialize (Us (fun x => s (Z.of_N (x + 1)))). unfold formula_holds in Us. rewrite (proj2 (forallb_forall _ _)) in Us; [discriminate|exact Hf].
Qed.
Print Assumptions C48_lrat_file.

(** Cases: both formats with an unsatisfiable input, and a satisfiable one *)
Definition C48_lrat_ctx : ctx := ctx_default (fun _ => 1%nat) (fun _ => VOk) (fun _ => false).
Definition C48_lrat_run (binary sc : bool) (chunks : list (list N)) : option (N * option (list N) * N * N) :=
  match cli_lrat 300 (Options [] (Some (ToLrat binary)) sc) chunks (fun _ l => l) C48_lrat_ctx with
  | Ret (c, (code, _), file) => Some (code, file, CheckerSafe.history_size (events (p_log (c_pf c))), P_CliLrat.ids_used (events (p_log (c_pf c))))
  | _ => None
  end.
Definition C48_lrat_text : list N :=
  flat_map line ["3 d 2 0"; "10 1 0 3 1 6 9 0"; "10 d 3 1 0"; "11 3 4 0 10 4 0"; "11 d 4 0"; "12 3 -4 0 10 5 0"; "12 d 5 0"; "13 -3 -4 0 10 8 0"; "13 d 8 9 0"; "14 -4 0 12 13 0"; "15 -3 0 14 6 0"; "16 0 15 14 11 0"]%string.
Example C48_lrat_case : (forall log, p_judge (c_pf C48_lrat_ctx) log <> VProcessor) /\ within (p_judge (c_pf C48_lrat_ctx)) /\ settings_ok [] /\ P_CliLrat.no_clash (loaded C48_unsat) /\
  C48_lrat_run false false C48_unsat = Some (20, Some C48_lrat_text, 48, 16) /\
  (exists bytes, C48_lrat_run true true C48_unsat = Some (20, Some bytes, 48, 16) /\ length bytes = 71%nat) /\
  C48_lrat_run false true C48_sat = Some (10, Some [], 9, 3) /\
  exists lines, LratSpec.lrat_parse false C48_lrat_text = Some lines /\ LratReplay.lrat_ops true (LratReplay.lrat_init (loaded C48_unsat)) (flat_map LratSpec.line_ops lines) <> None.
Proof.
  split; [discriminate|]. split; [intros log H; discriminate H|]. split; [intros o v H; discriminate H|]. split.
  { split; [intros I; vm_compute in I; intuition discriminate|]. intros C D l IC _ HC. exfalso.
    assert (K : forall C, In C (loaded C48_unsat) -> exists x y, In x C /\ In y C /\ x <> y).
    { intros X IX. vm_compute in IX. repeat (destruct IX as [<-|IX]; [do 2 eexists; split; [left; reflexivity|split; [right; left; reflexivity|discriminate]]|]). destruct IX. }
    destruct (K C IC) as (x&y&Hx&Hy&Ne). apply HC in Hx. apply HC in Hy. congruence. }
  split; [vm_compute; reflexivity|]. split; [eexists; vm_compute; split; reflexivity|]. split; [vm_compute; reflexivity|].
  eexists. split; [vm_compute; reflexivity|]. vm_compute. discriminate.
Qed.
