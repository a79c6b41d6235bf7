(** C49, C44: what a checker says about the proof file of a solver. *)
From Coq Require Import Lia Arith PeanoNat Permutation Sorted ZArith String ZifyBool ZifyNat ZifyN.
From Verif Require Import Spec Lit LitProofs BinFormat Hash HashProofs SortedLits F32 Vsids VsidsProofs VsidsWf Luby Config P_Config Search SearchBase Propagate P_Search ClauseDb DbProofs
  Analyze AnalyzeProofs Rup AnalyzeHints P_Hints SolverCtx CtxFrame VarsProofs Solver SolverInv SolverSimplify SolverAdd SolverLoad SolverFailed FailedHints SolverSearch SolverSolve CtxEvents P_Solver P_Proof
  ProofLog ProofSim ProofDerive ProofUnits ProofLoad ProofSearch P_SelfCheck ProofEarly P_ProofFile P_ProofTranscript P_DratFile Cli P_Cli P_CliProof.
From Verif Require Vli VliProofs P_Db SortedLitsProofs Checker CheckerSteps CheckerRun CheckerSafe CheckerNames CheckerUsers CheckerCount CheckerValid ProofReorder ProofAccept ProofTwin CtxRange CtxKinds
  CheckerInv CheckerTranscript P_CheckerTranscript P_BinFormat BinFormatProofs P_CheckerSafe VarsBound P_Checker CliCheck P_CliCheck LratSpec LratReplay P_CliLrat Cnf Dimacs P_Dimacs.
Local Open Scope N_scope.

(** * Runs without assumptions *)
Record settled (c : ctx) : Prop := {
  se_on : on c;
  se_judged : judged c;
  se_calm : st_sat (c_st c) <> UnsatAssum;
  se_model : st_sat (c_st c) = Sat -> exists m, In (Model m) (steps (p_log (c_pf c)));
  se_free : CtxKinds.free c;
  se_log : forall core h, ~ In (FailedAssumptions core h) (steps (p_log (c_pf c)))
}.
Lemma settled_run fuel k c c' a : no_assumption k = true -> settled c -> run fuel k c = Ret (c', a) ->
  settled c' /\ (forall b, a = ASolved b -> st_sat (c_st c') = if b then Sat else Unsat).
Proof.
  intros Na [O J C M F L] E. destruct (judged_run _ _ _ _ _ E J) as [J' _].
  destruct (CtxKinds.kinds_run fuel true true k c c' a Na E F) as [F' K].
  assert (L' : forall core h, ~ In (FailedAssumptions core h) (steps (p_log (c_pf c')))).
  { intros core h I. destruct (K _ I) as [I1|I1]; [exact (L _ _ I1)|discriminate]. }
  assert (Lt : late c c') by (eapply late_run; [..|exact E]; destruct k; try discriminate; intros; discriminate).
  destruct (Lt O) as (O'&_&_&l&Ll&_).
  assert (G : forall s, In s (steps (p_log (c_pf c))) -> In s (steps (p_log (c_pf c')))) by (intros s I; rewrite Ll, steps_list_app; apply in_or_app; auto).
  assert (D : CtxEvents.plain k = true \/ k = CSolve) by (destruct k; auto; discriminate). destruct D as [D| ->].
  - split; [constructor; try assumption|].
    + destruct (calm_run _ _ _ _ _ D E) as [X|[X|X]]; congruence.
    + intros St. destruct (calm_run _ _ _ _ _ D E) as [X|[X|X]]; try congruence. rewrite St in X. symmetry in X. destruct (M X) as (m&I). exists m. apply G. exact I.
    + intros b ->. exfalso. destruct k; try discriminate; cbn [run] in E; repeat match type of E with
        | bind ?m _ = _ => destruct m as [x| |]; cbn [bind] in E; try discriminate; try destruct x
        | (let '(_, _) := ?x in _) = _ => destruct x
        | (if ?b then _ else _) = _ => destruct b end; try discriminate; try (injection E; discriminate).
  - clear K Lt Ll. cbn [run] in E. unfold solve in E. cbv zeta in E. destruct (st_invalid _); [discriminate|]. destruct (schedule_loop fuel fuel (set_invoked c true)) as [c1| |] eqn:E1; cbn [bind] in E; try discriminate.
    pose proof (t_schedule_loop _ _ _ _ E1) as Ev. assert (O0 : on (set_invoked c true)) by (eapply on_eq; [| |exact O]; reflexivity).
    destruct (late_ev true _ _ Ev O0) as (O1&_&_&l1&Ll1&_).
    unfold solve_finished in E. cbv zeta in E. rewrite flush_on in E by exact O1. rewrite (on_checker _ O1) in E.
    destruct (ask_checker c1 EvDelayed) as [c2| |] eqn:E2; try discriminate. destruct (ask_on _ _ _ O1 E2) as [E2' O2].
    pose proof (ask_sat _ _ _ E2) as S2. cbn [bind] in E. unfold take_error in E. rewrite (on_err _ O2) in E. injection E as <- <-.
    assert (LG : p_log (c_pf c2) = p_log (c_pf c1) ++ [EvDelayed]) by (rewrite E2'; reflexivity).
    assert (G1 : forall s, In s (steps (p_log (c_pf c1))) <-> In s (steps (p_log (c_pf c2)))).
    { intros s. rewrite LG, steps_list_app, in_app_iff. cbn. tauto. }
    destruct (schedule_loop_said _ _ _ _ E1) as (H1&H2&_).
    assert (X : st_sat (c_st c1) <> UnsatAssum /\ (st_sat (c_st c1) = Sat -> exists m, In (Model m) (steps (p_log (c_pf c1))))).
    { destruct (st_sat (c_st c)) eqn:St.
      2-4: rewrite H1 by (cbn; congruence); cbn; rewrite St; split; [congruence|auto].
      specialize (H2 St). unfold justified in H2. destruct (st_sat (c_st c1)) eqn:S1; try (split; [discriminate|discriminate]).
      - split; [discriminate|]. intros _. destruct (H2 J) as (_&l0&(Q&_)&W). destruct (W (on_checker _ O1) (on_err _ O1)) as (e&I&(m&->)).
        exists m. rewrite Q, steps_list_app, in_app_iff. right. unfold steps. apply in_flat_map. eexists. split; [exact I|left; reflexivity].
      - exfalso. destruct (H2 J) as (_&l0&(Q&_)&W). destruct (W (on_checker _ O1) (on_err _ O1)) as (e&I&(core&h&->)).
        apply (L' core h). apply G1. rewrite Q, steps_list_app, in_app_iff. right. unfold steps. apply in_flat_map. eexists. split; [exact I|left; reflexivity]. }
    destruct X as [X1 X2]. split; [constructor; try assumption; rewrite S2; [exact X1|]|].
    + intros St. destruct (X2 St) as (m&I). exists m. apply G1. exact I.
    + intros b. rewrite S2. destruct (st_sat (c_st c1)) eqn:S1; intros H; try discriminate; try (injection H as <-; reflexivity). congruence.
Qed.
Lemma settled_all fuel ks : forall c c' r, forallb no_assumption ks = true -> settled c -> run_all fuel ks c = Ret (c', r) ->
  settled c' /\ (forall b, In (ASolved b) r -> exists ks1 ks2 m r1 r2, ks = ks1 ++ ks2 /\ run_all fuel ks1 c = Ret (m, r1) /\ run_all fuel ks2 m = Ret (c', r2) /\ settled m /\ st_sat (c_st m) = if b then Sat else Unsat).
Proof.
  induction ks as [|k ks IH]; intros c c' r F St E; cbn [run_all] in E; [injection E as <- <-; split; [exact St|intros b []]|]. cbn [forallb] in F. apply andb_prop in F as [F1 F2].
  destruct (run fuel k c) as [[c1 a]| |] eqn:E1; cbn [bind] in E; try discriminate. destruct (run_all fuel ks c1) as [[c2 r2]| |] eqn:E2; cbn [bind] in E; try discriminate. injection E as <- <-.
  destruct (settled_run _ _ _ _ _ F1 St E1) as [St1 U1]. destruct (IH _ _ _ F2 St1 E2) as [St2 U2]. split; [exact St2|]. intros b [->|I].
  - exists [k], ks, c1, [ASolved b], r2. split; [reflexivity|]. split; [cbn [run_all]; rewrite E1; reflexivity|]. split; [exact E2|]. split; [exact St1|]. apply U1. reflexivity.
  - destruct (U2 b I) as (ks1&ks2&m&r1&r3&->&X1&X2&X3&X4). exists (k :: ks1), ks2, m, (a :: r1), r3. split; [reflexivity|]. split; [cbn [run_all]; rewrite E1; cbn [bind]; rewrite X1; reflexivity|]. auto.
Qed.

(** * The steps of the file *)
Lemma announced_nil b os : announces b [] os -> Forall (fun s => exists n, s = ChangeHashBits n) os.
Proof. intros A. remember [] as ss eqn:E. induction A as [b|b s ss os NB A IH|b b' ss os B N A IH]; [constructor|discriminate|constructor; eauto]. Qed.
Lemma announced_end b ss0 os : announces b ss0 os -> forall ss, ss0 = ss ++ [End] -> ~ In End ss ->
  exists a z, os = (a ++ [End]) ++ z /\ ~ In End a /\ Forall (fun s => exists n, s = ChangeHashBits n) z.
Proof.
  induction 1 as [b|b s ss1 os NB A IH|b b' ss1 os B N A IH]; intros ss E NE; [destruct ss; discriminate| |].
  - destruct ss as [|s' ss]; cbn [app] in E; injection E as -> E.
    + subst ss1. exists [], os. split; [reflexivity|]. split; [intros []|]. apply (announced_nil _ _ A).
    + destruct (IH ss E) as (a&z&->&Na&Z); [intros X; apply NE; right; exact X|]. exists (high b s' :: a), z. split; [reflexivity|]. split; [|exact Z]. intros [X|X]; [apply NE; left; apply high_end in X; exact X|contradiction].
  - destruct (IH ss E NE) as (a&z&->&Na&Z). exists (ChangeHashBits b' :: a), z. split; [reflexivity|]. split; [|exact Z]. intros [X|X]; [discriminate|contradiction].
Qed.
Lemma db_bits es z : Forall (fun s => exists n, s = ChangeHashBits n) z -> CheckerValid.db_after (es ++ map CheckerRun.Step z) = CheckerValid.db_after es.
Proof. intros Z. unfold CheckerValid.db_after. rewrite fold_left_app. induction Z as [|s z (n&->) _ IH]; [reflexivity|exact IH]. Qed.

(** Only hidden variables are deleted. *)
Lemma modes_shown es : (forall g, ~ In (CheckerRun.Step (UserVarName g None)) es) -> forall g, CheckerUsers.var_modes es g <> Checker.Hide.
Proof.
  induction es as [|e es IH] using rev_ind; intros H g; [discriminate|]. assert (H' : forall g, ~ In (CheckerRun.Step (UserVarName g None)) es) by (intros g' I; apply (H g'), in_or_app; left; exact I).
  specialize (IH H' g). unfold CheckerUsers.var_modes in *. rewrite fold_left_app. cbn [fold_left].
  destruct e as [cl|s]; [exact IH|]. destruct s; cbn [CheckerUsers.mode_after]; try exact IH.
  - destruct user as [u|]; [exact IH|]. exfalso. eapply H. apply in_or_app. right. left. reflexivity.
  - destruct (_ =? _); [discriminate|exact IH].
  - destruct (_ =? _); [destruct sample; discriminate|exact IH].
Qed.
Lemma shown_kept es : ProofSim.deletes_hidden es -> (forall g, ~ In (CheckerRun.Step (UserVarName g None)) es) -> forall g, ~ In (CheckerRun.Step (DeleteVar g)) es.
Proof.
  intros D H g I. apply in_split in I as (l&r&E). apply (modes_shown l) with (g := g); [|apply (D _ _ _ E)]. intros g' I. apply (H g'). rewrite E. apply in_or_app. left. exact I.
Qed.
Lemma event_step l s : In (CheckerRun.Step s) (events l) <-> In s (steps l).
Proof. unfold events, steps. rewrite !in_flat_map. split; intros (e&I&X); exists e; (split; [exact I|]); destruct e as [cl|s'|]; cbn in X |- *; intuition congruence. Qed.
Lemma announced_delete b ss os : announces b ss os -> forall v, In (DeleteVar v) os -> In (DeleteVar v) ss.
Proof.
  induction 1 as [b|b s ss os NB A IH|b b' ss os B N A IH]; intros v I; [destruct I| |]; destruct I as [E|I]; [left|right; auto|discriminate|auto].
  destruct s; try discriminate E; exact E.
Qed.

(** A solver that writes a native proof file from the start, without assumptions and clauses after the first call of [solve] *)
Lemma round_steps fuel pick judge io before later c answers : (forall b, io b = false) ->
  forallb early_call before = true -> forallb no_assumption before = true -> starts_solving later -> forallb no_input later = true -> introduced (clauses_of before) ->
  run_all fuel (CWriteProof FVarisat :: before ++ later ++ [CCloseProof]) (ctx_default pick judge io) = Ret (c, answers) ->
  VarsBound.within_vars (before ++ later) ->
  let es ss := map CheckerRun.Load (clauses_of before) ++ map CheckerRun.Step ss in
  exists a z, p_out (c_pf c) = flat_map write_step ((a ++ [End]) ++ z) /\ ~ In End a /\ (forall s, In s a -> CtxKinds.kind false true s = true) /\ Forall in_range ((a ++ [End]) ++ z) /\
    CheckerValid.valid_history (es (a ++ [End])) /\ CheckerTranscript.told_history (es (a ++ [End])) /\
    (In (ASolved false) answers -> CheckerValid.db_unsat (CheckerValid.db_after (es (a ++ [End]))) = true) /\
    (In (ASolved true) answers -> exists m, In (Model m) a) /\
    (forallb (CtxKinds.call_kind true false) before = true -> forallb (CtxKinds.call_kind false false) later = true -> forall v, ~ In (DeleteVar v) a).
Proof.
  intros Io Ea Na Sb Nl In0 E Wv es.
  assert (EA : forall k, early_call k = true -> lasting k = true) by (intros []; auto).
  assert (Lb : forallb lasting later = true) by (rewrite forallb_forall in *; intros k I; specialize (Nl k I); destruct k; auto).
  assert (La : forallb lasting (before ++ later) = true) by (rewrite forallb_app, Lb, Bool.andb_true_r; rewrite forallb_forall in *; auto).
  assert (Nab : forallb no_assumption (before ++ later) = true).
  { rewrite forallb_app, Na. cbn [andb]. rewrite forallb_forall in *. intros k I. specialize (Nl k I). destruct k; auto; discriminate. }
  assert (Ns : no_single fuel (CWriteProof FVarisat :: before ++ later) (ctx_default pick judge io)).
  { apply no_assume_single. cbn [forallb no_assume andb]. rewrite forallb_forall in *. intros k I. specialize (Nab k I). destruct k; auto. }
  replace (CWriteProof FVarisat :: before ++ later ++ [CCloseProof]) with ((CWriteProof FVarisat :: before ++ later) ++ [CCloseProof]) in E by (cbn [app]; rewrite <- app_assoc; reflexivity).
  assert (Fv : few_vars c).
  { apply (within_few _ _ _ _ _ _ _ E). destruct Wv as (n&H&L). exists n. rewrite <- app_comm_cons, !extras_cons, extras_snoc. split; [|exact L]. constructor; [exact Logic.I|]. apply Forall_app. split; [exact H|repeat constructor]. }
  destruct (run_all_app _ _ _ _ _ _ E) as (c1&r1&r2&E1&E2&An0). cbn [run_all run] in E2. unfold close_proof in E2.
  destruct (add_step true End c1) as [c2| |] eqn:Es; cbn [bind] in E2; try discriminate.
  destruct (file_run fuel FVarisat pick judge io (before ++ later) c1 r1 c2 Io La E1 Es) as (t1&t2&Et&Est&Out&Cv&Nst&Q). specialize (Nst Ns). set (rt := ANone :: r1) in Et.
  assert (PO : p_out (c_pf c) = p_out (c_pf c2) /\ c_v c = c_v c2 /\ r2 = [ANone]).
  { rewrite (ProofTwin.flush_quiet c2 Q) in E2. unfold take_error in E2. cbn [cw_pf c_st] in E2. rewrite (ProofTwin.q_err _ Q) in E2. cbn [bind] in E2. injection E2 as <- <-. repeat split; reflexivity. }
  destruct PO as (PO&CV&R2'). destruct (checked_run fuel FVarisat pick io before later t1 rt t2 Io Ea Sb Lb Nst Et Est) as (O2&Fo2&L2&R2&V).
  destruct (twin_file fuel pick io (before ++ later) t1 rt t2 Io La Et Est) as (os&P&An).
  pose proof (plain_log fuel FVarisat pick io true before later t1 rt Io Ea Na Nl Et) as PL.
  assert (Fv2 : few_vars t2) by (unfold CtxRange.few_vars in *; rewrite Cv, <- CV; exact Fv).
  destruct (V Fv2 os An) as [Va Ud]. rewrite PO, <- Out, P. set (d := ctx_default pick (fun _ => VOk) io) in *.
  set (c0 := cw_pf d (Proof (Some FVarisat) true 64 0 [] [] (fun _ => VOk) io)).
  assert (Rc : forall ks', run_all fuel (CCheck :: CWriteProof FVarisat :: ks') d = match run_all fuel ks' c0 with Ret (t, r) => Ret (t, ANone :: ANone :: r) | Panic p => Panic p | NoFuel => NoFuel end).
  { intros ks'. cbn [run_all]. change (run fuel CCheck d) with (Ret (cw_pf d (Proof None true 64 0 [] [] (fun _ => VOk) io), ANone)). cbn [bind].
    change (run fuel (CWriteProof FVarisat) _) with (Ret (c0, ANone)). cbn [bind]. destruct (run_all fuel ks' c0) as [[t r]| |]; reflexivity. }
  assert (St0 : settled c0).
  { constructor; [constructor; [reflexivity|discriminate|exact Io|reflexivity]|split; cbn; [intros pre e post H; destruct pre; discriminate|auto]|discriminate|discriminate|reflexivity|intros core h []]. }
  pose proof Et as Et0. rewrite Rc in Et0. destruct (run_all fuel (before ++ later) c0) as [[y ry]| |] eqn:Ey; try discriminate. injection Et0 as Ey1 Er. subst y r1.
  destruct (settled_all _ _ _ _ _ Nab St0 Ey) as [St1 Un].
  assert (IA : forall b, In (ASolved b) answers -> In (ASolved b) ry).
  { intros b I. rewrite An0, R2' in I. apply in_app_iff in I as [[X|X]|[X|[]]]; [discriminate X|exact X|discriminate X]. }
  assert (LS : steps (p_log (c_pf t2)) = steps (p_log (c_pf t1)) ++ [End]) by (rewrite L2, steps_list_app; reflexivity).
  assert (NE1 : ~ In End (steps (p_log (c_pf t1)))) by (intros X; specialize (PL _ X); discriminate).
  destruct (announced_end _ _ _ An _ LS NE1) as (a&z&->&NE&Z). exists a, z. split; [reflexivity|]. split; [exact NE|].
  assert (Pl : forall s, In s (a ++ [End]) -> plain_step s).
  { intros s0 I0. apply (announced_plain 64 _ _ An); [|apply in_or_app; left; exact I0]. intros s I. rewrite LS, in_app_iff in I. destruct I as [I|[<-|[]]]; [left; apply PL; exact I|right; reflexivity]. }
  split; [intros s I; destruct (Pl s (in_or_app _ _ _ (or_introl I))) as [K| ->]; [exact K|contradiction]|].
  split; [exact (announced_range t2 _ Fv2 _ _ An (steps_ranged _ R2))|]. 
  assert (Va' : CheckerValid.valid_history (es (a ++ [End]))).
  { intros x e y Ee. apply (Va x e (y ++ map CheckerRun.Step z)). unfold es in Ee. rewrite map_app, app_assoc, Ee, <- app_assoc. reflexivity. }
  split; [exact Va'|]. split; [apply told_plain; assumption|].
  rewrite map_app, app_assoc, (db_bits _ z Z) in Ud. split.
  - intros I. unfold es. rewrite Ud. destruct (Un _ (IA _ I)) as (ks1&ks2&m&ra&rb&Ek&X1&X2&Sm&X3).
    destruct (twin_synced fuel FVarisat pick io ks1 ks2 m (ANone :: ANone :: ra)) as [U [J Sy]]; [rewrite <- Ek; exact La|rewrite <- Ek; exact Nst|change (ctx_default pick (fun _ => VOk) io) with d; rewrite Rc, X1; reflexivity|].
    assert (L1 : forallb lasting ks1 = true /\ forallb lasting ks2 = true) by (rewrite Ek, forallb_app in La; apply andb_prop in La; exact La).
    pose proof (se_on _ Sm) as Om. destruct (late_all _ _ _ _ _ (proj2 L1) X2 Om) as (_&_&_&l&Ll&_).
    pose proof (few_fits _ R2 Fv2) as Ft. rewrite L2, Ll, <- app_assoc, events_app in Ft |- *. destruct (Sy (on_checker _ Om) (fits_app _ _ Ft)) as (_&_&[_ Rm]). rewrite X3 in Rm.
    apply stays_dead. apply (dd_unsat _ _ Rm).
  - split; [|intros Hb Hl v I; assert (Id : In (DeleteVar v) ((a ++ [End]) ++ z)) by (apply in_or_app; left; apply in_or_app; left; exact I)]. { intros I. destruct (Un _ (IA _ I)) as (ks1&ks2&m&ra&rb&Ek&X1&X2&Sm&X3). destruct (se_model _ Sm X3) as (md&Im).
    assert (L1 : forallb lasting ks1 = true /\ forallb lasting ks2 = true) by (rewrite Ek, forallb_app in La; apply andb_prop in La; exact La).
    destruct (late_all _ _ _ _ _ (proj2 L1) X2 (se_on _ Sm)) as (_&_&_&l&Ll&_).
    destruct (ProofAccept.announced_in _ _ _ An (Model md)) as (b'&Ib); [rewrite LS, Ll, steps_list_app; apply in_or_app; left; apply in_or_app; left; exact Im|].
    exists md. apply in_app_or in Ib as [Ib|Ib]; [apply in_app_or in Ib as [Ib|[Ib|[]]]; [exact Ib|discriminate]|].
    rewrite Forall_forall in Z. destruct (Z _ Ib) as (n&X). discriminate. }
    pose proof (plain_log fuel FVarisat pick io false before later t1 rt Io Ea Hb Hl Et) as PS.
    destruct (twin_synced fuel FVarisat pick io (before ++ later) [] t1 rt) as [U [J Sy]]; [rewrite app_nil_r; exact La|rewrite app_nil_r; exact Nst|exact Et|].
    pose proof (few_fits _ R2 Fv2) as Ft. rewrite L2, events_app in Ft. destruct (Sy (on_checker _ (se_on _ St1)) (fits_app _ _ Ft)) as (_&_&[Nr _]).
    apply (shown_kept _ (ProofSim.nr_del _ _ Nr)) with (g := v).
    + intros g X. apply event_step in X. specialize (PS _ X). discriminate.
    + apply event_step. apply (announced_delete _ _ _ An v) in Id. rewrite LS in Id. apply in_app_or in Id as [Id|[Id|[]]]; [exact Id|discriminate].
Qed.

(** * The checker of such a file *)
Lemma round_verdict procs pf tf sh f a z file : (forall n l, Permutation (sh n l) l) -> (forall n, pf n = false) -> (forall n, tf n = false) ->
  Forall CheckerSteps.lits_u32 f -> ~ In End a -> Forall in_range ((a ++ [End]) ++ z) -> let es := map CheckerRun.Load f ++ map CheckerRun.Step (a ++ [End]) in
  CheckerValid.valid_history es -> CheckerTranscript.told_history es ->
  VliProofs.reader_ok file -> VliProofs.flat file = flat_map write_step ((a ++ [End]) ++ z) -> CheckerSafe.history_size (map CheckerRun.Load f) + N.of_nat (length (VliProofs.flat file)) < 2^32 ->
  exists k k', Checker.add_formula (Checker.checker_new procs true pf tf sh) f = Checker.ROk tt k /\ Checker.check_proof k file = Some (Checker.ROk tt k') /\
    P_CliCheck.verdict es k' /\ Checker.s_unsat (Checker.c_state k') = CheckerValid.db_unsat (CheckerValid.db_after es).
Proof.
  intros SH PF TF U NE R es V T RO FL SZ. assert (OK : Forall BinFormatProofs.step_ok ((a ++ [End]) ++ z)) by (apply ProofAccept.range_all; [exact R|rewrite <- FL; lia]).
  destruct (P_BinFormat.C04_roundtrip _ [] file OK RO ltac:(constructor) ltac:(rewrite app_nil_r; exact FL)) as (r'&D&_). apply ProofAccept.many_decodes in D.
  pose proof (P_CheckerSafe.decodes_left _ _ _ D) as DL. destruct (ProofAccept.decodes_split _ _ _ _ D) as (r1&D1&_).
  assert (SZ' : CheckerSafe.history_size es < 2^32).
  { unfold es. rewrite map_app, ProofAccept.hist_app in DL. rewrite ProofAccept.hist_app.
    assert (BL : P_CheckerSafe.bytes_left file = N.of_nat (length (VliProofs.flat file))) by (unfold P_CheckerSafe.bytes_left, VliProofs.flat; rewrite app_length; reflexivity). lia. }
  destruct (P_CheckerTranscript.C42_valid_file_transcript procs true pf tf sh f a file r1 SH PF TF U NE D1 SZ' V T) as (k&k'&A&B). exists k, k'. split; [exact A|]. split; [exact B|].
  pose proof A as A'. rewrite CheckerRun.add_formula_run in A'. pose proof (CheckerRun.new_inv procs true pf tf sh SH) as I0.
  destruct (P_CliCheck.loads_ended _ _ _ I0 U A') as [I1 E1].
  destruct (P_CliCheck.loop_contents _ _ _ _ I1 E1 B) as (ss&k1&C&R1&Dl). assert (ss = a) by (apply (P_CliCheck.contents_unique ss file); [exact C|exists r1; auto]). subst ss.
  assert (Us : Forall CheckerRun.event_u32 es).
  { unfold es. apply Forall_app. split; [apply Forall_map; exact U|]. apply Forall_map. clear - D1. revert D1. generalize (a ++ [End]). intros l C. induction C; constructor; auto. eapply CheckerRun.parse_step_u32. eassumption. }
  assert (Ra : CheckerRun.run (Checker.checker_new procs true pf tf sh) es = Checker.ROk tt k1) by (unfold es; rewrite CheckerRun.run_app, A'; exact R1).
  pose proof (P_CliCheck.run_verdict _ _ _ _ _ _ _ SH Us Ra Dl) as Vd. split; [exact Vd|].
  destruct (CheckerTranscript.rt_run es [] _ (CheckerTranscript.rt_new procs true pf tf sh SH PF TF) Us SZ' V T) as (k2&E2&Rt). rewrite Ra in E2. injection E2 as <-. cbn [app] in Rt.
  pose proof (CheckerValid.sy_unsat _ _ _ (CheckerValid.ri_sync _ _ (CheckerTranscript.rt_ri _ _ Rt))) as Y. change (Checker.s_unsat (Checker.c_state (CheckerTranscript.er k1))) with (Checker.s_unsat (Checker.c_state k1)) in Y.
  rewrite <- Y. unfold Checker.self_check_delayed_steps, Checker.process_unit_conflicts in Dl. destruct (Checker.unit_conflict _) as [[x y]|]; [|inversion Dl; reflexivity].
  destruct (CheckerSteps.process_step_spec _ _ _ _ Dl) as [Q _]. rewrite Q. reflexivity.
Qed.

Lemma given_plain f a : (forall s, In s a -> CtxKinds.kind false true s = true) -> CheckerRun.given (map CheckerRun.Load f ++ map CheckerRun.Step (a ++ [End])) = f.
Proof.
  intros K. rewrite P_CliCheck.given_loads, P_CliCheck.given_steps; [apply app_nil_r|]. apply P_CliCheck.no_add_end. intros cl I. specialize (K _ I). discriminate.
Qed.

Lemma formula_shown o chunks : forallb (CtxKinds.call_kind true false) (formula_calls o chunks) = true.
Proof. unfold formula_calls. cbn [forallb]. induction (loaded chunks) as [|C l IH]; [reflexivity|exact IH]. Qed.

(** * The theorems *)
(** As in [C44_transcript]: the transcript of the checker has the answers of the solver.  (An empty clause among those added is not reported, C49.) *)
Theorem C44_transcript_verdict : forall fuel pick judge io before later c answers, (forall b, io b = false) ->
  forallb early_call before = true -> forallb no_assumption before = true -> starts_solving later -> forallb no_input later = true -> introduced (clauses_of before) ->
  run_all fuel (CWriteProof FVarisat :: before ++ later ++ [CCloseProof]) (ctx_default pick judge io) = Ret (c, answers) ->
  VarsBound.within_vars (before ++ later) ->
  CheckerSafe.history_size (map CheckerRun.Load (clauses_of before)) + N.of_nat (length (p_out (c_pf c))) < 2^32 ->
  forall procs pf tf sh file, (forall n l, Permutation (sh n l) l) -> (forall n, pf n = false) -> (forall n, tf n = false) ->
  VliProofs.reader_ok file -> VliProofs.flat file = p_out (c_pf c) ->
  exists k k', Checker.add_formula (Checker.checker_new procs true pf tf sh) (clauses_of before) = Checker.ROk tt k /\ Checker.check_proof k file = Some (Checker.ROk tt k') /\
    (In (ASolved false) answers -> ~ In [] (clauses_of before) -> In Checker.TUnsat (Checker.trans_log (Checker.c_proc k'))) /\
    (In (ASolved true) answers -> exists m, In (Checker.TModel m) (Checker.trans_log (Checker.c_proc k'))) /\
    (In Checker.TUnsat (Checker.trans_log (Checker.c_proc k')) -> unsat (clauses_of before)).
Proof.
  intros fuel pick judge io before later c answers Io Ea Na Sb Nl In0 E Wv Sz procs pf tf sh file SH PF TF RO FL.
  destruct (round_steps fuel pick judge io before later c answers Io Ea Na Sb Nl In0 E Wv) as (a&z&P&NE&K&R&V&T&Hu&Hm&_).
  rewrite P in FL. assert (Sz' : CheckerSafe.history_size (map CheckerRun.Load (clauses_of before)) + N.of_nat (length (VliProofs.flat file)) < 2^32) by (rewrite FL, <- P; exact Sz).
  destruct (round_verdict procs pf tf sh _ a z file SH PF TF (within_u32 _ _ Wv) NE R V T RO FL Sz') as (k&k'&A&B&[V1 V2 V3 V4]&U). exists k, k'. split; [exact A|]. split; [exact B|].
  rewrite (given_plain _ _ K) in *. split; [|split; [|exact V1]].
  - intros I N. rewrite (Hu I) in U. destruct V3 as [X|[X|X]]; [exact X|contradiction|congruence].
  - intros I. apply V4. destruct (Hm I) as (m&Im). exists m. apply in_or_app. right. apply in_map, in_or_app. left. exact Im.
Qed.
Print Assumptions C44_transcript_verdict.

(** [varisat --proof FILE], then [varisat --check] with the same input and the file: the proof is verified, with the line "t SAT" if the
    first run reported "s SATISFIABLE" and the line "t UNSAT" if it reported "s UNSATISFIABLE". *)
Theorem C49_round : forall fuel pick judge io o chunks c code text g cls, (forall b, io b = false) -> o_proof o = Some (ToFile FVarisat) -> o_self_check o = false ->
  cli_solve fuel o chunks (ctx_default pick judge io) = Ret (c, (code, text)) -> code = 10 \/ code = 20 ->
  Dimacs.parse chunks = inl g -> Cnf.cnf_iter g = Some cls -> introduced cls -> CheckerSafe.history_size (map CheckerRun.Load cls) + N.of_nat (length (p_out (c_pf c))) < 2^32 ->
  forall k pf sh chunks' file, (forall n l, Permutation (sh n l) l) -> (forall n, pf n = false) -> concat chunks' = concat chunks ->
  VliProofs.reader_ok file -> VliProofs.flat file = p_out (c_pf c) ->
  exists out lrat clrat, CliCheck.check_main k pf sh chunks' file = Some (CliCheck.Exit 0 out lrat clrat) /\ P_CliCheck.says out "s VERIFIED" /\
    (code = 10 -> P_CliCheck.says out "t SAT" /\ ~ P_CliCheck.says out "t UNSAT") /\ (code = 20 -> ~ In [] cls -> P_CliCheck.says out "t UNSAT").
Proof.
  intros fuel pick judge io o chunks c code text g cls Io P1 P2 E Cd Eg Ec In0 Sz ko pf sh chunks' file SH PF CC RO FL.
  destruct (C48_answer _ _ _ _ _ _ _ _ _ _ Io P1 P2 E) as (A10&A20&_).
  assert (V : settings_ok (o_updates o)) by (destruct Cd as [->| ->]; [apply A10|apply A20]; reflexivity).
  assert (cls = loaded chunks) by (pose proof (loaded_ok _ _ Eg); congruence). subst cls.
  assert (Eg' : Dimacs.parse chunks' = inl g) by (rewrite (P_Dimacs.C05_chunking chunks' chunks CC); exact Eg).
  assert (EL : loaded chunks' = loaded chunks) by (pose proof (loaded_ok _ _ Eg'); congruence).
  destruct (formula_solved _ _ _ _ _ _ _ _ _ _ Io P1 P2 E V g Eg) as (r&Er&Ha). rewrite <- (formula_clauses o chunks) in In0, Sz.
  assert (Sb : starts_solving [CSolve]) by (right; eexists; reflexivity).
  destruct (C44_transcript_verdict _ _ _ _ _ _ _ _ Io (formula_early o chunks) (formula_plain o chunks) Sb eq_refl In0 Er (formula_within o chunks g Eg) Sz
    (CliCheck.k_lrat ko || CliCheck.k_clrat ko) pf (fun _ => false) sh file SH PF (fun _ => eq_refl) RO FL) as (k&k'&A&B&VU&VM&VS). rewrite formula_clauses in *.
  eexists _, _, _. split.
  { rewrite P_CliCheck.check_eq. unfold P_CliCheck.the_checker. rewrite EL, A, Eg', B. cbn [CliCheck.exit_with]. reflexivity. }
  destruct (P_CliCheck.vd_lines "s VERIFIED" eq_refl ltac:(discriminate)) as [L1 L2]. destruct (P_CliCheck.text_lines k' _ L1 L2) as (ls&L&_&TU&TS).
  split; [unfold P_CliCheck.says; rewrite L; apply in_or_app; right; left; reflexivity|]. split.
  - intros ->. destruct Ha as [[_ Ha]|[X _]]; [|discriminate]. split; [apply TS; exact (VM Ha)|]. rewrite TU. intros X. specialize (VS X).
    destruct (proj1 A10 eq_refl) as (_&F&HF&(x&Hx)). rewrite (P_CliCheck.loaded_input _ _ _ Eg HF) in Hx. pose proof (proj1 (z_formula x _ (loaded_valid _ _ Eg)) Hx) as Hb.
    specialize (VS (fun v => x (Z.of_N (v + 1)))). assert (Y : formula_holds (fun v => x (Z.of_N (v + 1))) (loaded chunks) = true) by (apply forallb_forall; exact Hb). congruence.
  - intros -> N. destruct Ha as [[X _]|[_ Ha]]; [discriminate|]. apply TU. exact (VU Ha N).
Qed.
Print Assumptions C49_round.

(** With the options [--write-lrat] and [--write-clrat] of the second run: a checker for LRAT, from the definition of the format, accepts the converted proofs.
    They derive the empty clause if the first run reported "s UNSATISFIABLE".  Nothing else than the sizes and the variables of the input is assumed. *)
Theorem C49_round_lrat : forall fuel pick judge io o chunks c code text g cls, (forall b, io b = false) -> o_proof o = Some (ToFile FVarisat) -> o_self_check o = false ->
  cli_solve fuel o chunks (ctx_default pick judge io) = Ret (c, (code, text)) -> code = 10 \/ code = 20 ->
  Dimacs.parse chunks = inl g -> Cnf.cnf_iter g = Some cls -> introduced cls ->
  CheckerSafe.history_size (map CheckerRun.Load cls) + N.of_nat (length (p_out (c_pf c))) < 2^32 -> N.of_nat (length cls) < 2^32 ->
  forall k pf sh chunks' file, (forall n l, Permutation (sh n l) l) -> (forall n, pf n = false) -> concat chunks' = concat chunks ->
  VliProofs.reader_ok file -> VliProofs.flat file = p_out (c_pf c) ->
  exists out lrat clrat, CliCheck.check_main k pf sh chunks' file = Some (CliCheck.Exit 0 out lrat clrat) /\
    forall (binary : bool) fresh, (if binary then CliCheck.k_clrat k else CliCheck.k_lrat k) = true -> (fresh = true -> P_CliLrat.no_clash cls) ->
    exists bytes lines, (if binary then clrat else lrat) = Some bytes /\ LratSpec.lrat_parse binary bytes = Some lines /\
      LratReplay.lrat_ops fresh (LratReplay.lrat_init cls) (flat_map LratSpec.line_ops lines) <> None /\
      (code = 20 -> ~ In [] cls -> exists id hints, In (LratSpec.OAdd id [] hints) (flat_map LratSpec.line_ops lines)).
Proof.
  intros fuel pick judge io o chunks c code text g cls Io P1 P2 E Cd Eg Ec In0 Sz Sn ko pf sh chunks' file SH PF CC RO FL.
  destruct (C49_round _ _ _ _ _ _ _ _ _ _ _ Io P1 P2 E Cd Eg Ec In0 Sz ko pf sh chunks' file SH PF CC RO FL) as (out&lrat&clrat&M&_&_&TU).
  exists out, lrat, clrat. split; [exact M|]. intros binary fresh W FR.
  destruct (P_CliCheck.C49_exit ko pf sh chunks' file) as (r&M'&X). rewrite M in M'. injection M' as <-. destruct X as (_&_&_&_&_&WL&WC).
  assert (B : exists bytes, (if binary then clrat else lrat) = Some bytes) by (destruct binary; [apply WC in W; destruct clrat|apply WL in W; destruct lrat]; eauto; congruence).
  destruct B as (bytes&B). exists bytes.
  assert (V : settings_ok (o_updates o)).
  { destruct (C48_answer _ _ _ _ _ _ _ _ _ _ Io P1 P2 E) as (A10&A20&_). destruct Cd as [->| ->]; [apply A10|apply A20]; reflexivity. }
  assert (cls = loaded chunks) by (pose proof (loaded_ok _ _ Eg); congruence). subst cls.
  assert (Eg' : Dimacs.parse chunks' = inl g) by (rewrite (P_Dimacs.C05_chunking chunks' chunks CC); exact Eg).
  destruct (formula_solved _ _ _ _ _ _ _ _ _ _ Io P1 P2 E V g Eg) as (r&Er&_). rewrite <- (formula_clauses o chunks) in In0.
  assert (Sb : starts_solving [CSolve]) by (right; eexists; reflexivity).
  destruct (round_steps _ _ _ _ _ _ _ _ Io (formula_early o chunks) (formula_plain o chunks) Sb eq_refl In0 Er (formula_within o chunks g Eg))
    as (a&z&P&NE&K&R&_&_&_&_&ND). specialize (ND (formula_shown o chunks) eq_refl). rewrite formula_clauses in *.
  assert (BL : P_CheckerSafe.bytes_left file = N.of_nat (length (VliProofs.flat file))) by (unfold P_CheckerSafe.bytes_left, VliProofs.flat; rewrite app_length; reflexivity).
  assert (OK : Forall BinFormatProofs.step_ok ((a ++ [End]) ++ z)) by (apply ProofAccept.range_all; [exact R|rewrite <- P; lia]).
  destruct (P_BinFormat.C04_roundtrip _ [] file OK RO ltac:(constructor) ltac:(rewrite app_nil_r, FL; exact P)) as (r'&D&_). apply ProofAccept.many_decodes in D.
  destruct (ProofAccept.decodes_split _ _ _ _ D) as (r1&D1&_).
  destruct (P_CliLrat.C49_lrat ko pf sh chunks' file out lrat clrat g (loaded chunks) a SH M Eg' Ec ltac:(exists r1; auto)) with (binary := binary) (bytes := bytes) (fresh := fresh) as (lines&L1&L2&L3).
  - intros cl I. specialize (K _ I). discriminate.
  - intros es1 v es2 c1 Ee. exfalso. apply (ND v). assert (X : In (CheckerRun.Step (DeleteVar v)) (map CheckerRun.Load (loaded chunks) ++ map CheckerRun.Step a)) by (rewrite Ee; apply in_or_app; right; left; reflexivity).
    apply in_app_or in X as [X|X]; apply in_map_iff in X as (x&X1&X2); [discriminate|]. congruence.
  - rewrite BL, FL. lia.
  - exact B.
  - exact FR.
  - exists lines. split; [exact B|]. split; [exact L1|]. split; [exact L2|]. intros C0 N0. apply L3; auto.
Qed.
Print Assumptions C49_round_lrat.

(** The inputs of [C48_case]: what the first run prints is verified by the second. *)
Definition C49_second (chunks : list (list N)) : option (N * option CliCheck.check_result) :=
  match cli_solve 300 (Options [] (Some (ToFile FVarisat)) false) chunks plain_ctx with
  | Ret (c, (code, _)) => Some (code, CliCheck.check_main P_CliCheck.no_options (fun _ => false) P_CliCheck.keep_order chunks (p_out (c_pf c), []))
  | _ => None end.
Example C49_round_case : introduced (loaded C48_unsat) /\ introduced (loaded C48_sat) /\ ~ In [] (loaded C48_unsat) /\
  C49_second C48_unsat = Some (20, Some (CliCheck.Exit 0 (line "t ADD 9 CLAUSES " ++ line "t UNSAT" ++ line "s VERIFIED") None None)) /\
  C49_second C48_sat = Some (10, Some (CliCheck.Exit 0 (line "t ADD 3 CLAUSES " ++ line "t SAT" ++ line "s VERIFIED") None None)).
Proof.
  split; [apply introduced_by; vm_compute; reflexivity|]. split; [apply introduced_by; vm_compute; reflexivity|].
  split; [vm_compute; intuition discriminate|]. split; vm_compute; reflexivity.
Qed.
Example C49_round_lrat_case : P_CliLrat.no_clash (loaded C48_unsat) /\
  match cli_solve 300 (Options [] (Some (ToFile FVarisat)) false) C48_unsat plain_ctx with
  | Ret (c, (code, _)) => code = 20 /\
      match CliCheck.check_main (CliCheck.CheckOptions true false) (fun _ => false) P_CliCheck.keep_order C48_unsat (p_out (c_pf c), []) with
      | Some (CliCheck.Exit 0 _ (Some bytes) None) => exists lines, LratSpec.lrat_parse false bytes = Some lines /\ (4 <= length lines)%nat /\
          LratReplay.lrat_ops true (LratReplay.lrat_init (loaded C48_unsat)) (flat_map LratSpec.line_ops lines) <> None
      | _ => False end
  | _ => False end.
Proof.
  split.
  - split; [vm_compute; intuition discriminate|]. intros C D l I1 I2 H1 _. vm_compute in I1.
    assert (X : exists a b, In a C /\ In b C /\ a <> b) by (repeat (destruct I1 as [<-|I1]; [do 2 eexists; split; [left; reflexivity|]; split; [right; left; reflexivity|discriminate]|]); destruct I1).
    destruct X as (a&b&A&B&Ne). apply H1 in A. apply H1 in B. congruence.
  - vm_compute. split; [reflexivity|]. eexists. split; [reflexivity|]. split; [lia|discriminate].
Qed.
