(** C44: the proof file that the solver writes is accepted by a separate checker. *)
From Coq Require Import Lia Arith PeanoNat Permutation Sorted ZArith ZifyBool ZifyNat ZifyN.
From Verif Require Import Spec Lit LitProofs BinFormat Hash HashProofs SortedLits F32 Vsids VsidsProofs VsidsWf Luby Config P_Config Search SearchBase Propagate P_Search ClauseDb DbProofs
  Analyze AnalyzeProofs Rup AnalyzeHints P_Hints SolverCtx CtxFrame VarsProofs Solver SolverInv SolverSimplify SolverAdd SolverLoad SolverFailed FailedHints SolverSearch SolverSolve CtxEvents P_Solver P_Proof
  ProofLog ProofSim ProofDerive ProofUnits ProofLoad ProofSearch P_SelfCheck ProofEarly.
From Verif Require Vli VliProofs P_Db SortedLitsProofs Checker CheckerSteps CheckerRun CheckerSafe CheckerNames CheckerUsers CheckerCount CheckerValid ProofReorder ProofAccept ProofTwin CtxRange.
Local Open Scope N_scope.
Notation in_range := ProofAccept.in_range.
Notation twin := ProofTwin.twin.

(** * The run with a checker *)
Lemma fits_app a b : fits (a ++ b) -> fits a.
Proof.
  intros A. apply Forall_app in A as [A _]. exact A.
Qed.
Lemma on_sync c c' : on c -> in_sync c -> add_step true End c = Ret c' -> p_format (c_pf c) = Some FVarisat ->
  on c' /\ p_log (c_pf c') = p_log (c_pf c) ++ [EvStep End] /\ exists os, p_out (c_pf c') = flat_map write_step os /\ announces 64 (steps (p_log (c_pf c'))) os.
Proof.
  intros O S E Fo. destruct (step_on _ _ _ _ O E) as (s'&p&M&Ec&O'&L). cbn [map_step] in M. injection M as <-.
  pose proof (synced_step _ true End _ _ S eq_refl E) as S'. split; [exact O'|]. rewrite Ec in *. cbn [cw_pf c_pf] in *. split; [exact L|].
  pose proof (step_format _ _ _ _ O E) as Fo'. rewrite Fo in Fo'. cbn [cw_pf c_pf] in Fo'.
  destruct (sy_out _ _ S' Fo') as (_&ss&os&O1&O2&_&_&O5). exists os. split; [exact O1|]. pose proof (O5 (on_checker _ O')) as X. cbn [cw_pf c_pf] in X. rewrite <- X. exact O2.
Qed.

(** The numbers of a step of the log are in range, also with shorter hashes. *)
Lemma high_range v b s : v_glen v <= max_count -> v_slen v <= max_count -> v_ulen v <= max_count -> CtxRange.step_in v s -> in_range (high b s).
Proof.
  intros F1 F2 F3. assert (M : max_count = max_var + 1) by reflexivity.
  assert (L : forall l, Forall (fun x => lit_var x < v_glen v) l -> Forall (fun x => x <= 2 * max_var + 1) l).
  { intros l. apply Forall_impl. intros x H. apply (lit_few _ _ _ F1 H (N.le_refl _)). }
  assert (Sh : forall h, h < 2^64 -> N.shiftr h (64 - b) < 2^64).
  { intros h H. rewrite N.shiftr_div_pow2. eapply N.le_lt_trans; [|exact H]. apply N.div_le_upper_bound; [apply N.pow_nonzero; discriminate|]. assert (0 < 2^(64 - b)) by (apply N.neq_0_lt_0, N.pow_nonzero; discriminate). nia. }
  assert (Hs : forall hs, Forall (fun h => h < 2^64) hs -> Forall (fun h => h < 2^64) (map (fun h => N.shiftr h (64 - b)) hs)).
  { intros hs H. apply Forall_map. eapply Forall_impl; [|exact H]. exact Sh. }
  destruct s as [g [x|]|g [x|]| | | | | | | | | | |]; cbn [CtxRange.step_in high map_hashes ProofAccept.in_range]; intros H; try exact Logic.I; try lia; try (apply L; exact H);
    try (destruct H as [H1 H2]; split; [apply L, H1|apply Hs, H2]).
  apply Forall_map. eapply Forall_impl; [|exact H]. intros [y h] [H1 H2]. cbn [fst snd] in *. split; [apply (lit_few _ _ _ F1 H1 (N.le_refl _))|apply Sh, H2].
Qed.
Lemma announced_range c os : few_vars c -> forall b ss, announces b ss os -> Forall (CtxRange.step_in (c_v c)) ss -> Forall in_range os.
Proof.
  intros (F1&F2&F3) b ss A. induction A as [b|b s ss os NB A IH|b b' ss os B NE A IH]; intros F; [constructor| |].
  - inversion F; subst. constructor; [eapply high_range; eassumption|auto].
  - constructor; [|auto]. cbn [ProofAccept.in_range]. assert (64 < 2^32) by reflexivity. lia.
Qed.
Lemma steps_ranged c : CtxRange.ranged c -> Forall (CtxRange.step_in (c_v c)) (steps (p_log (c_pf c))).
Proof.
  intros [_ _ R]. apply Forall_forall. intros s I. unfold steps in I. apply in_flat_map in I as (e&I&J). rewrite Forall_forall in R. specialize (R e I). destruct e; try destruct J as [<-|[]]; try destruct J. exact R.
Qed.
(** The calls before the first call of [solve] and those that follow *)
Definition starts_solving (ks : list call) : Prop := ks = [] \/ exists ks', ks = CSolve :: ks'.
Lemma after_first fuel ks c c' r : starts_solving ks -> forallb lasting ks = true -> on c -> run_all fuel ks c = Ret (c', r) ->
  on c' /\ exists l, p_log (c_pf c') = p_log (c_pf c) ++ l /\ loads_of (events l) = [].
Proof.
  intros [->|(ks'&->)] La O E; [cbn in E; injection E as <- _; split; [exact O|]; exists []; rewrite app_nil_r; auto|].
  cbn [forallb andb lasting] in La. cbn [run_all] in E. destruct (run fuel CSolve c) as [[c1 a]| |] eqn:E1; cbn [bind] in E; try discriminate.
  destruct (run_all fuel ks' c1) as [[c2 r2]| |] eqn:E2; cbn [bind] in E; try discriminate. injection E as <- _.
  assert (O1 : on (set_invoked c true)) by (eapply on_eq; [| |exact O]; reflexivity).
  pose proof (late_trans _ _ _ (late_solve _ _ _ _ E1) (late_all _ _ _ _ _ La E2) O1) as (O2&_&_&l&L&_&F). split; [exact O2|]. exists l. split; [exact L|apply F; reflexivity].
Qed.
(** In the run with a checker, the checker has the clauses of the solver after every call. *)
Lemma twin_synced fuel fm pick io ks ks' t r : forallb lasting (ks ++ ks') = true -> no_single fuel (CCheck :: CWriteProof fm :: ks ++ ks') (ctx_default pick (fun _ => VOk) io) ->
  run_all fuel (CCheck :: CWriteProof fm :: ks) (ctx_default pick (fun _ => VOk) io) = Ret (t, r) -> exists U, P_SelfCheck.synced U t.
Proof.
  intros La Ns E.
  assert (Nc : Forall not_check (CWriteProof fm :: ks)).
  { constructor; [discriminate|]. apply Forall_forall. intros k I. rewrite forallb_forall in La. specialize (La k (in_or_app _ _ _ (or_introl I))). intros ->. discriminate. }
  pose proof (history_sim fuel (CWriteProof fm :: ks) [CCheck] (ctx_default pick (fun _ => VOk) io) ltac:(repeat constructor) Nc ltac:(discriminate) (default_ready _ _ _)) as H. cbn [app] in H. rewrite E in H. apply H.
  intros a b c1 an q Eq R. apply (Ns a (b ++ ks') c1 an q); [|exact R]. rewrite app_comm_cons, app_comm_cons, Eq, <- app_assoc. reflexivity.
Qed.
(** The run with a checker, described by its log *)
Lemma checked_run fuel fm pick io ks_a ks_b t1 r1 t2 : (forall b, io b = false) -> forallb early_call ks_a = true -> starts_solving ks_b -> forallb lasting ks_b = true ->
  let ks := CCheck :: CWriteProof fm :: ks_a ++ ks_b in let c := ctx_default pick (fun _ => VOk) io in
  no_single fuel ks c -> run_all fuel ks c = Ret (t1, r1) -> add_step true End t1 = Ret t2 ->
  on t2 /\ p_format (c_pf t2) = Some fm /\ p_log (c_pf t2) = p_log (c_pf t1) ++ [EvStep End] /\ CtxRange.ranged t2 /\
    (few_vars t2 -> forall os, announces 64 (steps (p_log (c_pf t2))) os -> CheckerValid.valid_history (map CheckerRun.Load (clauses_of ks_a) ++ map CheckerRun.Step os) /\
       CheckerValid.db_unsat (CheckerValid.db_after (map CheckerRun.Load (clauses_of ks_a) ++ map CheckerRun.Step os)) = CheckerValid.db_unsat (CheckerValid.db_after (events (p_log (c_pf t2))))).
Proof.
  intros Io Ea Sb Lb ks c Ns E Es.
  set (c0 := cw_pf c (Proof (Some fm) true 64 0 [] [] (fun _ => VOk) io)).
  assert (E0 : run_all fuel (ks_a ++ ks_b) c0 = Ret (t1, tl (tl r1))).
  { unfold ks in E. cbn [run_all] in E. change (run fuel CCheck c) with (Ret (cw_pf c (Proof None true 64 0 [] [] (fun _ => VOk) io), ANone)) in E. cbn [bind] in E.
    change (run fuel (CWriteProof fm) _) with (Ret (c0, ANone)) in E. cbn [bind] in E. destruct (run_all fuel (ks_a ++ ks_b) c0) as [[t r]| |]; cbn [bind] in E; try discriminate.
    injection E as <- <-. reflexivity. }
  assert (EA : forall k, early_call k = true -> lasting k = true) by (intros []; auto).
  assert (La : forallb lasting (ks_a ++ ks_b) = true).
  { rewrite forallb_app, Lb, Bool.andb_true_r. rewrite forallb_forall in *. auto. }
  assert (O0 : on c0) by (constructor; [reflexivity|discriminate|exact Io|reflexivity]).
  assert (F0 : first c0) by (constructor; [exact O0|reflexivity|discriminate|reflexivity|discriminate]).
  assert (G0 : exists S, good true true S [] c0).
  { exists (fun _ => True). eapply good_st; [|apply (default_good pick (fun _ => VOk) io)]. exists (c_st c0), (c_pf c0). split; reflexivity. }
  destruct G0 as [S0 G0].
  destruct (late_all _ _ _ _ _ La E0 O0) as (O1&_&Fo&_). change (p_format (c_pf c0)) with (Some fm) in Fo.
  destruct (step_on _ _ _ _ O1 Es) as (s'&p&M&Ec&O2&L2). cbn [map_step] in M. injection M as <-. pose proof (step_format _ _ _ _ O1 Es) as Fo2. rewrite Fo in Fo2.
  assert (L2' : p_log (c_pf t2) = p_log (c_pf t1) ++ [EvStep End]) by (rewrite Ec; exact L2). clear L2. rename L2' into L2.
  assert (R2 : CtxRange.ranged t2).
  { pose proof (CtxRange.log_ranged _ _ _ _ _ _ _ E) as R1. apply (CtxRange.t_add_step true End t1 (fun _ => Logic.I) t2 Es R1). }
  split; [exact O2|]. split; [exact Fo2|]. split; [exact L2|]. split; [exact R2|]. intros Fv os An.
  destruct (run_all_app _ _ _ _ _ _ E0) as (m&ra&rb&Em&Eb&_).
  destruct (early_all fuel ks_a true true S0 [] [] c0 m ra G0 C38_default_valid Ea F0 (first_sent _ F0 eq_refl) Em) as [Fm (f1&f2&Ef&Lf&Un&Se)]. cbn [app] in Ef.
  destruct (after_first _ _ _ _ _ Sb Lb (fi_on _ Fm) Eb) as (_&l&Ll&Nl).
  set (es1 := events (p_log (c_pf m))) in *. set (es2 := events l ++ [CheckerRun.Step End]).
  assert (LE : events (p_log (c_pf t2)) = es1 ++ es2) by (rewrite L2, Ll, !events_app, <- app_assoc; reflexivity).
  assert (L22 : loads_of es2 = []) by (unfold es2; rewrite loads_app, Nl; reflexivity).
  assert (An' : announces 64 (steps_of (es1 ++ es2)) os) by (rewrite <- LE, steps_events; exact An).
  assert (Lf' : Forall2 ProofReorder.same_lits f1 (loads_of es1)) by (clear - Lf; induction Lf as [|x y f g [H _] _ IH]; constructor; assumption).
  assert (Ft : fits (es1 ++ es2)) by (rewrite <- LE; apply few_fits; assumption).
  destruct (twin_synced fuel fm pick io (ks_a ++ ks_b) [] t1 r1) as [U1 [J1 Q1]]; [rewrite app_nil_r; exact La|rewrite app_nil_r; exact Ns|exact E|].
  assert (Va : CheckerValid.valid_history (es1 ++ es2)).
  { rewrite <- LE. assert (C2 : csim (add_step true End t1) (fun c' => frame t1 c' /\ live c' (fun _ => True))).
    { apply (step_live true End t1 (fun _ => True)); [split; [exact J1|]; intros H1 H2; destruct (Q1 H1 H2) as (X1&X2&_); auto|]. intros es _ s' _. split; exact Logic.I. }
    rewrite Es in C2. destruct C2 as [_ [_ C2]]. destruct (C2 (on_checker _ O2) ltac:(rewrite LE; exact Ft)) as (_&V&_). exact V. }
  assert (Fi : CheckerValid.valid_history (map CheckerRun.Load (f1 ++ f2) ++ map CheckerRun.Step os) /\ ProofReorder.alike (CheckerValid.db_after (es1 ++ es2)) (CheckerValid.db_after (map CheckerRun.Load (f1 ++ f2) ++ map CheckerRun.Step os))).
  2: { rewrite Ef, LE. split; [apply Fi|]. symmetry. apply (ProofReorder.al_unsat _ _ (proj2 Fi)). }
  apply (ProofReorder.file_valid f1 f2 es1 es2 os Lf'); try assumption.
  - destruct Un as [->|Un]; [auto|]. right.
    destruct (twin_synced fuel fm pick io ks_a ks_b m (ANone :: ANone :: ra)) as [Um [Jm Qm]]; [exact La|exact Ns| |].
    + cbn [run_all]. change (ctx_default pick (fun _ => VOk) io) with c. change (run fuel CCheck c) with (Ret (cw_pf c (Proof None true 64 0 [] [] (fun _ => VOk) io), ANone)). cbn [bind].
      change (run fuel (CWriteProof fm) _) with (Ret (c0, ANone)). cbn [bind]. rewrite Em. reflexivity.
    + destruct (Qm (on_checker _ (fi_on _ Fm)) (fits_app _ _ Ft)) as (_&_&[_ Rm]). rewrite Un in Rm. apply (dd_unsat _ _ Rm).
  - intros s I. apply Se. rewrite <- steps_events. exact I.
Qed.

(** The file that is written beside *)
Lemma twin_file fuel pick io ks t1 r1 t2 : (forall b, io b = false) -> forallb lasting ks = true ->
  run_all fuel (CCheck :: CWriteProof FVarisat :: ks) (ctx_default pick (fun _ => VOk) io) = Ret (t1, r1) -> add_step true End t1 = Ret t2 ->
  exists os, p_out (c_pf t2) = flat_map write_step os /\ announces 64 (steps (p_log (c_pf t2))) os.
Proof.
  intros Io La E Es. set (c := ctx_default pick (fun _ => VOk) io) in *.
  set (c0 := cw_pf c (Proof (Some FVarisat) true 64 0 [] [] (fun _ => VOk) io)).
  assert (E0 : run_all fuel ks c0 = Ret (t1, tl (tl r1))).
  { cbn [run_all] in E. change (run fuel CCheck c) with (Ret (cw_pf c (Proof None true 64 0 [] [] (fun _ => VOk) io), ANone)) in E. cbn [bind] in E.
    change (run fuel (CWriteProof FVarisat) _) with (Ret (c0, ANone)) in E. cbn [bind] in E. destruct (run_all fuel ks c0) as [[t r]| |]; cbn [bind] in E; try discriminate.
    injection E as <- <-. reflexivity. }
  assert (O0 : on c0) by (constructor; [reflexivity|discriminate|exact Io|reflexivity]).
  assert (Y0 : in_sync c0).
  { constructor; [intros H; exfalso; apply H; reflexivity|intros _; split; reflexivity|]. intros _. split; [split; [cbn; lia|reflexivity]|]. exists [], []. repeat split; try reflexivity. constructor. }
  assert (Y1 : in_sync t1).
  { eapply (sync_run_all fuel); [|exact E0|exact Y0]. apply Forall_forall. intros k I. rewrite forallb_forall in La. specialize (La k I). destruct k; try discriminate; split; try discriminate; intros; discriminate. }
  destruct (late_all _ _ _ _ _ La E0 O0) as (O1&_&Fo&_).
  destruct (on_sync t1 t2 O1 Y1 Es Fo) as (O2&L2&os&P2&An). exists os. split; [exact P2|exact An].
Qed.

(** * The run that only writes a file *)
Lemma twin_core c c' : twin c c' -> get_failed_core c' = get_failed_core c.
Proof. intros (_&hs&us&ha&L&->). reflexivity. Qed.
Lemma run_all_panic fuel k p ks : forall c t r, run_all fuel ks c = Ret (t, r) -> run fuel k t = Panic p -> run_all fuel (ks ++ [k]) c = Panic p.
Proof.
  induction ks as [|k1 ks IH]; intros c t r E H; cbn [run_all app] in *; [injection E as <- _; rewrite H; reflexivity|].
  destruct (run fuel k1 c) as [[c1 a]| |]; cbn [bind] in *; try discriminate. destruct (run_all fuel ks c1) as [[c2 r2]| |] eqn:E2; cbn [bind] in E; try discriminate.
  injection E as <- _. rewrite (IH _ _ _ E2 H). reflexivity.
Qed.
Lemma file_run fuel fm pick judge io ks c1 r1 c2 : (forall b, io b = false) -> forallb lasting ks = true ->
  run_all fuel (CWriteProof fm :: ks) (ctx_default pick judge io) = Ret (c1, r1) -> add_step true End c1 = Ret c2 ->
  let kst := CCheck :: CWriteProof fm :: ks in let c := ctx_default pick (fun _ => VOk) io in
  exists t1 t2, run_all fuel kst c = Ret (t1, ANone :: r1) /\ add_step true End t1 = Ret t2 /\ p_out (c_pf t2) = p_out (c_pf c2) /\ c_v t2 = c_v c2 /\
    (no_single fuel (CWriteProof fm :: ks) (ctx_default pick judge io) -> no_single fuel kst c) /\ ProofTwin.quiet c2.
Proof.
  intros Io La E Es kst c.
  set (d := ctx_default pick judge io) in *. set (d0 := cw_pf d (Proof (Some fm) false 64 0 [] [] judge io)). set (c0 := cw_pf c (Proof (Some fm) true 64 0 [] [] (fun _ => VOk) io)).
  assert (T0 : twin d0 c0).
  { split; [constructor; [discriminate|reflexivity|exact Io|reflexivity]|]. exists [], [], [], []. reflexivity. }
  assert (K : forall ks1 ks2, ks = ks1 ++ ks2 -> ProofTwin.tw ProofTwin.twin2 (run_all fuel ks1 d0) (run_all fuel ks1 c0)).
  { intros ks1 ks2 Ek. apply ProofTwin.tw_run_all; [|exact T0]. rewrite Ek, forallb_app in La. apply andb_prop in La as [La _]. exact La. }
  assert (Rc : forall ks', run_all fuel (CCheck :: CWriteProof fm :: ks') c = match run_all fuel ks' c0 with Ret (t, r) => Ret (t, ANone :: ANone :: r) | Panic p => Panic p | NoFuel => NoFuel end).
  { intros ks'. cbn [run_all]. change (run fuel CCheck c) with (Ret (cw_pf c (Proof None true 64 0 [] [] (fun _ => VOk) io), ANone)). cbn [bind].
    change (run fuel (CWriteProof fm) _) with (Ret (c0, ANone)). cbn [bind]. destruct (run_all fuel ks' c0) as [[t r]| |]; reflexivity. }
  assert (Rd : forall ks', run_all fuel (CWriteProof fm :: ks') d = match run_all fuel ks' d0 with Ret (t, r) => Ret (t, ANone :: r) | Panic p => Panic p | NoFuel => NoFuel end).
  { intros ks'. cbn [run_all]. change (run fuel (CWriteProof fm) d) with (Ret (d0, ANone)). cbn [bind]. destruct (run_all fuel ks' d0) as [[t r]| |]; reflexivity. }
  assert (NG : forall ks', run_all fuel ks' c0 <> Panic PNoGlobal).
  { intros ks' H. pose proof (C39_no_internal_panic fuel pick (fun _ => VOk) io (CCheck :: CWriteProof fm :: ks') PNoGlobal) as X. change (ctx_default pick (fun _ => VOk) io) with c in X.
    rewrite Rc, H in X. specialize (X eq_refl). intuition discriminate. }
  rewrite Rd in E. destruct (run_all fuel ks d0) as [[x1 rr]| |] eqn:E0; try discriminate. injection E as -> <-.
  pose proof (K ks [] ltac:(rewrite app_nil_r; reflexivity)) as T1. rewrite E0 in T1.
  destruct (run_all fuel ks c0) as [[t1 rt]|p|] eqn:Et; cbn [ProofTwin.tw] in T1; [|exfalso; destruct p; try contradiction; exact (NG ks Et)|contradiction]. destruct T1 as [T1 T2]. cbn [fst snd] in T1, T2.
  pose proof (ProofTwin.tw_same true End _ _ T1) as T3. rewrite Es in T3.
  destruct (add_step true End t1) as [t2|p|] eqn:Est; cbn [ProofTwin.tw] in T3; [|exfalso|contradiction].
  2: { destruct p; try contradiction. apply (NG (ks ++ [CCloseProof])). eapply run_all_panic; [exact Et|]. cbn [run]. unfold close_proof. rewrite Est. reflexivity. }
  exists t1, t2. split; [unfold kst; rewrite Rc, Et, T2; reflexivity|]. split; [exact Est|].
  do 2 (split; [destruct T3 as (_&hs&us&ha&L&->); reflexivity|]). split; [|apply T3].
  intros Ns ks1 ks2 c3 an l Ek R. unfold kst in Ek. destruct ks1 as [|k1 [|k2 ks1]].
  - cbn in R. injection R as <- _. discriminate.
  - injection Ek as <- _. cbn [run_all] in R. change (run fuel CCheck c) with (Ret (cw_pf c (Proof None true 64 0 [] [] (fun _ => VOk) io), ANone)) in R. cbn in R. injection R as <- _. discriminate.
  - cbn [app] in Ek. injection Ek as <- <- Ek. rewrite Rc in R. destruct (run_all fuel ks1 c0) as [[y ry]| |] eqn:Ey; try discriminate. injection R as <- _.
    pose proof (K ks1 ks2 Ek) as T4. rewrite Ey in T4. destruct (run_all fuel ks1 d0) as [[z rz]| |] eqn:Ez; cbn [ProofTwin.tw] in T4; try contradiction. destruct T4 as [T4 _]. cbn [fst] in T4.
    rewrite (twin_core _ _ T4). apply (Ns (CWriteProof fm :: ks1) ks2 z (ANone :: rz)); [cbn [app]; rewrite Ek; reflexivity|]. rewrite Rd, Ez. reflexivity.
Qed.

(** * C44 *)
Lemma extras_cons f ks : VarsBound.extras (CWriteProof f :: ks) = VarsBound.extras ks.
Proof. reflexivity. Qed.
Lemma extras_snoc ks : VarsBound.extras (ks ++ [CCloseProof]) = VarsBound.extras ks.
Proof. induction ks as [|k ks IH]; cbn [app VarsBound.extras VarsBound.extra]; [reflexivity|rewrite IH; reflexivity]. Qed.
Lemma within_u32 before later : VarsBound.within_vars (before ++ later) -> Forall CheckerSteps.lits_u32 (clauses_of before).
Proof.
  intros (n&H&L). apply Forall_app in H as [H _]. assert (M : max_count = max_var + 1 /\ 2 * max_var + 1 < 2^32) by (split; reflexivity).
  apply Forall_forall. intros cl I. unfold clauses_of in I. apply in_flat_map in I as (k&I&J). rewrite Forall_forall in H. specialize (H k I).
  destruct k; try (destruct J; fail). destruct J as [<-|[]]. cbn [VarsBound.named_below] in H. eapply Forall_impl; [|exact H]. intros x Hx. cbv beta in *.
  pose proof (lit_few n x max_count (N.le_refl _) Hx ltac:(lia)). lia.
Qed.

(** A solver that writes a proof file from the start: the calls before the first call of [solve] give the formula, every later call may add
    clauses, set assumptions, hide variables or solve again, and the file is closed in the end.  A checker that is given the clauses of the formula,
    in the order in which they were added, accepts the file, however it is split when it is read.  No write to the file fails, no assumption
    fails on its own (false otherwise: [C44_file_accepted_refuted]), there are at most [Var::max_count] variables, and the file and the formula are
    smaller than the address space of the checker.  Missing for the full statement: histories in which an assumption fails on its own
    before the last call of [solve], variables hidden before the first call of [solve] (false in general: [C44_hidden_refuted]). *)
Theorem C44_file_accepted_partial : forall fuel pick judge io before later c answers, (forall b, io b = false) ->
  forallb early_call before = true -> starts_solving later -> forallb lasting later = true ->
  no_single fuel (CWriteProof FVarisat :: before ++ later) (ctx_default pick judge io) ->
  run_all fuel (CWriteProof FVarisat :: before ++ later ++ [CCloseProof]) (ctx_default pick judge io) = Ret (c, answers) ->
  VarsBound.within_vars (before ++ later) ->
  CheckerSafe.history_size (map CheckerRun.Load (clauses_of before)) + N.of_nat (length (p_out (c_pf c))) < 2^32 ->
  forall procs pf tf sh file, (forall n l, Permutation (sh n l) l) -> (forall n, pf n = false) ->
  VliProofs.reader_ok file -> VliProofs.flat file = p_out (c_pf c) ->
  exists k k', Checker.add_formula (Checker.checker_new procs false pf tf sh) (clauses_of before) = Checker.ROk tt k /\ Checker.check_proof k file = Some (Checker.ROk tt k').
Proof.
  intros fuel pick judge io before later c answers Io Ea Sb Lb Ns E.
  assert (EA : forall k, early_call k = true -> lasting k = true) by (intros []; auto).
  assert (La : forallb lasting (before ++ later) = true) by (rewrite forallb_app, Lb, Bool.andb_true_r; rewrite forallb_forall in *; auto).
  replace (CWriteProof FVarisat :: before ++ later ++ [CCloseProof]) with ((CWriteProof FVarisat :: before ++ later) ++ [CCloseProof]) in E by (cbn [app]; rewrite <- app_assoc; reflexivity).
  destruct (run_all_app _ _ _ _ _ _ E) as (c1&r1&r2&E1&E2&_). cbn [run_all run] in E2. unfold close_proof in E2.
  destruct (add_step true End c1) as [c2| |] eqn:Es; cbn [bind] in E2; try discriminate.
  destruct (file_run fuel FVarisat pick judge io (before ++ later) c1 r1 c2 Io La E1 Es) as (t1&t2&Et&Est&Out&Cv&Nst&Q). specialize (Nst Ns). set (rt := ANone :: r1) in Et.
  assert (PO : p_out (c_pf c) = p_out (c_pf c2) /\ c_v c = c_v c2).
  { rewrite (ProofTwin.flush_quiet c2 Q) in E2. unfold take_error in E2. cbn [cw_pf c_st] in E2. rewrite (ProofTwin.q_err _ Q) in E2. cbn [bind] in E2. injection E2 as <- _. split; reflexivity. }
  destruct PO as [PO CV]. destruct (checked_run fuel FVarisat pick io before later t1 rt t2 Io Ea Sb Lb Nst Et Est) as (O2&Fo2&L2&R2&V).
  destruct (twin_file fuel pick io (before ++ later) t1 rt t2 Io La Et Est) as (os&P&An).
  rewrite PO, <- Out. intros Wv Sz procs pf tf sh file SH PF RO FL.
  assert (Fv : few_vars c).
  { apply (within_few _ _ _ _ _ _ _ E). destruct Wv as (n&H&L). exists n. rewrite <- app_comm_cons, !extras_cons, extras_snoc. split; [|exact L]. constructor; [exact Logic.I|]. apply Forall_app. split; [exact H|repeat constructor]. }
  pose proof (within_u32 _ _ Wv) as Uf.
  assert (Fv2 : few_vars t2) by (unfold CtxRange.few_vars in *; rewrite Cv, <- CV; exact Fv).
  assert (IE : In End os).
  { destruct (ProofAccept.announced_in _ _ _ An End) as [b Ib]; [|exact Ib]. rewrite L2, steps_list_app, in_app_iff. right. left. reflexivity. }
  apply (ProofAccept.written_accepted procs pf tf sh (clauses_of before) os file SH PF Uf (announced_range t2 os Fv2 _ _ An (steps_ranged _ R2)) IE); [apply (proj1 (V Fv2 os An))|exact RO|rewrite FL; exact P|rewrite FL; exact Sz].
Qed.
Print Assumptions C44_file_accepted_partial.

(** A history that meets the hypotheses: clauses and assumptions before the first call of [solve], then learned clauses, failed cores, models, hidden variables,
    new clauses and in the end a contradiction. *)
Definition C44_before : list call := CSample 3 :: C28_history2.
Definition C44_later : list call :=
  [CSolve; CAdd [M 1; P 6]; CAssume [M 6; P 5; P 0]; CSolve; CAdd [P 7; P 8; M 6]; CAdd [M 7; P 8; M 6]; CAssume [P 4; M 8; P 6]; CSolve; CHide 9; CAssume []; CSolve; CSample 3;
   CAdd [P 0; P 1]; CObserve; CAdd [P 0; M 1]; CAdd [M 0; P 2; P 5]; CAdd [M 0; P 2; M 5]; CSolve; CAdd [M 0; M 2; P 5]; CAdd [M 0; M 2; M 5]; CSolve].
Definition C44_run : out (ctx * list answer) := run_all 200 (CWriteProof FVarisat :: C44_before ++ C44_later ++ [CCloseProof]) plain_ctx.
Definition C44_file : list N := after C44_run (fun c _ => p_out (c_pf c)) [].
Example C44_case : no_single 200 (CWriteProof FVarisat :: C44_before ++ C44_later) plain_ctx /\ VarsBound.within_vars (C44_before ++ C44_later) /\
  after C44_run (fun c r => (filter (fun a => match a with ASolved _ => true | _ => false end) r, length (p_out (c_pf c)))) ([], 0%nat)
    = ([ASolved false; ASolved false; ASolved false; ASolved true; ASolved true; ASolved false], length C44_file) /\
  (forallb early_call C44_before && forallb lasting C44_later && Nat.ltb 200 (length C44_file)) = true /\
  file_ok (clauses_of C44_before) C44_file = true.
Proof.
  split; [apply single_free_none; vm_compute; reflexivity|].
  split; [exists 10; split; [repeat (constructor; [repeat constructor|]); constructor|vm_compute; discriminate]|].
  split; [vm_compute; reflexivity|]. split; [|vm_compute; reflexivity]. vm_compute. reflexivity.
Qed.
(** A failed core of one literal comes first: the next failed core is too small, and the file is rejected. *)
Theorem C44_file_accepted_refuted : exists fuel before later c answers,
  forallb early_call before = true /\ starts_solving later /\ forallb lasting later = true /\
  run_all fuel (CWriteProof FVarisat :: before ++ later ++ [CCloseProof]) plain_ctx = Ret (c, answers) /\ file_ok (clauses_of before) (p_out (c_pf c)) = false.
Proof.
  set (later := [CSolve; CAssume []; CAdd [P 1]; CSolve; CAdd [P 4; P 2; P 3]; CAdd [M 3; M 2]; CAssume [P 3; P 4; P 2]; CSolve]).
  assert (X : after (run_all 200 (CWriteProof FVarisat :: [CAdd [M 0]; CAssume [P 0]] ++ later ++ [CCloseProof]) plain_ctx) (fun c _ => file_ok [[M 0]] (p_out (c_pf c))) true = false) by (vm_compute; reflexivity).
  exists 200%nat, [CAdd [M 0]; CAssume [P 0]], later. destruct (run_all 200 _ plain_ctx) as [[c r]| |]; [|discriminate X..]. exists c, r.
  split; [reflexivity|]. split; [right; eexists; reflexivity|]. split; [reflexivity|]. split; [reflexivity|exact X].
Qed.
Print Assumptions C44_file_accepted_refuted.
(** Hidden variables before the first call of [solve]: the file names variables by the numbers that the solver gives them, a checker numbers those of the
    formula as they are called in it.  If the name of a hidden variable is used again, the two differ, and the file is rejected. *)
Theorem C44_hidden_refuted : exists fuel before later c answers,
  forallb (fun k => early_call k || match k with CHide _ => true | _ => false end) before = true /\ starts_solving later /\ forallb lasting later = true /\
  no_single fuel (CWriteProof FVarisat :: before ++ later) plain_ctx /\ VarsBound.within_vars (before ++ later) /\
  run_all fuel (CWriteProof FVarisat :: before ++ later ++ [CCloseProof]) plain_ctx = Ret (c, answers) /\ file_ok (clauses_of before) (p_out (c_pf c)) = false.
Proof.
  assert (X : after (run_all 200 (CWriteProof FVarisat :: [CHide 0; CAdd [P 0; P 1]] ++ [CSolve] ++ [CCloseProof]) plain_ctx) (fun c _ => file_ok [[P 0; P 1]] (p_out (c_pf c))) true = false) by (vm_compute; reflexivity).
  exists 200%nat, [CHide 0; CAdd [P 0; P 1]], [CSolve]. destruct (run_all 200 _ plain_ctx) as [[c r]| |]; [|discriminate X..]. exists c, r.
  split; [reflexivity|]. split; [right; eexists; reflexivity|]. split; [reflexivity|].
  split; [apply single_free_none; vm_compute; reflexivity|]. split; [exists 2; split; [repeat (constructor; [repeat constructor|]); constructor|vm_compute; discriminate]|]. split; [reflexivity|exact X].
Qed.
Print Assumptions C44_hidden_refuted.
