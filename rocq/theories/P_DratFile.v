(** C45: the DRAT file that the solver writes is a valid DRAT proof. *)
From Coq Require Import Lia Arith PeanoNat Permutation Sorted ZArith ZifyBool ZifyNat ZifyN.
From Verif Require Import Spec Lit LitProofs BinFormat Hash HashProofs SortedLits F32 Vsids VsidsProofs VsidsWf Luby Config P_Config Search SearchBase Propagate P_Search ClauseDb DbProofs
  Analyze AnalyzeProofs Rup AnalyzeHints P_Hints SolverCtx CtxFrame VarsProofs Solver SolverInv SolverSimplify SolverAdd SolverLoad SolverFailed FailedHints SolverSearch SolverSolve CtxEvents P_Solver P_Proof
  ProofLog ProofSim ProofDerive ProofUnits ProofLoad ProofSearch P_SelfCheck ProofEarly P_ProofFile.
From Verif Require Vli VliProofs P_Db SortedLitsProofs Checker CheckerSteps CheckerRun CheckerSafe CheckerNames CheckerUsers CheckerCount CheckerValid ProofReorder ProofAccept ProofTwin CtxRange
  Lrat LratSpec LratProofs LratReplay P_Lrat DratSpec DratValid.
Local Open Scope N_scope.

(** * The bytes of the file *)
Definition drat_format (binary : bool) : pformat := if binary then FBinaryDrat else FDrat.
Definition drat_write (binary : bool) : proof_step -> option (list N) := if binary then Lrat.drat_write_binary_step else Lrat.drat_write_step.
Lemma drat_file_app W a : forall b, P_Lrat.drat_file W (a ++ b) = match P_Lrat.drat_file W a, P_Lrat.drat_file W b with Some x, Some y => Some (x ++ y) | _, _ => None end.
Proof.
  induction a as [|s a IH]; intros b; cbn [app P_Lrat.drat_file]; [destruct (P_Lrat.drat_file W b); reflexivity|]. rewrite IH. destruct (W s); [|reflexivity].
  destruct (P_Lrat.drat_file W a); [|reflexivity]. destruct (P_Lrat.drat_file W b); [rewrite app_assoc; reflexivity|reflexivity].
Qed.
(** Everything the checker was given as a step is in the file. *)
Definition wrote (bn : bool) (c : ctx) : Prop := on c /\ p_format (c_pf c) = Some (drat_format bn) /\ P_Lrat.drat_file (drat_write bn) (steps (p_log (c_pf c))) = Some (p_out (c_pf c)).
Definition writes (bn : bool) (c c' : ctx) : Prop := wrote bn c -> wrote bn c'.
Lemma writes_same bn c c' : c_pf c' = c_pf c -> st_error (c_st c') = st_error (c_st c) -> writes bn c c'.
Proof. intros E1 E2 (O&F&D). split; [eapply on_eq; eassumption|]. rewrite E1. auto. Qed.
Lemma writes_step bn sv s c c' : add_step sv s c = Ret c' -> writes bn c c'.
Proof.
  intros E (O&F&D). pose proof (step_format _ _ _ _ O E) as F'. destruct (step_on _ _ _ _ O E) as (s'&p&M&Ec&O'&L). split; [exact O'|]. split; [congruence|]. rewrite Ec in *. cbn [cw_pf c_pf] in *. rewrite L, steps_list_app, drat_file_app, D.
  unfold add_step in E. destruct O as [A B C Er]. rewrite Er in E. unfold p_active in E. rewrite A in E. rewrite M, F in E.
  change (steps [EvStep s']) with [s']. cbn [P_Lrat.drat_file].
  assert (K : forall b, drat_write bn s' = Some b -> p_out p = p_out (c_pf c) ++ b).
  { intros b W. unfold drat_write, drat_format in *. destruct bn; rewrite W in E; cbn [bind p_write p_format p_io p_out p_checker cw_pf] in E; cbv zeta in E; cbn [p_write p_format p_io p_out p_checker] in E;
      rewrite F, C, A in E; unfold ask_checker in E; cbn [handle_check cw_pf c_pf p_push p_judge p_write] in E; (destruct (p_judge _ _) eqn:J; [|exfalso; exact (B _ J)|cbn [handle_check] in E; discriminate]); cbn [handle_check] in E; injection E as E; rewrite <- E; reflexivity. }
  destruct (drat_write bn s') as [b|] eqn:W; [rewrite (K b eq_refl), app_nil_r; reflexivity|]. exfalso. unfold drat_write, drat_format in *. destruct bn; rewrite W in E; discriminate.
Qed.
Lemma writes_ask bn e c c' : steps [e] = [] -> ask_checker c e = Ret c' -> writes bn c c'.
Proof.
  intros S E (O&F&D). destruct (ask_on _ _ _ O E) as [-> O']. split; [exact O'|]. split; [exact F|]. cbn [cw_pf c_pf p_push p_log p_out]. rewrite steps_list_app, S, app_nil_r. exact D.
Qed.
Lemma writes_ev1 bn f c c' : ev1 f c c' -> writes bn c c'.
Proof.
  intros H. destruct H as [c c' (_&E1&E2&_)|c x _|c u _|sv s c c' N _ E|cl c c' Ch E I|c n|c c1 c' g x (_&E1&E2&_) E|c c1 c' g x (_&E1&E2&_) E].
  - apply writes_same; assumption.
  - apply writes_same; reflexivity.
  - apply writes_same; reflexivity.
  - eapply writes_step. exact E.
  - eapply writes_ask; [|exact E]. reflexivity.
  - intros ([A B C D]&F&W). split; [constructor; assumption|]. split; assumption.
  - intros W. eapply writes_step; [exact E|]. eapply writes_same; eassumption.
  - intros W. eapply writes_step; [exact E|]. eapply writes_same; eassumption.
Qed.
Lemma writes_ev bn f c c' : ev f c c' -> writes bn c c'.
Proof. induction 1; [intros W; exact W|]. intros W. apply IHev. eapply writes_ev1; eassumption. Qed.
(** No clause was added, and no assumption was made, after the first call of [solve]. *)
Lemma wrote_plain bn c : wrote bn c -> forall s, In s (steps (p_log (c_pf c))) -> P_Lrat.incremental s = false.
Proof.
  intros (_&_&W) s I. destruct (P_Lrat.incremental s) eqn:E; [|reflexivity]. pose proof (proj2 (P_Lrat.C33_panics_iff_incremental bn (steps (p_log (c_pf c)))) (ex_intro _ s (conj I E))) as X. unfold drat_write in W. congruence.
Qed.

(** * No failed assumptions *)
Lemma add_step_sat sv s c c' : add_step sv s c = Ret c' -> st_sat (c_st c') = st_sat (c_st c).
Proof. intros E. destruct (add_step_cases _ _ _ _ E) as [(->&_)|(_&_&s'&p&b&_&_&_&[(_&->)|[(_&->)|[(_&_&->)|(_&_&->)]]])]; reflexivity. Qed.
Lemma ask_sat e c c' : ask_checker c e = Ret c' -> st_sat (c_st c') = st_sat (c_st c).
Proof. intros E. destruct (ask_checker_post _ _ _ E) as (x&p&->). reflexivity. Qed.
Lemma ev_keeps_sat c c' : ev false c c' -> st_sat (c_st c') = st_sat (c_st c).
Proof.
  induction 1 as [|a a1 a2 H _ ->]; [reflexivity|]. destruct H as [c c2 ((E&_)&_)|c x X|c u X|sv s c c2 _ _ E|cl c c2 _ E _|c n|c c1 c2 g x ((E0&_)&_) E|c c1 c2 g x ((E0&_)&_) E]; try discriminate; auto.
  - eapply add_step_sat. exact E.
  - eapply ask_sat. exact E.
  - rewrite (add_step_sat _ _ _ _ E). exact E0.
  - rewrite (add_step_sat _ _ _ _ E). exact E0.
Qed.
Definition calm (c c' : ctx) : Prop := st_sat (c_st c') = st_sat (c_st c) \/ st_sat (c_st c') = Unknown \/ st_sat (c_st c') = Unsat.
Lemma calm_ev c c' : ev false c c' -> calm c c'.
Proof. intros H. unfold calm. rewrite (ev_keeps_sat _ _ H). auto. Qed.
Lemma calm_trans a b c : calm a b -> calm b c -> calm a c.
Proof. unfold calm. intros [A|A] [B|B]; rewrite ?B; auto. Qed.
Lemma calm_load l c : post (load_clause l c) (calm c).
Proof.
  unfold load_clause.
  assert (R : forall c1 : ctx, calm c c1 -> post
    (do (c, lits) <- solver_from_user_lits l true c1 ;
      let lits := dedup_n (sort_n lits) in
      do c <- proof_add_clause lits c ;
      if tautology lits then Ret c
      else
        do c <- (if Nat.ltb 1 (length lits) then map_data_lits lits (fun d => vd_set_isolated d false) c
                 else Ret c) ;
        let '(kept, false_lits, clause_is_true) := scan_lits (c_s c) lits in
        let will_conflict := match kept with [] => true | _ => false end in
        let c := cw_s c (fold_left (fun s l => resurrect_unit s (lnot l)) false_lits (c_s c)) in
        let lits := kept ++ false_lits in
        if clause_is_true then
          if Nat.ltb 1 (length lits) then add_step true (DeleteClause lits DSatisfied) c else Ret c
        else
          match lits with
          | [] => Ret (set_sat c Unsat)
          | [lit] => if will_conflict then Ret (set_sat c Unsat)
                     else Ret (cw_s c (enqueue (c_s c) lit RUnit))
          | [l0; l1] => Ret (add_binary_clause l0 l1 c)
          | _ => do (c, _) <- db_add_clause (set_tier hdr_new Irred) lits c ; Ret c
          end) (calm c)).
  { intros c0 Q0. eapply (@t_bind2 false); [apply t_solver_from_user_lits|]. intros c1 lits Q1.
    cbv zeta. eapply (@t_bind false); [apply t_proof_add_clause|]. intros c2 Q2.
    pose proof (calm_trans _ _ _ Q0 (calm_ev _ _ (ev_trans _ _ _ Q1 Q2))) as Q. destruct (tautology _); [apply post_ret; exact Q|].
    eapply (@t_bind false) with (c := c2); [destruct (Nat.ltb 1 _); [apply t_data_lits|apply t_ret; apply ev_refl]|].
    intros c3 Q3. pose proof (calm_trans _ _ _ Q (calm_ev _ _ Q3)) as Q4. destruct (scan_lits _ _) as [[kept fl] found].
    set (c4 := cw_s c3 _). assert (Q5 : calm c c4) by exact Q4. clearbody c4.
    destruct found; [destruct (Nat.ltb _ _); [|apply post_ret; exact Q5]; intros c5 E; unfold calm; rewrite (add_step_sat _ _ _ _ E); exact Q5|].
    destruct (kept ++ fl) as [|a [|b [|d r]]].
    - apply post_ret. right; right; reflexivity.
    - destruct kept; apply post_ret; [right; right; reflexivity|exact Q5].
    - apply post_ret. exact Q5.
    - eapply (@t_bind2 false); [apply t_db_add|]. intros c5 x Q6. apply post_ret. eapply calm_trans; [exact Q5|apply calm_ev; exact Q6]. }
  assert (Fr : forall c0, st_sat (c_st (full_restart c0)) = st_sat (c_st c0)) by (intros c0; apply (full_restart_same c0)).
  destruct (st_sat (c_st c)) eqn:E; [| |apply post_ret; left; reflexivity|]; apply R; unfold calm; rewrite Fr; cbn; auto.
Qed.
Lemma calm_assume l c : post (set_assumptions l c) (calm c).
Proof.
  unfold set_assumptions. cbv zeta. set (c1 := match st_sat (c_st (full_restart c)) with Unsat => _ | _ => _ end).
  assert (E1 : st_sat (c_st c1) = Unknown \/ st_sat (c_st c1) = Unsat) by (unfold c1; destruct (st_sat (c_st (full_restart c))) eqn:E; cbn; auto).
  clearbody c1. eapply (@t_bind false); [apply t_data_lits|]. intros c2 Q2.
  eapply (@t_bind2 false); [apply t_solver_from_user_lits|]. intros c3 lits Q3.
  eapply (@t_bind false) with (c := c3); [eapply t_seq; [|apply t_data_lits]; apply ev_same; repeat split; reflexivity|]. intros c4 Q4 c5 E5.
  unfold calm. rewrite (add_step_sat _ _ _ _ E5), (ev_keeps_sat _ _ Q4), (ev_keeps_sat _ _ Q3), (ev_keeps_sat _ _ Q2). right. exact E1.
Qed.
Lemma calm_run fuel k c c' a : CtxEvents.plain k = true -> run fuel k c = Ret (c', a) -> calm c c'.
Proof.
  intros P E. enough (H : post (run fuel k c) (fun r => calm c (fst r))) by (apply (H _ E)). clear E c' a.
  destruct k; try discriminate; cbn [run].
  - eapply post_bind; [apply calm_load|]. intros c' Q. apply post_ret. exact Q.
  - eapply (@t_bind2 false) with (c := c).
    + unfold new_user_var. cbv zeta. eapply t_bind2 with (c := c); [eapply t_seq2; [|apply t_global_from_user]; apply ev_same; repeat split; reflexivity|].
      intros c' g Q. apply t_ret2. exact Q.
    + intros c' v Q. apply post_ret. apply calm_ev. exact Q.
  - eapply (@t_bind false); [apply t_mode|]. intros c' Q. apply post_ret, calm_ev. exact Q.
  - eapply (@t_bind false); [apply t_mode|]. intros c' Q. apply post_ret, calm_ev. exact Q.
  - eapply (@t_bind false); [apply t_mode|]. intros c' Q. apply post_ret, calm_ev. exact Q.
  - eapply (@t_bind2 false); [apply t_observe|]. intros c' l Q. apply post_ret, calm_ev. exact Q.
  - eapply post_bind; [apply calm_assume|]. intros c' Q. apply post_ret. exact Q.
  - destruct (update_apply u (c_cfg c)) as [[] cfg] eqn:Eu; [|apply post_ret; left; reflexivity].
    destruct (_ && _); [|apply post_panic]. apply post_ret. left. reflexivity.
Qed.

(** * Runs with a checker that write a DRAT file *)
Record steady (bn : bool) (c : ctx) : Prop := { sd_wrote : wrote bn c; sd_judged : judged c; sd_calm : st_sat (c_st c) <> UnsatAssum }.
Lemma steady_run bn fuel k c c' a : lasting k = true -> steady bn c -> run fuel k c = Ret (c', a) -> steady bn c' /\ (a = ASolved false -> st_sat (c_st c') = Unsat).
Proof.
  intros La [W J C] E. destruct (judged_run _ _ _ _ _ E J) as [J' _].
  assert (K : CtxEvents.plain k = true \/ k = CSolve) by (destruct k; auto; discriminate). destruct K as [K| ->].
  - split; [constructor; [eapply writes_ev; [apply (t_run fuel k c K _ E)|exact W]|exact J'|]|].
    + destruct (calm_run _ _ _ _ _ K E) as [X|[X|X]]; congruence.
    + intros ->. exfalso. destruct k; try discriminate; cbn [run] in E; repeat match type of E with
        | bind ?m _ = _ => destruct m as [x| |]; cbn [bind] in E; try discriminate; try destruct x
        | (let '(_, _) := ?x in _) = _ => destruct x
        | (if ?b then _ else _) = _ => destruct b end; try discriminate; try (injection E; discriminate).
  - cbn [run] in E. unfold solve in E. cbv zeta in E. destruct (st_invalid _); [discriminate|]. destruct (schedule_loop fuel fuel (set_invoked c true)) as [c1| |] eqn:E1; cbn [bind] in E; try discriminate.
    pose proof (t_schedule_loop _ _ _ _ E1) as Ev. assert (W0 : wrote bn (set_invoked c true)) by (eapply writes_same; [| |exact W]; reflexivity).
    assert (W1 : wrote bn c1) by (eapply writes_ev; eassumption). assert (O1 := proj1 W1).
    unfold solve_finished in E. cbv zeta in E. rewrite flush_on in E by exact O1. rewrite (on_checker _ O1) in E.
    destruct (ask_checker c1 EvDelayed) as [c2| |] eqn:E2; try discriminate. assert (W2 : wrote bn c2) by (eapply (writes_ask bn EvDelayed); [reflexivity|exact E2|exact W1]).
    pose proof (ask_sat _ _ _ E2) as S2. cbn [bind] in E. unfold take_error in E. rewrite (on_err _ (proj1 W2)) in E. injection E as <- <-.
    assert (C1 : st_sat (c_st c1) <> UnsatAssum).
    { intros X. destruct (schedule_loop_said _ _ _ _ E1) as (H1&H2&_). destruct (st_sat (c_st c)) eqn:St.
      2-4: rewrite H1 in X by (cbn; congruence); cbn in X; congruence.
      specialize (H2 St). unfold justified in H2. rewrite X in H2. destruct (H2 J) as (_&l&G&Q). destruct (Q (on_checker _ O1) (on_err _ O1)) as (e&Ie&(core&h&->)).
      destruct G as (G&_). assert (Is : In (FailedAssumptions core h) (steps (p_log (c_pf c1)))).
      { rewrite G, steps_list_app, in_app_iff. right. unfold steps. apply in_flat_map. eexists. split; [exact Ie|left; reflexivity]. }
      pose proof (wrote_plain _ _ W1 _ Is). discriminate. }
    split; [constructor; [exact W2|exact J'|congruence]|]. rewrite S2. destruct (st_sat (c_st c1)); try discriminate; congruence.
Qed.
Lemma steady_all bn fuel ks : forall c c' r, forallb lasting ks = true -> steady bn c -> run_all fuel ks c = Ret (c', r) ->
  steady bn c' /\ (In (ASolved false) r -> exists ks1 ks2 m r1 r2, ks = ks1 ++ ks2 /\ run_all fuel ks1 c = Ret (m, r1) /\ run_all fuel ks2 m = Ret (c', r2) /\ st_sat (c_st m) = Unsat).
Proof.
  induction ks as [|k ks IH]; intros c c' r F St E; cbn [run_all] in E; [injection E as <- <-; split; [exact St|intros []]|]. cbn [forallb] in F. apply andb_prop in F as [F1 F2].
  destruct (run fuel k c) as [[c1 a]| |] eqn:E1; cbn [bind] in E; try discriminate. destruct (run_all fuel ks c1) as [[c2 r2]| |] eqn:E2; cbn [bind] in E; try discriminate. injection E as <- <-.
  destruct (steady_run _ _ _ _ _ _ F1 St E1) as [St1 U1]. destruct (IH _ _ _ F2 St1 E2) as [St2 U2]. split; [exact St2|]. intros [->|I].
  - exists [k], ks, c1, [ASolved false], r2. split; [reflexivity|]. split; [cbn [run_all]; rewrite E1; reflexivity|]. split; [exact E2|auto].
  - destruct (U2 I) as (ks1&ks2&m&r1&r3&->&X1&X2&X3). exists (k :: ks1), ks2, m, (a :: r1), r3. split; [reflexivity|]. split; [cbn [run_all]; rewrite E1; cbn [bind]; rewrite X1; reflexivity|]. auto.
Qed.

(** * The steps of the log *)
Lemma high_64 s : high 64 s = s.
Proof.
  assert (K : forall hs, map (fun h => N.shiftr h (64 - 64)) hs = hs) by (intros hs; transitivity (map (fun x : N => x) hs); [apply map_ext; intros h; apply N.shiftr_0_r|apply map_id]).
  destruct s; unfold high; cbn [map_hashes]; rewrite ?K; try reflexivity. f_equal. match goal with |- map _ ?l = _ => transitivity (map (fun x : N * N => x) l) end; [apply map_ext; intros [x h]; rewrite N.shiftr_0_r; reflexivity|apply map_id].
Qed.
Lemma announces_64 v ss : Forall (CtxRange.step_in v) ss -> announces 64 ss ss.
Proof.
  induction 1 as [|s ss H _ IH]; [constructor|]. rewrite <- (high_64 s) at 2. constructor; [|exact IH]. destruct s; try reflexivity. destruct H.
Qed.
Lemma range_drat c s : few_vars c -> CtxRange.step_in (c_v c) s -> P_Lrat.drat_lits_ok s.
Proof.
  intros (F1&_) H. assert (L : forall l, lit_var l < v_glen (c_v c) -> l < 2^32).
  { intros l Hl. pose proof (lit_few _ _ _ F1 Hl (N.le_refl _)). rewrite max_var_val in *. change (2^32) with 4294967296. lia. }
  destruct s; cbn [CtxRange.step_in P_Lrat.drat_lits_ok] in *; try exact Logic.I; [eapply Forall_impl; [exact L|apply H]| |eapply Forall_impl; [exact L|exact H]].
  eapply Forall_impl; [|exact H]. intros [x h] [Hx _]. apply L. exact Hx.
Qed.
Lemma store_dead d l r : CheckerValid.db_unsat d = true -> CheckerValid.db_unsat (CheckerValid.db_store d l r) = true.
Proof. intros U. unfold CheckerValid.db_store. destruct l as [|a [|b l]]; [reflexivity| |exact U]. destruct (CheckerCount.mem a _); [exact U|]. destruct (CheckerCount.mem _ _); [reflexivity|exact U]. Qed.
Lemma units_dead (us : list (N * N)) : forall d, CheckerValid.db_unsat d = true -> CheckerValid.db_unsat (fold_left (fun d u => CheckerValid.db_store d [fst u] false) us d) = true.
Proof. induction us as [|u us IH]; intros d U; [exact U|]. cbn [fold_left]. apply IH, store_dead, U. Qed.
Lemma stays_dead a b : CheckerValid.db_unsat (CheckerValid.db_after a) = true -> CheckerValid.db_unsat (CheckerValid.db_after (a ++ b)) = true.
Proof.
  unfold CheckerValid.db_after. rewrite fold_left_app. generalize (fold_left CheckerValid.db_event a CheckerValid.db_empty). induction b as [|e b IH]; intros d U; [exact U|]. cbn [fold_left]. apply IH.
  destruct e as [cl|s]; [|destruct s]; cbn [CheckerValid.db_event CheckerValid.db_unsat]; try exact U; try (destruct (_ || _); [exact U|]); try (apply store_dead; exact U). apply units_dead, U.
Qed.

(** * C45 *)
(** A solver that writes a DRAT file from the start: the calls before the first call of [solve] give the formula, then it solves any number of times; no call panics,
    which excludes assumptions and clauses after the first call of [solve], and no write to the file fails.  Then the file is, in both formats, a DRAT proof:
    every clause it adds follows by unit propagation from the clauses of the formula and those added so far without those deleted, every clause it deletes is there
    and has two different literals, whichever deletions a checker ignores.  If one of the calls of [solve] returned [false] then the file is a refutation: unit propagation finds
    a contradiction after the last line. *)
Theorem C45_drat_file : forall fuel pick judge io (binary : bool) before later c answers, (forall b, io b = false) ->
  forallb early_call before = true -> starts_solving later -> forallb lasting later = true ->
  run_all fuel (CWriteProof (if binary then FBinaryDrat else FDrat) :: before ++ later ++ [CCloseProof]) (ctx_default pick judge io) = Ret (c, answers) -> VarsBound.within_vars (before ++ later) ->
  let formula := map (map LratProofs.zlit) (clauses_of before) in
  exists lines, LratSpec.drat_parse binary (p_out (c_pf c)) = Some lines /\ forall ignore,
    DratSpec.drat_valid ignore formula lines /\ (In (ASolved false) answers -> DratSpec.drat_refutes ignore formula lines).
Proof.
  intros fuel pick judge io bn before later c answers Io Ea Sb Lb E Wv formula.
  assert (Fv : few_vars c).
  { apply (within_few _ _ _ _ _ _ _ E). destruct Wv as (n&H&L). exists n. split.
    - constructor; [exact Logic.I|]. rewrite app_assoc. apply Forall_app. split; [exact H|repeat constructor].
    - rewrite app_assoc. rewrite extras_cons, extras_snoc. exact L. }
  change (if bn then FBinaryDrat else FDrat) with (drat_format bn) in E. set (fm := drat_format bn) in *.
  assert (EA : forall k, early_call k = true -> lasting k = true) by (intros []; auto).
  assert (La : forallb lasting (before ++ later) = true) by (rewrite forallb_app, Lb, Bool.andb_true_r; rewrite forallb_forall in *; auto).
  replace (CWriteProof fm :: before ++ later ++ [CCloseProof]) with ((CWriteProof fm :: before ++ later) ++ [CCloseProof]) in E by (cbn [app]; rewrite <- app_assoc; reflexivity).
  destruct (run_all_app _ _ _ _ _ _ E) as (c1&r1&r2&E1&E2&An). cbn [run_all run] in E2. unfold close_proof in E2.
  destruct (add_step true End c1) as [c2| |] eqn:Es; cbn [bind] in E2; try discriminate.
  destruct (file_run fuel fm pick judge io (before ++ later) c1 r1 c2 Io La E1 Es) as (t1&t2&Et&Est&Out&Cv&_&Q).
  assert (PO : p_out (c_pf c) = p_out (c_pf c2) /\ c_v c = c_v c2 /\ r2 = [ANone]).
  { rewrite (ProofTwin.flush_quiet c2 Q) in E2. unfold take_error in E2. cbn [cw_pf c_st] in E2. rewrite (ProofTwin.q_err _ Q) in E2. cbn [bind] in E2. injection E2 as <- <-. repeat split; reflexivity. }
  destruct PO as (PO&CV&R2). set (d := ctx_default pick (fun _ => VOk) io) in *.
  set (c0 := cw_pf d (Proof (Some fm) true 64 0 [] [] (fun _ => VOk) io)).
  assert (Rc : forall ks', run_all fuel (CCheck :: CWriteProof fm :: ks') d = match run_all fuel ks' c0 with Ret (t, r) => Ret (t, ANone :: ANone :: r) | Panic p => Panic p | NoFuel => NoFuel end).
  { intros ks'. cbn [run_all]. change (run fuel CCheck d) with (Ret (cw_pf d (Proof None true 64 0 [] [] (fun _ => VOk) io), ANone)). cbn [bind].
    change (run fuel (CWriteProof fm) _) with (Ret (c0, ANone)). cbn [bind]. destruct (run_all fuel ks' c0) as [[t r]| |]; reflexivity. }
  assert (St0 : steady bn c0).
  { constructor; [|split; cbn; [intros pre e post H; destruct pre; discriminate|auto]|discriminate]. split; [constructor; [reflexivity|discriminate|exact Io|reflexivity]|]. split; reflexivity. }
  assert (Ns : no_single fuel (CCheck :: CWriteProof fm :: before ++ later) d).
  { intros ks1 ks2 c3 an l Ek R. destruct ks1 as [|k1 [|k2 ks1]].
    - cbn in R. injection R as <- _. discriminate.
    - injection Ek as <- _. cbn [run_all] in R. change (run fuel CCheck d) with (Ret (cw_pf d (Proof None true 64 0 [] [] (fun _ => VOk) io), ANone)) in R. cbn in R. injection R as <- _. discriminate.
    - cbn [app] in Ek. injection Ek as <- <- Ek. rewrite Rc in R. destruct (run_all fuel ks1 c0) as [[y ry]| |] eqn:Ey; try discriminate. injection R as <- _.
      assert (L1 : forallb lasting ks1 = true) by (rewrite Ek, forallb_app in La; apply andb_prop in La; apply La). destruct (steady_all _ _ _ _ _ _ L1 St0 Ey) as [[_ _ X] _]. unfold get_failed_core. destruct (st_sat (c_st y)); try discriminate. congruence. }
  destruct (checked_run fuel fm pick io before later t1 (ANone :: r1) t2 Io Ea Sb Lb Ns Et Est) as (O2&Fo2&L2&Rg2&V).
  assert (Fv2 : few_vars t2) by (unfold CtxRange.few_vars in *; rewrite Cv, <- CV; exact Fv).
  pose proof Et as Et0. rewrite Rc in Et0. destruct (run_all fuel (before ++ later) c0) as [[y ry]| |] eqn:Ey; try discriminate. injection Et0 as Ey1 Er. subst y r1.
  destruct (steady_all _ _ _ _ _ _ La St0 Ey) as [St1 Un].
  assert (W2 : wrote bn t2) by (eapply writes_step; [exact Est|apply St1]).
  set (ss := steps (p_log (c_pf t2))) in *. pose proof (steps_ranged _ Rg2) as Rs. fold ss in Rs.
  destruct (V Fv2 ss (announces_64 _ _ Rs)) as [V1 V2].
  assert (NI : forallb (fun s => negb (P_Lrat.incremental s)) ss = true) by (apply forallb_forall; intros s I; rewrite (wrote_plain _ _ W2 s I); reflexivity).
  destruct (P_Lrat.C33_file_decodes bn ss) as (bytes&Fb&Pb); [|exact NI|].
  { eapply Forall_impl; [|exact Rs]. intros s. apply range_drat. exact Fv2. }
  exists (flat_map P_Lrat.drat_entries ss). split; [rewrite PO, <- Out; destruct W2 as (_&_&W2); fold ss in W2; unfold drat_write in W2; rewrite Fb in W2; injection W2 as <-; exact Pb|].
  intros ignore. destruct (DratValid.history_drat ignore (clauses_of before) ss V1 NI) as [H1 H2]. split; [exact H1|]. intros I. split; [exact H1|]. apply H2. rewrite V2.
  assert (I' : In (ASolved false) ry) by (rewrite An, R2 in I; apply in_app_iff in I as [[X|X]|[X|[]]]; [discriminate X|exact X|discriminate X]).
  destruct (Un I') as (ks1&ks2&m&ra&rb&Ek&X1&X2&X3).
  destruct (twin_synced fuel fm pick io ks1 ks2 m (ANone :: ANone :: ra)) as [U [J Sy]]; [rewrite <- Ek; exact La|rewrite <- Ek; exact Ns|change (ctx_default pick (fun _ => VOk) io) with d; rewrite Rc, X1; reflexivity|].
  assert (L1 : forallb lasting ks1 = true /\ forallb lasting ks2 = true) by (rewrite Ek, forallb_app in La; apply andb_prop in La; exact La).
  destruct (steady_all _ _ _ _ _ _ (proj1 L1) St0 X1) as [[(Om&_) _ _] _]. destruct (late_all _ _ _ _ _ (proj2 L1) X2 Om) as (_&_&_&l&Ll&_).
  pose proof (few_fits _ Rg2 Fv2) as Ft. rewrite L2, Ll, <- app_assoc, events_app in Ft |- *. destruct (Sy (on_checker _ Om) (fits_app _ _ Ft)) as (_&_&[_ Rm]). rewrite X3 in Rm.
  apply stays_dead. apply (dd_unsat _ _ Rm).
Qed.
Print Assumptions C45_drat_file.

(** A refutation in this sense shows that no assignment satisfies the formula, wherever it comes from. *)
Theorem C45_refutation_sound : forall f ignore lines, Forall (fun e => DratSpec.no_zero (snd e)) lines ->
  DratSpec.drat_refutes ignore (map (map LratProofs.zlit) f) lines -> Spec.unsat f.
Proof.
  intros f ignore lines Z [V C] a. destruct (formula_holds a f) eqn:H; [|reflexivity]. exfalso.
  assert (K : DratSpec.consistent (LratReplay.ztrue a)) by (intros z NZ; apply LratReplay.ztrue_neg; exact NZ).
  assert (ZF : Forall DratSpec.no_zero (map (map LratProofs.zlit) f)).
  { apply Forall_map, Forall_forall. intros cl _ I. apply in_map_iff in I as (x&X&_). exact (proj1 (Forall_forall _ _) (LratProofs.zlit_nz [x]) _ (or_introl eq_refl) X). }
  assert (HF : Forall (fun C => existsb (LratReplay.ztrue a) C = true) (map (map LratProofs.zlit) f)).
  { apply Forall_map, Forall_forall. intros cl I. rewrite LratReplay.ztrue_clause. unfold formula_holds in H. rewrite forallb_forall in H. auto. }
  destruct (DratSpec.drat_sound ignore _ K lines _ Z ZF V HF) as [H1 H2]. apply (DratSpec.conflicts_sound _ [] _ K H2 H1); [intros l []|exact C].
Qed.
Print Assumptions C45_refutation_sound.

(** Two runs that meet the hypotheses: clauses are learned and deleted, the second call of [solve] only repeats the answer. *)
Definition C45_before : list call :=
  CSample 3 :: map CAdd [[P 0; P 1; P 6]; [P 0; M 1]; [M 0; P 2; P 5]; [M 0; P 2; M 5]; [M 0; M 2; P 5; P 7]; [M 0; M 2; M 5]; [M 7; M 5]; [M 6]; [P 6; P 8; M 8]; [M 7; P 5]].
Definition C45_run (binary : bool) : out (ctx * list answer) :=
  run_all 200 (CWriteProof (if binary then FBinaryDrat else FDrat) :: C45_before ++ [CSolve; CHide 9; CSolve] ++ [CCloseProof]) plain_ctx.
Definition C45_lines (binary : bool) : option (list (bool * list Z)) := after (C45_run binary) (fun c _ => LratSpec.drat_parse binary (p_out (c_pf c))) None.
Example C45_case : VarsBound.within_vars (C45_before ++ [CSolve; CHide 9; CSolve]) /\ forallb early_call C45_before = true /\ forallb lasting [CSolve; CHide 9; CSolve] = true /\
  (forall binary, after (C45_run binary) (fun c r => filter (fun a => match a with ASolved _ => true | _ => false end) r) [] = [ASolved false; ASolved false]) /\
  (forall binary, C45_lines binary = Some
    [(true, [1; 2]); (false, [1; 2; 7]); (true, [1]); (false, [1; -2]); (false, [1; 2]); (true, [3; 6]); (false, [3; 6; -1]); (true, [3; -6]); (false, [3; -6; -1]); (true, [-3; 6; 8]);
     (false, [-3; 6; -1; 8]); (true, [-3; -6]); (false, [-3; -6; -1]); (true, [3]); (true, [-6]); (true, [-8]); (true, [])]%Z).
Proof.
  split; [exists 10; split; [repeat (constructor; [repeat constructor|]); constructor|vm_compute; discriminate]|].
  split; [reflexivity|]. split; [reflexivity|]. split; intros []; vm_compute; reflexivity.
Qed.
(** Solving under assumptions panics: [C33_panics_iff_incremental]. *)
Example C45_incremental : run_all 200 [CWriteProof FDrat; CAdd [P 0; P 1]; CAssume [M 0]] plain_ctx = Panic PDrat /\ run_all 200 [CWriteProof FBinaryDrat; CAdd [P 0; P 1]; CSolve; CAdd [M 0]] plain_ctx = Panic PDrat.
Proof. split; vm_compute; reflexivity. Qed.
