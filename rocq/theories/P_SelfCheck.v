(** C43: the checker that runs inside the solver never rejects what the solver does. *)
From Coq Require Import Lia Arith PeanoNat Permutation Sorted ZArith ZifyBool ZifyNat ZifyN.
From Verif Require Import Spec Lit LitProofs BinFormat Hash HashProofs SortedLits F32 Vsids VsidsProofs VsidsWf Luby Config P_Config Search SearchBase Propagate P_Search ClauseDb DbProofs
  Analyze AnalyzeProofs Rup AnalyzeHints P_Hints SolverCtx CtxFrame VarsProofs Solver SolverInv SolverSimplify SolverAdd SolverLoad SolverFailed FailedHints SolverSearch SolverSolve CtxEvents P_Solver P_Proof
  ProofLog ProofSim ProofDerive ProofUnits ProofLoad ProofSearch.
From Verif Require P_Db SortedLitsProofs Checker CheckerSteps CheckerRun CheckerSafe CheckerNames CheckerUsers CheckerCount CheckerValid CtxRange VarsBound.
Local Open Scope N_scope.

(** * The names of the assumptions *)
(** A name of the user that stays in use keeps its meaning. *)
Definition gu_agree (c c' : ctx) : Prop := forall u g g', v_gu (c_v c) u = Some g -> v_gu (c_v c') u = Some g' -> g = g'.
Lemma kept_agree c c' : gu_kept c c' -> gu_agree c c'.
Proof. intros H u g g' E E'. specialize (H u g E). congruence. Qed.
Lemma change_mode_agree fr vis S U u m c : good fr vis S U c -> spec (change_mode u m c) (fun c' => gu_agree c c').
Proof.
  intros G. unfold change_mode. eapply spec_bind; [apply global_from_user_steps; apply base_base0; apply G|].
  intros [c1 g] (E & V). pose proof (vk_gu _ _ (vsteps_keep _ _ (vadds_steps _ _ V))) as K1. pose proof (vadds_good _ _ _ _ _ _ V G) as (B1 & _).
  eapply spec_bind; [apply set_sampling_mode_spec; [apply B1|exact (gu_alive _ _ _ (b_vars _ B1) E)]|]. intros [c2 r] Q. apply spec_ret. cbv zeta in Q.
  intros w h h' Ew Ew'. apply K1 in Ew. destruct Q as [(_ & -> & _)|(_ & _ & [(_ & _ & _ & Fr)|[(_ & _ & Fr)|(_ & _ & u' & v' & Eu' & Hd & Fr)]])].
  - congruence.
  - rewrite (frame_v _ _ Fr) in Ew'. cbn [cw_v c_v v_put set_data v_gu] in Ew'. congruence.
  - rewrite (frame_v _ _ Fr) in Ew'. cbn [cw_v c_v] in Ew'. unfold v_show, bind_user in Ew'. cbn [v_gu v_put set_data] in Ew'.
    destruct (N.eq_dec w (next_user (c_v c1))) as [->|NE]; [|rewrite upd_ne in Ew' by exact NE; congruence].
    destruct (next_user_free _ (b_vars _ B1)) as [Nu _]. congruence.
  - rewrite (frame_v _ _ Fr) in Ew'. cbn [cw_v c_v] in Ew'.
    assert (Eg : v_gu v' = upd (v_gu (c_v c1)) u' None) by (destruct Hd as [->|(_ & _ & ->)]; reflexivity). rewrite Eg in Ew'.
    destruct (N.eq_dec w u') as [->|NE]; [rewrite upd_eq in Ew'; discriminate|rewrite upd_ne in Ew' by exact NE; congruence].
Qed.
Lemma observe_kept n : forall g c, vars_ok (c_v c) -> spec (observe_loop n g c) (fun '(c', _) => gu_kept c c').
Proof.
  induction n as [|n IH]; intros g c OK; cbn [observe_loop]; [apply spec_ret; intros u h E; exact E|].
  destruct (negb (vd_deleted (v_data (c_v c) g)) && smode_eqb (vd_mode (v_data (c_v c) g)) Hide) eqn:E; [|apply IH; exact OK].
  apply andb_prop in E as [E1 E2]. apply negb_true_iff in E1.
  assert (Eh : vd_mode (v_data (c_v c) g) = Hide) by (destruct (vd_mode (v_data (c_v c) g)); auto; discriminate).
  eapply spec_bind; [apply set_sampling_mode_spec; [exact OK|exact E1]|]. intros [c1 r]. cbv zeta.
  intros [(E & _)|(NE & As & [(E & _)|[(_ & -> & Fr)|(E & _)]])]; try congruence.
  assert (OK1 : vars_ok (c_v c1)).
  { rewrite (frame_v _ _ Fr). cbn [cw_v c_v]. apply v_show_next_ok; [exact OK|discriminate|exact E1|exact Eh]. }
  eapply spec_bind; [apply (IH (g + 1) c1 OK1)|]. intros [c2 l] K. apply spec_ret. intros u h Eu. apply K.
  rewrite (frame_v _ _ Fr). cbn [cw_v c_v]. unfold v_show, bind_user. cbn [v_gu v_put set_data]. rewrite upd_ne; [exact Eu|].
  destruct (next_user_free _ OK) as [Nu _]. congruence.
Qed.

(** The assumptions as the checker knows them *)
Lemma rel_names U c c' es : (st_sat (c_st c') <> Unsat -> map (glob (c_v c')) U = map (glob (c_v c)) U) ->
  rel (map (glob (c_v c)) U) c' es -> rel (map (glob (c_v c')) U) c' es.
Proof.
  unfold rel, srel. destruct (st_sat (c_st c')); intros E [H1 H2]; (split; [exact H1|]); try exact H2; rewrite E by discriminate; exact H2.
Qed.
Lemma agree_names fr fr' vis vis' S S' U c c' : good fr vis S U c -> good fr' vis' S' U c' -> (st_sat (c_st c) = Unsat -> st_sat (c_st c') = Unsat) -> gu_agree c c' ->
  st_sat (c_st c') <> Unsat -> map (glob (c_v c')) U = map (glob (c_v c)) U.
Proof.
  intros (_ & _ & _ & G) (_ & _ & _ & G') M Ag Ns.
  assert (K : known (c_v c) U) by (destruct (st_sat (c_st c)); try apply G; exfalso; auto).
  assert (K' : known (c_v c') U) by (destruct (st_sat (c_st c')); try apply G'; congruence).
  apply map_ext_in. intros a I. unfold glob. specialize (K a I). specialize (K' a I).
  destruct (v_gu (c_v c) (lit_var a)) as [g|] eqn:E; [|congruence]. destruct (v_gu (c_v c') (lit_var a)) as [g'|] eqn:E'; [|congruence].
  rewrite (Ag _ _ _ E E'). reflexivity.
Qed.

(** * One call *)
Definition synced (U : list N) (c : ctx) : Prop := live c (rel (map (glob (c_v c)) U) c).
Lemma synced_agree fr fr' vis vis' S S' U c c' : good fr vis S U c -> good fr' vis' S' U c' -> (st_sat (c_st c) = Unsat -> st_sat (c_st c') = Unsat) -> gu_agree c c' ->
  live c' (rel (map (glob (c_v c)) U) c') -> synced U c'.
Proof. intros G G' M Ag L. eapply live_weaken; [exact L|]. intros es _. apply rel_names. eapply agree_names; eassumption. Qed.
Lemma take_live c P : live c P -> live (fst (take_error c)) P.
Proof.
  intros L. unfold take_error. destruct (st_error (c_st c)) as [e|] eqn:Er; cbn [fst]; [|exact L].
  destruct L as [J H]. split; [exact J|]. intros Ch FT. destruct (H Ch FT) as (X & _). congruence.
Qed.

Theorem run_sim fuel k vis S U c : good true vis S U c -> config_valid (c_cfg c) -> k <> CCheck -> synced U c ->
  csim (run fuel k c) (fun '(c', _) => synced (assumed_after k U) c').
Proof.
  intros G V Nc L. pose proof (good_tidy _ _ _ _ _ G) as Td. destruct k; cbn [run assumed_after]; try congruence.
  - (* a clause *)
    eapply csim_bind.
    { apply csim_spec; [apply (load_clause_spec true vis S U clause c G)|]. apply csim_post; [|apply (load_clause_sim true vis S U _ clause c G L)].
      intros c' E. exact E. }
    intros c' (G' & E & L' & Gu). apply csim_ret. eapply synced_agree; [exact G|exact G'| |apply kept_agree; exact Gu|exact L'].
    intros St. rewrite load_clause_rest, St in E. injection E as <-. exact St.
  - (* a new variable *)
    eapply (csim_bind _ _ (fun '((c1, _) : ctx * N) => synced U c1)); [|intros [c1 v] Q; apply csim_ret; exact Q]. unfold new_user_var. cbv zeta.
    assert (G1 : good true vis S U (set_empty c false)) by (eapply good_st; [|exact G]; exists (c_st (set_empty c false)), (c_pf c); split; reflexivity).
    assert (K1 : kept_rel (map (glob (c_v c)) U) (set_empty c false)) by (split; [exact (good_tidy _ _ _ _ _ G1)|]; eapply live_same; [| |exact L]; reflexivity).
    eapply csim_bind; [apply (gfu_sim _ _ false _ K1)|]. intros [c1 g] ([_ L1] & Va & _). apply csim_ret.
    pose proof (vsteps_keep _ _ (vadds_steps _ _ Va)) as Vk.
    eapply (synced_agree true true vis vis S S U c); [exact G|eapply vadds_good; eassumption|rewrite (vk_sat _ _ Vk); auto|apply kept_agree; exact (vk_gu _ _ Vk)|exact L1].
  - eapply csim_bind; [apply csim_spec; [apply spec_and; [apply (change_mode_good true vis S U v Witness c G)|apply (change_mode_agree true vis S U v Witness c G)]|apply (change_mode_sim _ v Witness c Td L)]|].
    intros c1 [[[St (S' & _ & G1)] Ag] L1]. apply csim_ret. eapply synced_agree; [exact G|exact G1|congruence|exact Ag|exact L1].
  - eapply csim_bind; [apply csim_spec; [apply spec_and; [apply (change_mode_good true vis S U v Sample c G)|apply (change_mode_agree true vis S U v Sample c G)]|apply (change_mode_sim _ v Sample c Td L)]|].
    intros c1 [[[St (S' & _ & G1)] Ag] L1]. apply csim_ret. eapply synced_agree; [exact G|exact G1|congruence|exact Ag|exact L1].
  - eapply csim_bind; [apply csim_spec; [apply spec_and; [apply (change_mode_good true vis S U v Hide c G)|apply (change_mode_agree true vis S U v Hide c G)]|apply (change_mode_sim _ v Hide c Td L)]|].
    intros c1 [[[St (S' & _ & G1)] Ag] L1]. apply csim_ret. eapply synced_agree; [exact G|exact G1|congruence|exact Ag|exact L1].
  - eapply csim_bind; [apply csim_spec; [apply spec_and; [apply (observe_good true vis U _ 0 S c G)|apply (observe_kept _ 0 c); apply G]|apply (observe_sim _ _ 0 c Td L)]|].
    intros [c1 l] [[(St & _ & _ & S' & _ & G1) Ag] L1]. apply csim_ret. eapply synced_agree; [exact G|exact G1|congruence|apply kept_agree; exact Ag|exact L1].
  - (* assumptions *)
    eapply csim_bind; [apply (set_assumptions_sim true vis S U _ lits c G L)|]. intros c' L'. apply csim_ret. exact L'.
  - (* solve *)
    destruct (good_progress _ _ _ _ _ G) as (F & A & P0).
    assert (P1 : progress True (sized c) (vis = true) S U F A c).
    { destruct P0 as (B & Vi & P0). split; [exact B|]. split; [exact Vi|]. revert P0. destruct (st_sat (c_st c)); unfold user_failed; intros P0; intuition. }
    assert (EA : st_sat (c_st c) <> Unsat -> A = map (glob (c_v c)) U).
    { intros Ns. destruct P1 as (_ & _ & P1). destruct (st_sat (c_st c)); try congruence; destruct P1 as (_ & (_ & -> & _) & _); reflexivity. }
    assert (L0 : live c (rel A c)).
    { eapply live_weaken; [exact L|]. intros es _. unfold rel, srel. destruct (st_sat (c_st c)) eqn:St; intros [H1 H2]; (split; [exact H1|]); try exact H2; rewrite EA by congruence; exact H2. }
    eapply csim_weaken; [apply csim_spec; [apply (solve_spec True (sized c) (vis = true) S U F A fuel c P1)|]; apply csim_post; [|apply (solve_sim (sized c) (vis = true) S U F A fuel c P1 L0)]|].
    + intros r E. exact E.
    + intros [c' a] [[P' _] [E L']]. eapply live_weaken; [exact L'|]. intros es _. unfold rel, srel. destruct P' as (_ & _ & P').
      destruct (st_sat (c_st c')) eqn:St'; intros [H1 H2]; (split; [exact H1|]); try exact H2; destruct P' as (_ & (_ & <- & _) & _); exact H2.
  - (* a proof file *)
    destruct (st_empty (c_st c)); [|discriminate]. apply csim_ret. destruct L as [J H]. split; [exact J|exact H].
  - (* the end of the proof file *)
    eapply csim_bind; [apply (close_live c _ (rel (map (glob (c_v c)) U) c) L)|].
    + intros es [H1 H2]. split; [apply names_plain; [exact Logic.I|exact H1]|].
      destruct (st_sat (c_st c)); [apply db_silent|apply db_silent|apply dead_silent|apply db_silent]; try exact Logic.I; exact H2.
    + intros c1 [Fr L1]. assert (L2 : synced U c1).
      { unfold synced. rewrite (frame_v _ _ Fr). eapply live_weaken; [exact L1|]. intros es _ R. rewrite <- (rel_frame _ _ _ Fr). exact R. }
      pose proof (take_live _ _ L2) as L3. pose proof (take_error_st c1) as T. destruct (take_error c1) as [c2 [e|]]; cbn [fst] in *; apply csim_ret;
        destruct T as (st & p & -> & Es); unfold synced, rel in *; cbn [cw_pf cw_st c_st c_v c_s c_d c_bin]; rewrite Es; exact L3.
  - (* configuration *)
    destruct (update_apply u (c_cfg c)) as [ok cfg] eqn:Eu. destruct ok; [|apply csim_ret; exact L].
    destruct (C38_update_never_panics u (c_cfg c) V) as (_ & D1 & D2). rewrite Eu in D1, D2. cbn [snd] in D1, D2. rewrite D1, D2. cbn [andb]. apply csim_ret.
    eapply live_same; [| |eapply live_weaken; [exact L|]]; [reflexivity|reflexivity|]. intros es _ R. exact R.
Qed.

(** * Histories *)
Definition not_check (k : call) : Prop := k <> CCheck.
Lemma single_next fuel k ks c c' a : no_single fuel (k :: ks) c -> run fuel k c = Ret (c', a) -> no_single fuel ks c' /\ lone c' = false.
Proof.
  intros Ns E. split.
  - intros ks1 ks2 c1 r l Ek R. apply (Ns (k :: ks1) ks2 c1 (a :: r) l); [rewrite Ek; reflexivity|]. cbn [run_all]. rewrite E. cbn [bind]. rewrite R. reflexivity.
  - assert (N0 : forall l, get_failed_core c' <> Some [l]) by (intros l; apply (Ns [k] ks c' [a] l eq_refl); cbn [run_all]; rewrite E; reflexivity).
    unfold lone. destruct (get_failed_core c') as [[|l [|]]|]; try reflexivity. exfalso. exact (N0 l eq_refl).
Qed.
Lemma run_all_sim fuel : forall ks vis S U c, good true vis S U c -> config_valid (c_cfg c) -> Forall not_check ks -> no_single fuel ks c -> synced U c ->
  csim (run_all fuel ks c) (fun '(c', _) => exists U', synced U' c').
Proof.
  induction ks as [|k ks IH]; intros vis S U c G V Nc Ns L; cbn [run_all]; [apply csim_ret; eauto|].
  inversion Nc as [|? ? N1 N2]; subst.
  eapply csim_bind.
  - apply csim_spec; [apply (run_spec fuel k true vis S U c G V)|]. apply csim_post; [apply (run_valid fuel k c V)|]. apply csim_post; [|apply (run_sim fuel k vis S U c G V N1 L)].
    intros r E. exact E.
  - intros [c1 a] (C1 & V1 & E1 & L1). cbn [fst] in V1. destruct (single_next _ _ _ _ _ _ Ns E1) as [Ns1 Lo]. destruct C1 as (S' & _ & G1 & _).
    unfold fresh_after in G1. rewrite Lo in G1. cbn [negb andb] in G1.
    eapply csim_bind; [apply (IH _ _ _ c1 G1 V1 N2 Ns1 L1)|]. intros [c2 r] Q. apply csim_ret. exact Q.
Qed.
(** Before the first use *)
Definition ready_to_check (c : ctx) : Prop := (exists S, good true true S [] c) /\ config_valid (c_cfg c) /\ p_log (c_pf c) = [] /\ st_error (c_st c) = None /\ rel [] c [].
Lemma setup_ready fuel k c c' a : setup k -> ready_to_check c -> run fuel k c = Ret (c', a) -> lone c' = false -> ready_to_check c' /\ p_judge (c_pf c') = p_judge (c_pf c).
Proof.
  intros Hk ([S G] & V & Lg & Er & R) E Lo.
  destruct (spec_get _ _ _ (run_spec fuel k true true _ _ c G V) E) as (S' & Me & G1 & _). pose proof (run_valid fuel k c V _ E) as V1. cbn [fst] in V1.
  unfold fresh_after in G1. rewrite Lo in G1. cbn [negb andb] in G1.
  assert (Q : (p_log (c_pf c') = [] /\ st_error (c_st c') = None /\ rel [] c' []) /\ p_judge (c_pf c') = p_judge (c_pf c)).
  { destruct k; try contradiction; cbn [run] in E.
    - destruct (st_empty (c_st c)); [|discriminate]. injection E as <- _. auto.
    - destruct (st_empty (c_st c)); [|discriminate]. injection E as <- _. cbn [cw_pf c_pf p_log p_judge]. rewrite Lg. destruct (p_checker (c_pf c)); auto.
    - destruct (update_apply u (c_cfg c)) as [[] cfg]; [|injection E as <- _; auto].
      destruct (_ && _); [|discriminate]. injection E as <- _. auto. }
  destruct Q as ((Q1 & Q2 & Q3) & Q4). split; [|exact Q4]. split; [|auto]. exists S'. destruct k; try contradiction; exact G1.
Qed.
Lemma setup_panic fuel k c p : setup k -> run fuel k c = Panic p -> p <> PSelfCheck.
Proof.
  intros Hk. destruct k; try contradiction; cbn [run].
  - destruct (st_empty (c_st c)); congruence.
  - destruct (st_empty (c_st c)); congruence.
  - destruct (update_apply u (c_cfg c)) as [[] cfg]; [|congruence]. destruct (_ && _); congruence.
Qed.
Lemma history_sim fuel ks2 : forall ks1 c, Forall setup ks1 -> Forall not_check ks2 -> within (p_judge (c_pf c)) -> ready_to_check c -> no_single fuel (ks1 ++ ks2) c ->
  csim (run_all fuel (ks1 ++ ks2) c) (fun '(c', _) => exists U, synced U c').
Proof.
  induction ks1 as [|k ks1 IH]; intros c F1 F2 J Rc Ns; cbn [app].
  - destruct Rc as ([S G] & V & Lg & Er & R). apply (run_all_sim fuel ks2 true S [] c G V F2 Ns). split; [exact J|]. intros _ _. rewrite Lg. split; [exact Er|]. split; [apply valid_nil|exact R].
  - inversion F1 as [|? ? F3 F4]; subst. cbn [run_all app] in *. destruct (run fuel k c) as [[c1 a]|p|] eqn:E; cbn [bind]; [|exact (setup_panic _ _ _ _ F3 E)|exact Logic.I].
    destruct (single_next _ _ _ _ _ _ Ns E) as [Ns1 Lo]. destruct (setup_ready _ _ _ _ _ F3 Rc E Lo) as [R1 J1].
    eapply csim_bind; [apply (IH c1 F4 F2); [rewrite J1; exact J|exact R1|exact Ns1]|]. intros [c2 r] Q. apply csim_ret. exact Q.
Qed.
Lemma default_ready pick judge io : ready_to_check (ctx_default pick judge io).
Proof.
  split; [eexists; apply default_good|]. split; [exact C38_default_valid|]. do 2 (split; [reflexivity|]). split.
  - constructor; try reflexivity.
    + intros g H. cbn in H. lia.
    + intros [|e es1] g es2 H; discriminate H.
  - constructor; try reflexivity. intros l. cbn. unfold gfix. cbn. split; [intros []|intros [_ H]; discriminate].
Qed.

(** * C43 *)
(** The checker never rejects a step: not in a history that enables the checker before anything else, in which no assumption
    failed on its own, and with a checker that is correct while its numbers do not overflow ([within]).  Missing for the full
    statement: histories with failed cores of one literal ([C43_self_check_refuted]) and checkers enabled
    later ([C34_late_checking_refuted]), for both of which it is false. *)
Theorem C43_self_check_partial : forall fuel pick judge io ks1 ks2, within judge -> Forall setup ks1 -> Forall not_check ks2 ->
  no_single fuel (ks1 ++ ks2) (ctx_default pick judge io) ->
  run_all fuel (ks1 ++ ks2) (ctx_default pick judge io) <> Panic PSelfCheck.
Proof.
  intros fuel pick judge io ks1 ks2 J F1 F2 Ns E. pose proof (history_sim fuel ks2 ks1 (ctx_default pick judge io) F1 F2 J (default_ready pick judge io) Ns) as H.
  rewrite E in H. apply H. reflexivity.
Qed.
Print Assumptions C43_self_check_partial.

(** What the checker was given is accepted, also by a checker that was not asked, if there are at most [Var::max_count] variables and
    less than 2^32 literals. *)
Notation few_vars := CtxRange.few_vars.
Lemma lit_few v l n : n <= max_count -> lit_var l < v -> v <= n -> l <= 2 * max_var + 1.
Proof. assert (max_count = max_var + 1) by reflexivity. rewrite lit_var_div. intros. lia. Qed.
Lemma few_fits c : CtxRange.ranged c -> few_vars c -> fits (events (p_log (c_pf c))).
Proof.
  intros [_ _ R] (F1&F2&F3). assert (M : max_count = max_var + 1 /\ 2 * max_var + 1 < 2^32 /\ max_var < 2^31) by (repeat split; reflexivity). destruct M as (M1&M2&M3).
  assert (L : forall l, Forall (fun x => lit_var x < v_glen (c_v c)) l -> CheckerSteps.lits_u32 l).
  { intros l. apply Forall_impl. intros x H. pose proof (lit_few _ _ _ F1 H (N.le_refl _)). lia. }
  apply Forall_forall. intros e I. unfold events in I. apply in_flat_map in I as (x&I&J). rewrite Forall_forall in R. specialize (R x I).
  destruct x as [l|s|]; [destruct J as [<-|[]]; split; [apply L; exact R|exact Logic.I]|destruct J as [<-|[]]|destruct J].
  unfold event_fits, CheckerRun.event_u32. destruct s as [g [x|]|g [x|]| | | | | | | | | | |]; cbn [CtxRange.event_in CtxRange.step_in CheckerSteps.step_u32] in *; (split; [|try exact Logic.I]); try exact Logic.I; try (apply L; tauto); try lia.
  apply Forall_forall. intros x J. apply in_map_iff in J as ([y h]&<-&J). rewrite Forall_forall in R. specialize (R _ J). cbn [fst] in *. destruct R as [R _]. pose proof (lit_few _ _ _ F1 R (N.le_refl _)). lia.
Qed.
(** There are few variables if the calls name few and hide few. *)
Lemma within_few fuel ks pick judge io c r : run_all fuel ks (ctx_default pick judge io) = Ret (c, r) -> VarsBound.within_vars ks -> few_vars c.
Proof. intros E (n&H&L). destruct (VarsBound.history_bnd n _ _ _ _ _ _ _ E H) as (A&B&C). unfold CtxRange.few_vars. lia. Qed.
Theorem C43_log_accepted_partial : forall fuel pick judge io ks1 ks2 c answers, within judge -> Forall setup ks1 -> Forall not_check ks2 ->
  no_single fuel (ks1 ++ ks2) (ctx_default pick judge io) ->
  run_all fuel (ks1 ++ ks2) (ctx_default pick judge io) = Ret (c, answers) ->
  p_checker (c_pf c) = true -> VarsBound.within_vars (ks1 ++ ks2) -> room (events (p_log (c_pf c))) -> checker_judge (p_log (c_pf c)) = VOk.
Proof.
  intros fuel pick judge io ks1 ks2 c answers J F1 F2 Ns E Ch Fv Rm. apply (within_few _ _ _ _ _ _ _ E) in Fv. pose proof (few_fits c (CtxRange.log_ranged _ _ _ _ _ _ _ E) Fv) as Ft.
  pose proof (history_sim fuel ks2 ks1 (ctx_default pick judge io) F1 F2 J (default_ready pick judge io) Ns) as H. rewrite E in H. destruct H as (U & _ & H).
  destruct (H Ch Ft) as (_ & Va & _). apply judge_ok; assumption.
Qed.
Print Assumptions C43_log_accepted_partial.

(** Without assumptions no core of one literal can fail. *)
Definition no_assume (k : call) : bool := match k with CAssume _ => false | _ => true end.
Lemma no_assume_single fuel ks pick judge io : forallb no_assume ks = true -> no_single fuel ks (ctx_default pick judge io).
Proof.
  intros H ks1 ks2 c1 answers l -> E X. rewrite forallb_app in H. apply andb_prop in H as [H _].
  assert (As : assumed ks1 = []).
  { unfold assumed. assert (Z : forall ks A, forallb no_assume ks = true -> fold_left (fun A k => match k with CAssume l => l | _ => A end) ks A = A).
    { induction ks as [|k ks IH]; intros A Hk; cbn [fold_left forallb] in *; [reflexivity|]. apply andb_prop in Hk as [H1 H2]. rewrite (IH _ H2). destruct k; reflexivity || discriminate. }
    apply Z. exact H. }
  destruct (history_good _ _ _ _ _ _ _ E) as (S & _ & _ & (fr & vis & _ & _ & G) & _). rewrite As in G. destruct G as (_ & _ & _ & G).
  unfold get_failed_core in X. destruct (st_sat (c_st c1)) eqn:St; try discriminate. destruct G as (_ & F & _ & _ & An). unfold answered in An. rewrite St in An.
  destruct An as [_ I]. injection X as X. rewrite X in I. exact (I l (or_introl eq_refl)).
Qed.
(** The whole of C43 for a solver that is used without assumptions *)
Theorem C43_no_assumptions : forall fuel pick judge io ks1 ks2, within judge -> Forall setup ks1 -> Forall not_check ks2 -> forallb no_assume (ks1 ++ ks2) = true ->
  run_all fuel (ks1 ++ ks2) (ctx_default pick judge io) <> Panic PSelfCheck /\
  forall c answers, run_all fuel (ks1 ++ ks2) (ctx_default pick judge io) = Ret (c, answers) ->
    p_checker (c_pf c) = true -> VarsBound.within_vars (ks1 ++ ks2) -> room (events (p_log (c_pf c))) -> checker_judge (p_log (c_pf c)) = VOk.
Proof.
  intros fuel pick judge io ks1 ks2 J F1 F2 H. pose proof (no_assume_single fuel _ pick judge io H) as Ns. split; [apply C43_self_check_partial; assumption|].
  intros c answers E. eapply C43_log_accepted_partial; eassumption.
Qed.
Print Assumptions C43_no_assumptions.

(** The checker of the model, asked only while the log fits *)
Definition lits_fit (l : list N) : bool := forallb (fun x => x <? 2^32) l.
Definition event_fit (e : event) : bool :=
  match e with
  | CheckerRun.Load l => lits_fit l
  | CheckerRun.Step s =>
      match s with
      | AddClause l | AtClause _ l _ | DeleteClause l _ | Model l | Assumptions l | FailedAssumptions l _ => lits_fit l
      | UnitClauses us => lits_fit (map fst us)
      | SolverVarName _ (Some x) => x <? max_count
      | DeleteVar v => v <? 2^31
      | _ => true
      end
  end.
Definition log_fits (log : list pevent) : bool := forallb event_fit (events log) && (CheckerSafe.history_size (events log) <? 2^32).
Definition careful_judge (log : list pevent) : verdict := if log_fits log then checker_judge log else VOk.
Lemma lits_fit_iff l : lits_fit l = true -> CheckerSteps.lits_u32 l.
Proof. intros H. apply Forall_forall. intros x I. unfold lits_fit in H. rewrite forallb_forall in H. apply N.ltb_lt. apply H. exact I. Qed.
Lemma log_fits_ok log : log_fits log = true -> fits (events log) /\ room (events log).
Proof.
  intros H. apply andb_prop in H as [H1 H2]. split; [|apply N.ltb_lt; exact H2]. apply Forall_forall. intros e I. rewrite forallb_forall in H1. specialize (H1 e I).
  destruct e as [l|s]; [split; [apply lits_fit_iff; exact H1|exact Logic.I]|]. unfold event_fits, CheckerRun.event_u32.
  destruct s as [g [x|]| | | | | | | | | | | |]; cbn [event_fit CheckerSteps.step_u32] in *; split; try exact Logic.I; try (apply lits_fit_iff; exact H1); apply N.ltb_lt; exact H1.
Qed.
Lemma careful_within : within careful_judge.
Proof. intros log H. unfold careful_judge in H. destruct (log_fits log) eqn:E; [|discriminate]. split; [apply log_fits_ok; exact E|exact H]. Qed.

(** A history that meets the hypotheses: hidden variables, failing assumptions, learned clauses, models, and in the end a contradiction *)
Definition checked_ctx : ctx := ctx_default (fun _ => 1%nat) careful_judge (fun _ => false).
Definition C43_history : list call :=
  C28_history3 ++ [CSolve; CHide 9; CAssume []; CSolve; CSample 3; CAdd [P 0; P 1]; CObserve; CAdd [P 0; M 1]; CAdd [M 0; P 2; P 5]; CAdd [M 0; P 2; M 5]; CSolve;
    CAdd [M 0; M 2; P 5]; CCloseProof; CAdd [M 0; M 2; M 5]; CSolve].
Example C43_case : no_single 200 (CCheck :: C43_history) checked_ctx /\ VarsBound.within_vars (CCheck :: C43_history) /\
  after (run_all 200 (CCheck :: C43_history) checked_ctx) (fun c r => (filter (fun a => match a with ASolved _ => true | _ => false end) r, p_checker (c_pf c), log_fits (p_log (c_pf c)), length (p_log (c_pf c))))
    ([], false, false, 0%nat)
    = ([ASolved false; ASolved false; ASolved false; ASolved true; ASolved true; ASolved false], true, true, 78%nat).
Proof.
  split; [apply single_free_none; vm_compute; reflexivity|]. split; [|vm_compute; reflexivity].
  exists 10. split; [repeat (constructor; [repeat constructor|]); constructor|vm_compute; discriminate].
Qed.

(** A failed core of one literal comes first: the next failed core is too small, and the checker rejects it. *)
Theorem C43_self_check_refuted : exists fuel ks,
  Forall not_check ks /\ run_all fuel (CCheck :: ks) checked_ctx = Panic PSelfCheck /\
  exists c answers, run_all fuel ks checked_ctx = Ret (c, answers) /\ last answers ANone = ASolved false.
Proof.
  exists 200%nat, C28_history. split; [repeat (apply Forall_cons; [discriminate|]); apply Forall_nil|]. split; [vm_compute; reflexivity|].
  assert (X : after (run_all 200 C28_history checked_ctx) (fun _ r => last r ANone) ANone = ASolved false) by (vm_compute; reflexivity).
  destruct (run_all 200 C28_history checked_ctx) as [[c answers]| |]; [|discriminate X..]. exists c, answers. split; [reflexivity|exact X].
Qed.
Print Assumptions C43_self_check_refuted.
