(** What a solver with a checker whose processors never fail sends to it: before the first call of
    [solve] the clauses of the formula, names, assumptions and deletions of satisfied clauses;
    later no clauses of the formula, and the end of the proof only when it is closed. *)
From Coq Require Import Lia Arith PeanoNat Permutation Sorted ZArith ZifyBool ZifyNat ZifyN.
From Verif Require Import Spec Lit LitProofs BinFormat Hash HashProofs SortedLits F32 Vsids VsidsProofs VsidsWf Luby Config P_Config Search SearchBase Propagate P_Search ClauseDb DbProofs
  Analyze AnalyzeProofs Rup AnalyzeHints P_Hints SolverCtx CtxFrame VarsProofs Solver SolverInv SolverSimplify SolverAdd SolverLoad SolverFailed FailedHints SolverSearch SolverSolve CtxEvents P_Solver P_Proof
  ProofLog ProofSim ProofDerive ProofUnits ProofLoad ProofSearch P_SelfCheck.
From Verif Require P_Db SortedLitsProofs Checker CheckerSteps CheckerRun CheckerSafe CheckerNames CheckerUsers CheckerCount CheckerValid ProofReorder.
Local Open Scope N_scope.
Notation early := ProofReorder.early.
Notation loads_of := ProofReorder.loads_of.
Notation steps_of := ProofReorder.steps_of.

Lemma events_app a b : events (a ++ b) = events a ++ events b.
Proof. apply flat_map_app. Qed.
Lemma loads_app a b : loads_of (a ++ b) = loads_of a ++ loads_of b.
Proof. apply flat_map_app. Qed.
Lemma steps_app a b : steps_of (a ++ b) = steps_of a ++ steps_of b.
Proof. apply flat_map_app. Qed.
Lemma steps_events l : steps_of (events l) = steps l.
Proof. induction l as [|[cl|s|] l IH]; [reflexivity|exact IH|cbn; f_equal; exact IH|exact IH]. Qed.

(** * A checker whose processors never fail *)
Record on (c : ctx) : Prop := {
  on_checker : p_checker (c_pf c) = true;
  on_judge : forall l, p_judge (c_pf c) l <> VProcessor;
  on_io : forall b, p_io (c_pf c) b = false;
  on_err : st_error (c_st c) = None }.
Lemma on_eq c c' : c_pf c' = c_pf c -> st_error (c_st c') = st_error (c_st c) -> on c -> on c'.
Proof. intros E1 E2 [A B C D]. constructor; rewrite ?E1, ?E2; assumption. Qed.
Lemma step_on sv s c c' : on c -> add_step sv s c = Ret c' -> exists s' p, (if sv then map_step (v_gs (c_v c)) s else Some s) = Some s' /\
  c' = cw_pf c p /\ on c' /\ p_log p = p_log (c_pf c) ++ [EvStep s'].
Proof.
  intros [A B C D] E. destruct (add_step_cases _ _ _ _ E) as [(->&[H|H])|(_&_&s'&p&bytes&M&W1&W2&H)]; [congruence|unfold p_active in H; rewrite A in H; discriminate|].
  cbv zeta in H. destruct H as [(H&_)|[(H&_)|[(_&_&->)|(_&H&_)]]]; [rewrite C in H; discriminate|congruence| |apply B in H; destruct H].
  assert (K : p_log p = p_log (c_pf c) /\ p_judge p = p_judge (c_pf c) /\ p_checker p = p_checker (c_pf c) /\ p_io p = p_io (c_pf c)).
  { destruct (p_format (c_pf c)) as [[]|] eqn:F; try (rewrite (W2 ltac:(discriminate)); auto; fail). destruct (write_keeps _ _ _ _ _ (W1 eq_refl)) as (K1&K2&K3&_&K5). auto. }
  destruct K as (K1&K2&K3&K4). exists s', (p_push (p_write p bytes) (EvStep s')). split; [exact M|]. split; [reflexivity|]. split; [|cbn; rewrite K1; reflexivity].
  constructor; cbn [cw_pf c_pf c_st p_push p_write p_checker p_judge p_io]; [congruence|rewrite K2; exact B|rewrite K4; exact C|exact D].
Qed.
Lemma step_format sv s c c' : on c -> add_step sv s c = Ret c' -> p_format (c_pf c') = p_format (c_pf c).
Proof.
  intros [A B C D] E. destruct (add_step_cases _ _ _ _ E) as [(->&_)|(_&_&s'&p&bytes&M&W1&W2&H)]; [reflexivity|].
  cbv zeta in H. destruct H as [(H&_)|[(H&_)|[(_&_&->)|(_&H&_)]]]; [rewrite C in H; discriminate|congruence| |apply B in H; destruct H]. cbn [cw_pf c_pf p_push p_write p_format].
  destruct (p_format (c_pf c)) as [[]|] eqn:F; try (rewrite (W2 ltac:(discriminate)); exact F). destruct (write_keeps _ _ _ _ _ (W1 eq_refl)) as (_&_&_&K&_). congruence.
Qed.
Lemma ask_on e c c' : on c -> ask_checker c e = Ret c' -> c' = cw_pf c (p_push (c_pf c) e) /\ on c'.
Proof.
  intros [A B C D] E. unfold ask_checker in E. cbn [handle_check cw_pf c_pf p_push p_judge] in E. destruct (p_judge (c_pf c) _) eqn:J; [injection E as <-; split; [reflexivity|constructor; assumption]|apply B in J; destruct J|discriminate].
Qed.

(** * Later *)
Definition late (c c' : ctx) : Prop := on c -> on c' /\ (st_invoked (c_st c) = true -> st_invoked (c_st c') = true) /\ p_format (c_pf c') = p_format (c_pf c) /\
  exists l, p_log (c_pf c') = p_log (c_pf c) ++ l /\ ~ In End (steps l) /\ (st_invoked (c_st c) = true -> loads_of (events l) = []).
Lemma late_refl c : late c c.
Proof. intros O. split; [exact O|]. split; [auto|]. split; [reflexivity|]. exists []. rewrite app_nil_r. auto. Qed.
Lemma steps_list_app a b : steps (a ++ b) = steps a ++ steps b.
Proof. apply flat_map_app. Qed.
Lemma late_trans a b c : late a b -> late b c -> late a c.
Proof.
  intros H1 H2 O. destruct (H1 O) as (O1&I1&P1&l1&L1&E1&F1). destruct (H2 O1) as (O2&I2&P2&l2&L2&E2&F2). split; [exact O2|]. split; [auto|]. split; [congruence|]. exists (l1 ++ l2).
  split; [rewrite L2, L1, app_assoc; reflexivity|]. split; [rewrite steps_list_app, in_app_iff; tauto|]. intros I. rewrite events_app, loads_app, (F1 I), (F2 (I1 I)). reflexivity.
Qed.
Lemma late_same c c' : c_pf c' = c_pf c -> st_error (c_st c') = st_error (c_st c) -> (st_invoked (c_st c) = true -> st_invoked (c_st c') = true) -> late c c'.
Proof. intros E1 E2 E3 O. split; [eapply on_eq; eassumption|]. split; [exact E3|]. split; [congruence|]. exists []. rewrite E1, app_nil_r. auto. Qed.
Lemma late_step sv s c c' : s <> End -> add_step sv s c = Ret c' -> late c c'.
Proof.
  intros NE E O. pose proof (step_format _ _ _ _ O E) as SF. destruct (step_on _ _ _ _ O E) as (s'&p&M&->&O'&L). split; [exact O'|]. split; [auto|]. split; [exact SF|]. exists [EvStep s']. split; [exact L|]. split; [|reflexivity].
  intros [H|[]]. subst s'. destruct sv; [|congruence]. destruct s; cbn [map_step] in M; try discriminate; try congruence; try (destruct (map_lits _ _); discriminate).
  destruct (map_units _ _); discriminate.
Qed.
Lemma late_ev1 f c c' : ev1 f c c' -> late c c'.
Proof.
  intros H. destruct H as [c c' (_&E1&E2&E3&_)|c x _|c u _|sv s c c' N _ E|cl c c' Ch E I|c n|c c1 c' g x (_&E1&E2&E3&_) E|c c1 c' g x (_&E1&E2&E3&_) E].
  - apply late_same; [exact E1|exact E2|congruence].
  - apply late_same; auto.
  - apply late_same; auto.
  - eapply late_step; [|exact E]. intros ->. discriminate.
  - intros O. destruct (ask_on _ _ _ O E) as [-> O']. split; [exact O'|]. split; [auto|]. split; [reflexivity|]. exists [EvLoad cl]. split; [reflexivity|]. split; [intros []|congruence].
  - intros O. split; [destruct O; constructor; assumption|]. split; [auto|]. split; [reflexivity|]. exists []. rewrite app_nil_r. auto.
  - eapply late_trans; [|eapply late_step; [|exact E]; discriminate]. apply late_same; [exact E1|exact E2|congruence].
  - eapply late_trans; [|eapply late_step; [|exact E]; discriminate]. apply late_same; [exact E1|exact E2|congruence].
Qed.
Lemma late_ev f c c' : ev f c c' -> late c c'.
Proof. induction 1; [apply late_refl|]. eapply late_trans; [eapply late_ev1; eassumption|assumption]. Qed.
Lemma flush_on c : on c -> flush_proof c = c.
Proof. intros [A B C D]. unfold flush_proof, handle_io. destruct (p_format (c_pf c)); [rewrite C|]; reflexivity. Qed.
Lemma late_solve fuel c c' a : run fuel CSolve c = Ret (c', a) -> late (set_invoked c true) c'.
Proof.
  intros E. cbn [run] in E. unfold solve in E. cbv zeta in E. destruct (st_invalid _); [discriminate|]. destruct (schedule_loop fuel fuel (set_invoked c true)) as [c1| |] eqn:E1; cbn [bind] in E; try discriminate.
  eapply late_trans; [apply (late_ev true), (t_schedule_loop _ _ _ _ E1)|].
  intros O. unfold solve_finished in E. cbv zeta in E. rewrite flush_on in E by exact O. rewrite (on_checker _ O) in E.
  destruct (ask_checker c1 EvDelayed) as [c2| |] eqn:E2; try discriminate. destruct (ask_on _ _ _ O E2) as [-> O2]. cbn [bind] in E. unfold take_error in E. rewrite (on_err _ O2) in E. injection E as <- _.
  split; [exact O2|]. split; [auto|]. split; [reflexivity|]. exists [EvDelayed]. split; [reflexivity|]. split; [intros []|reflexivity].
Qed.
Lemma late_run fuel k c c' a : k <> CCloseProof -> k <> CCheck -> (forall f, k <> CWriteProof f) -> run fuel k c = Ret (c', a) -> late c c'.
Proof.
  intros N1 N2 N3 E. assert (K : CtxEvents.plain k = true \/ k = CSolve) by (destruct k; auto; exfalso; first [congruence | eapply N3; reflexivity]). destruct K as [K| ->]; [apply (late_ev true), (t_run fuel k c K _ E)|].
  eapply late_trans; [apply (late_same c (set_invoked c true)); auto|]. eapply late_solve. exact E.
Qed.
Lemma run_all_app fuel ks1 ks2 : forall c c' r, run_all fuel (ks1 ++ ks2) c = Ret (c', r) -> exists c1 r1 r2, run_all fuel ks1 c = Ret (c1, r1) /\ run_all fuel ks2 c1 = Ret (c', r2) /\ r = r1 ++ r2.
Proof.
  induction ks1 as [|k ks1 IH]; intros c c' r E; cbn [app run_all] in *; [exists c, [], r; auto|].
  destruct (run fuel k c) as [[c1 a]| |]; cbn [bind] in *; try discriminate. destruct (run_all fuel (ks1 ++ ks2) c1) as [[c2 r2]| |] eqn:E2; cbn [bind] in *; try discriminate.
  injection E as <- <-. destruct (IH _ _ _ E2) as (c3&r3&r4&A&B&->). rewrite A. cbn [bind]. exists c3, (a :: r3), r4. auto.
Qed.
Definition lasting (k : call) : bool := match k with CWriteProof _ | CCloseProof | CCheck => false | _ => true end.
Lemma late_all fuel ks : forall c c' r, forallb lasting ks = true -> run_all fuel ks c = Ret (c', r) -> late c c'.
Proof.
  induction ks as [|k ks IH]; intros c c' r F E; cbn [run_all] in E; [injection E as <- _; apply late_refl|]. cbn [forallb] in F. apply andb_prop in F as [F1 F2].
  destruct (run fuel k c) as [[c1 a]| |] eqn:E1; cbn [bind] in E; try discriminate. destruct (run_all fuel ks c1) as [[c2 r2]| |] eqn:E2; cbn [bind] in E; try discriminate. injection E as <- _.
  eapply late_trans; [apply (late_run fuel k c c1 a); [destruct k; discriminate..|exact E1]|apply (IH _ _ _ F2 E2)].
Qed.

(** * Before the first call of [solve] *)
Record first (c : ctx) : Prop := {
  fi_on : on c;
  fi_inv : st_invoked (c_st c) = false;
  fi_gu : forall u g, v_gu (c_v c) u = Some g -> g = u;
  fi_alive : forall g, v_gu (c_v c) g = None -> vd_deleted (v_data (c_v c) g) = true;
  fi_mode : forall g, vd_deleted (v_data (c_v c) g) = false -> vd_mode (v_data (c_v c) g) <> Hide }.
Definition is_early (e : pevent) : Prop := match e with EvStep s => early s = true | _ => False end.
Definition grows (c c' : ctx) : Prop := first c -> first c' /\ (st_sat (c_st c) = Unsat -> st_sat (c_st c') = Unsat) /\
  exists l, p_log (c_pf c') = p_log (c_pf c) ++ l /\ Forall is_early l.
Lemma grows_refl c : grows c c.
Proof. intros F. split; [exact F|]. split; [auto|]. exists []. rewrite app_nil_r. auto. Qed.
Lemma grows_trans a b c : grows a b -> grows b c -> grows a c.
Proof.
  intros H1 H2 F. destruct (H1 F) as (F1&U1&l1&L1&E1). destruct (H2 F1) as (F2&U2&l2&L2&E2). split; [exact F2|]. split; [auto|]. exists (l1 ++ l2). split; [rewrite L2, L1, app_assoc; reflexivity|apply Forall_app; auto].
Qed.
Lemma grows_same c c' : c_pf c' = c_pf c -> st_error (c_st c') = st_error (c_st c) -> st_invoked (c_st c') = st_invoked (c_st c) -> v_gu (c_v c') = v_gu (c_v c) ->
  (forall g, vd_deleted (v_data (c_v c') g) = vd_deleted (v_data (c_v c) g) /\ (vd_mode (v_data (c_v c') g) = Hide -> vd_mode (v_data (c_v c) g) = Hide)) -> (st_sat (c_st c) = Unsat -> st_sat (c_st c') = Unsat) -> grows c c'.
Proof.
  intros E1 E2 E3 E4 E5 E6 [A B C D M]. split; [constructor|split; [exact E6|exists []; rewrite E1, app_nil_r; auto]].
  - eapply on_eq; eassumption. - congruence. - rewrite E4. exact C. - intros g. rewrite E4, (proj1 (E5 g)). apply D.
  - intros g. rewrite (proj1 (E5 g)). intros H1 H2. apply (M g H1), (E5 g), H2.
Qed.
Lemma map_early gs s s' : map_step gs s = Some s' -> early s' = early s.
Proof.
  intros M. destruct s; cbn [map_step] in M; try (destruct (map_lits _ _); [|discriminate]); try (destruct (map_units _ _); [|discriminate]); injection M as <-; reflexivity.
Qed.
Lemma grows_step sv s c c' : early s = true -> add_step sv s c = Ret c' -> grows c c'.
Proof.
  intros E H [A B C D X]. destruct (step_on _ _ _ _ A H) as (s'&p&M&->&O'&L). split; [constructor; assumption|]. split; [auto|]. exists [EvStep s']. split; [exact L|]. constructor; [|constructor].
  cbn. destruct sv; [rewrite (map_early _ _ _ M); exact E|injection M as <-; exact E].
Qed.
Definition gp (c : ctx) (m : out ctx) : Prop := post m (fun c' => grows c c').
Definition gp2 {A} (c : ctx) (m : out (ctx * A)) : Prop := post m (fun r => grows c (fst r)).
Lemma gp_bind {B} (m : out ctx) (f : ctx -> out B) c Q : gp c m -> (forall c', grows c c' -> post (f c') Q) -> post (bind m f) Q.
Proof. apply post_bind. Qed.
Lemma gp_bind2 {A B} (m : out (ctx * A)) (f : ctx * A -> out B) c Q : gp2 c m -> (forall c' a, grows c c' -> post (f (c', a)) Q) -> post (bind m f) Q.
Proof. intros H K. eapply post_bind; [exact H|]. intros [c' a] G. apply K, G. Qed.
Lemma gp_ret c c' : grows c c' -> gp c (Ret c').
Proof. intros H. apply post_ret. exact H. Qed.
Lemma gp_ret2 {A} c c' (a : A) : grows c c' -> gp2 c (Ret (c', a)).
Proof. intros H. apply post_ret. exact H. Qed.
Lemma gp_seq c c1 m : grows c c1 -> gp c1 m -> gp c m.
Proof. intros H K a E. eapply grows_trans; [exact H|apply (K a E)]. Qed.
Lemma gp_seq2 {A} c c1 (m : out (ctx * A)) : grows c c1 -> gp2 c1 m -> gp2 c m.
Proof. intros H K a E. eapply grows_trans; [exact H|apply (K a E)]. Qed.
Ltac gsame := apply grows_same; try reflexivity; first [intros ?; split; [reflexivity|auto; fail] | cbn; auto; congruence].

Lemma g_user1 u b c : gp2 c (global_from_user1 u b c).
Proof.
  unfold global_from_user1. cbv zeta. destruct (v_gu (c_v c) u) eqn:E; [destruct (_ && _); [apply post_panic|apply gp_ret2, grows_refl]|].
  set (g := if u <? v_glen (c_v c) then _ else u). match goal with |- gp2 _ (bind (add_step _ _ (cw_v c ?v)) _) => set (v1 := v) end.
  eapply post_bind with (P := fun c' => grows c c'); [|intros c' H; apply gp_ret2, H].
  intros c' H F. assert (G : g = u).
  { unfold g. destruct (u <? v_glen (c_v c)); [|reflexivity]. rewrite (fi_alive _ F u E). reflexivity. }
  assert (F1 : first (cw_v c v1)).
  { pose proof F as [A B C D X]. constructor; [apply (on_eq c); [reflexivity|reflexivity|exact A]|exact B|..]; unfold v1; cbn [cw_v c_v bind_user v_gu v_data]; rewrite G.
    - intros x y. unfold upd. destruct (N.eqb_spec x u); [congruence|apply C].
    - intros x. unfold upd. destruct (N.eqb_spec x u); [discriminate|]. apply D.
    - intros x. unfold upd. destruct (N.eqb_spec x u); [intros _; discriminate|]. apply X. }
  destruct (grows_step false (UserVarName g (Some u)) _ _ eq_refl H F1) as (F2&US&L). split; [exact F2|]. split; [exact US|exact L].
Qed.
Lemma g_fill n : forall c, gp c (fill_users n c).
Proof.
  induction n as [|n IH]; intros c; cbn [fill_users]; [apply gp_ret, grows_refl|]. eapply gp_bind2; [apply g_user1|]. intros c' _ G. eapply gp_seq; [exact G|apply IH].
Qed.
Lemma g_user u b c : gp2 c (global_from_user u b c).
Proof. unfold global_from_user. eapply gp_bind; [apply g_fill|]. intros c' G. eapply gp_seq2; [exact G|apply g_user1]. Qed.
Lemma g_solver g c : gp2 c (solver_from_global g c).
Proof.
  unfold solver_from_global. cbv zeta. destruct (v_sg (c_v c) g); [apply gp_ret2, grows_refl|].
  eapply gp_bind with (c := c).
  - unfold initialize_solver_var. cbv zeta. destruct (vsids_reset _ _); [|apply post_panic]. apply gp_ret. gsame.
  - intros c1 G1. eapply gp_bind with (c := c); [|intros c2 G2; apply gp_ret2, G2]. eapply gp_seq; [exact G1|]. intros c2 E. eapply grows_step; [|exact E]; reflexivity.
Qed.
Lemma g_lits b l : forall c, gp2 c (solver_from_user_lits l b c).
Proof.
  induction l as [|x l IH]; intros c; cbn [solver_from_user_lits]; [apply gp_ret2, grows_refl|].
  eapply gp_bind2 with (c := c). { unfold solver_from_user. eapply gp_bind2; [apply g_user|]. intros c1 g G. eapply gp_seq2; [exact G|apply g_solver]. }
  intros c1 y G. eapply gp_bind2 with (c := c); [eapply gp_seq2; [exact G|apply IH]|]. intros c2 r G2. apply gp_ret2, G2.
Qed.
Lemma g_new c : gp2 c (new_user_var c).
Proof. unfold new_user_var. cbv zeta. eapply gp_bind2; [apply g_user|]. intros c1 _ G. apply gp_ret2, G. Qed.
Definition keeps_alive (f : vdata -> vdata) : Prop := forall d, vd_deleted (f d) = vd_deleted d /\ vd_mode (f d) = vd_mode d.
Lemma g_data x f c : keeps_alive f -> gp c (map_data_solver x f c).
Proof.
  intros K. unfold map_data_solver. destruct (v_gs (c_v c) x) as [g|]; [|apply post_panic]. apply gp_ret. apply grows_same; try reflexivity; [|auto].
  intros h. cbn [cw_v c_v set_data v_data]. unfold upd. destruct (N.eqb_spec h g) as [->|]; [destruct (K (v_data (c_v c) g)) as [K1 K2]; rewrite K1, K2; auto|auto].
Qed.
Lemma g_data_lits f l : keeps_alive f -> forall c, gp c (map_data_lits l f c).
Proof.
  intros K. induction l as [|x l IH]; intros c; cbn [map_data_lits]; [apply gp_ret, grows_refl|]. eapply gp_bind; [apply g_data, K|]. intros c1 G. eapply gp_seq; [exact G|apply IH].
Qed.
Lemma back_grows n c : grows c (backtrack_to n c).
Proof. unfold backtrack_to. destruct (backtrack _ _ _). gsame. Qed.
Lemma full_grows c : grows c (full_restart c).
Proof. unfold full_restart. eapply grows_trans; [|apply back_grows]. gsame. Qed.
Lemma g_db h l c : gp2 c (db_add_clause h l c).
Proof. unfold db_add_clause. destruct (add_long _ _ _ _) as [[s d] x]. destruct (d_full d); [apply post_panic|]. apply gp_ret2. gsame. Qed.
Lemma g_assume l c : gp c (set_assumptions l c).
Proof.
  unfold set_assumptions. cbv zeta. set (c1 := match st_sat (c_st (full_restart c)) with Unsat => full_restart c | _ => _ end).
  assert (G1 : grows c c1) by (eapply grows_trans; [apply full_grows|]; unfold c1; destruct (st_sat _) eqn:St; [gsame..|apply grows_refl|gsame]). clearbody c1.
  eapply gp_bind with (c := c); [eapply gp_seq; [exact G1|apply g_data_lits; intros d; split; reflexivity]|]. intros c2 G2.
  eapply gp_bind2 with (c := c); [eapply gp_seq2; [exact G2|apply g_lits]|]. intros c3 r G3.
  eapply gp_bind with (c := c); [eapply gp_seq; [|apply g_data_lits; intros d; split; reflexivity]|]. { eapply grows_trans; [exact G3|]. gsame. }
  intros c4 G4. eapply gp_seq; [exact G4|]. intros c5 E. eapply grows_step; [|exact E]; reflexivity.
Qed.
Lemma g_mode u m c : m <> Hide -> gp c (change_mode u m c).
Proof.
  intros NH. unfold change_mode. eapply gp_bind2 with (c := c); [apply g_user|]. intros c1 g G1. eapply gp_bind2 with (c := c); [|intros c2 _ G2; apply gp_ret, G2].
  eapply gp_seq2; [exact G1|]. unfold set_sampling_mode. cbv zeta. destruct (vd_deleted _) eqn:De; [apply post_panic|]. destruct (vd_assumed _); [apply post_panic|].
  destruct (smode_eqb (vd_mode _) m) eqn:Em; [apply gp_ret2, grows_refl|].
  assert (Hm : smode_eqb m Hide = false) by (destruct m; try reflexivity; congruence). rewrite Hm.
  assert (GS : grows c1 (cw_v c1 (set_data (c_v c1) (upd (v_data (c_v c1)) g (vd_set_mode (v_data (c_v c1) g) m))))).
  { apply grows_same; try reflexivity; [|auto]. intros h. cbn [cw_v c_v set_data v_data]. unfold upd. destruct (N.eqb_spec h g) as [->|]; [|auto]. cbn. split; [reflexivity|congruence]. }
  eapply gp_bind with (c := c1); [eapply gp_seq; [exact GS|intros c5 E; eapply grows_step; [|exact E]; reflexivity]|].
  intros c2 G2. destruct (smode_eqb (vd_mode _) Hide) eqn:Eh; [|apply gp_ret2, G2].
  intros r E F. exfalso. apply (fi_mode _ F g De). destruct (vd_mode _); try reflexivity; discriminate.
Qed.

(** * Clauses of the formula *)
Lemma NoDup_map_inj {A B} (f : A -> B) l : (forall x y, In x l -> In y l -> f x = f y -> x = y) -> NoDup l -> NoDup (map f l).
Proof.
  intros H D. induction D as [|x l N D IH]; cbn [map]; constructor.
  - intros I. apply in_map_iff in I as (y&E&I). apply N. rewrite (H x y); [exact I|left; reflexivity|right; exact I|symmetry; exact E].
  - apply IH. intros y z I J. apply H; right; assumption.
Qed.
Lemma sorted_lt_nodup l : StronglySorted N.lt l -> NoDup l.
Proof. induction 1 as [|x l S IH F]; constructor; [|exact IH]. intros I. rewrite Forall_forall in F. specialize (F x I). lia. Qed.
Definition sends (C cl : list N) : Prop := ProofReorder.same_lits C cl /\ NoDup cl.
Definition loaded (C : list N) (c c' : ctx) : Prop := first c -> first c' /\
  exists l1 cl l2, p_log (c_pf c') = p_log (c_pf c) ++ l1 ++ [EvLoad cl] ++ l2 /\ Forall is_early l1 /\ Forall is_early l2 /\ sends C cl.
Lemma glob_first c l : first c -> glob (c_v c) l = l.
Proof. intros F. unfold glob. destruct (v_gu (c_v c) (lit_var l)) as [g|] eqn:E; [|reflexivity]. rewrite (fi_gu _ F _ _ E). apply lo_eta. Qed.
Lemma g_add_clause C r c c' : first c -> vars_ok (c_v c) -> Forall2 (renames (c_v c)) (map (glob (c_v c)) C) r -> proof_add_clause (dedup_n (sort_n r)) c = Ret c' ->
  first c' /\ exists cl, p_log (c_pf c') = p_log (c_pf c) ++ [EvLoad cl] /\ sends C cl.
Proof.
  intros F OK R E. unfold proof_add_clause in E. rewrite (fi_inv _ F), (on_checker _ (fi_on _ F)) in E.
  destruct (map_lits (v_gs (c_v c)) (dedup_n (sort_n r))) as [cl|] eqn:M; [|discriminate]. apply map_lits_gl in M.
  destruct (ask_checker c (EvLoad cl)) as [c1| |] eqn:Ea; try discriminate. destruct (ask_on _ _ _ (fi_on _ F) Ea) as [-> O1]. cbn [bind] in E.
  assert (S : sends C cl).
  { split.
    2: { rewrite <- M. apply NoDup_map_inj.
      - assert (NM : forall x, In x r -> v_gs (c_v c) (lit_var x) <> None) by (clear - R; induction R as [|u x l r [E _] _ IH]; [intros y []|intros y [<-|I]; [congruence|auto]]).
        intros x y Ix Iy. apply (proj1 (dedup_in _ _)) in Ix, Iy. apply (proj1 (sort_in _ _)) in Ix, Iy. apply NM in Ix, Iy. unfold gl.
        destruct (v_gs (c_v c) (lit_var x)) as [gx|] eqn:Ex; [|congruence]. destruct (v_gs (c_v c) (lit_var y)) as [gy|] eqn:Ey; [|congruence]. intros H.
        assert (HV : lit_var x = lit_var y). { apply (f_equal lit_var) in H as HV. rewrite !lo_var in HV. subst gy. apply (vo_sg _ OK) in Ex, Ey. congruence. }
        apply (f_equal is_positive) in H. rewrite !lo_pos in H. rewrite <- (lo_eta x), <- (lo_eta y), HV, H. reflexivity.
      - apply sorted_lt_nodup, dedup_sorted, sort_sorted. }
    intros l. rewrite <- M. unfold gls. rewrite in_map_iff.
    pose proof (renames_gls _ _ _ R) as G. unfold gls in G.
    assert (GC : map (glob (c_v c)) C = C). { rewrite <- (map_id C) at 2. apply map_ext. intros y. apply glob_first, F. }
    rewrite GC in G. rewrite <- G at 1. rewrite in_map_iff. split; intros (x&X&I); exists x; (split; [exact X|]); [apply dedup_in, sort_in, I|apply (proj1 (dedup_in _ _)) in I; apply (proj1 (sort_in _ _)) in I; exact I]. }
  assert (F1 : first (cw_pf c (p_push (c_pf c) (EvLoad cl)))) by (destruct F; constructor; assumption).
  injection E as <-. destruct (Nat.ltb _ _); (split; [|exists cl; split; [reflexivity|exact S]]); [|exact F1].
  destruct F1 as [[A1 A2 A3 A4] B1 C1 D1 E1]. constructor; [constructor|..]; assumption.
Qed.
Lemma g_load_rest C c : base0 c -> post (load_rest C c) (loaded C c).
Proof.
  intros B0 c' E F. unfold load_rest in E. destruct (solver_from_user_lits C true c) as [[c1 r]| |] eqn:E1; cbn [bind] in E; try discriminate.
  destruct (g_lits true C c _ E1 F) as (F1&_&l1&L1&Y1). cbn [fst] in F1, L1.
  pose proof (solver_from_user_lits_steps true C c B0) as S1. rewrite E1 in S1. cbn in S1. destruct S1 as (R&_&V1). pose proof (z_vars _ (vsteps_base0 _ _ V1 B0)) as OK1. cbv zeta in E.
  destruct (proof_add_clause _ c1) as [c2| |] eqn:E2; cbn [bind] in E; try discriminate. destruct (g_add_clause _ _ _ _ F1 OK1 R E2) as (F2&cl&L2&S).
  assert (G : grows c2 c').
  { clear - E. revert c' E. match goal with |- forall c', ?m = Ret c' -> _ => change (gp c2 m) end.
    destruct (tautology _); [apply gp_ret, grows_refl|].
    eapply gp_bind with (c := c2); [destruct (Nat.ltb 1 _); [apply g_data_lits; intros d; split; reflexivity|apply gp_ret, grows_refl]|].
    intros c3 G3. destruct (scan_lits _ _) as [[kept fl] found]. set (c4 := cw_s c3 _). assert (G4 : grows c2 c4) by (eapply grows_trans; [exact G3|gsame]). clearbody c4.
    destruct found; [destruct (Nat.ltb _ _); [eapply gp_seq; [exact G4|]; intros c5 E5; eapply grows_step; [|exact E5]; reflexivity|apply gp_ret, G4]|].
    destruct (kept ++ fl) as [|a [|b [|d r4]]].
    - apply gp_ret. eapply grows_trans; [exact G4|gsame].
    - destruct kept; apply gp_ret; (eapply grows_trans; [exact G4|gsame]).
    - apply gp_ret. eapply grows_trans; [exact G4|gsame].
    - eapply gp_bind2; [apply g_db|]. intros c5 x G5. apply gp_ret. eapply grows_trans; [exact G4|exact G5]. }
  destruct (G F2) as (F3&_&l3&L3&Y3). split; [exact F3|]. exists l1, cl, l3. split; [|auto]. rewrite L3, L2, L1, <- !app_assoc. reflexivity.
Qed.
Lemma g_load fr vis S U C c : good fr vis S U c -> post (load_clause C c) (fun c' => st_sat (c_st c) = Unsat /\ c' = c \/ st_sat (c_st c) <> Unsat /\ loaded C c c').
Proof.
  intros (Ba & Fr & Vi & H). rewrite load_clause_rest. destruct (st_sat (c_st c)) eqn:St; [| |apply post_ret; auto|].
  all: intros c' E; right; split; [discriminate|].
  all: destruct H as (Kn & F & K & T & An).
  all: match type of E with load_rest _ (full_restart ?c0) = _ => set (d := c0) in * end.
  all: assert (Kd : inv false F (map (glob (c_v c)) U) d) by (unfold d, set_empty, set_sat; repeat apply inv_st; exact K).
  all: destruct (full_restart_ground F _ d Kd) as (G & _).
  all: assert (B0 : base0 (full_restart d)) by (apply base_base0, (iv_base _ _ _ _ (proj1 (proj1 G)))).
  all: intros Fi; assert (GD : grows c (full_restart d)) by (eapply grows_trans; [|apply full_grows]; unfold d; gsame).
  all: destruct (GD Fi) as (Fd&_&l0&L0&Y0); destruct (g_load_rest C _ B0 _ E Fd) as (F1&l1&cl&l2&L1&Y1&Y2&S1).
  all: split; [exact F1|]; exists (l0 ++ l1), cl, l2; split; [rewrite L1, L0, <- !app_assoc; reflexivity|]; split; [apply Forall_app; auto|auto].
Qed.

(** * Calls before the first call of [solve] *)
Definition early_call (k : call) : bool := match k with CAdd _ | CNewVar | CWitness _ | CSample _ | CAssume _ | CConfig _ => true | _ => false end.
(** The clauses added by these calls *)
Definition clauses_of (ks : list call) : list (list N) := flat_map (fun k => match k with CAdd cl => [cl] | _ => [] end) ks.
Definition sent (F : list (list N)) (c : ctx) : Prop := exists f1 f2, F = f1 ++ f2 /\ Forall2 sends f1 (loads_of (events (p_log (c_pf c)))) /\
  (f2 = [] \/ st_sat (c_st c) = Unsat) /\ forall s, In s (steps (p_log (c_pf c))) -> early s = true.
Lemma early_events l : Forall is_early l -> loads_of (events l) = [] /\ forall s, In s (steps l) -> early s = true.
Proof.
  induction 1 as [|e l E _ [IH1 IH2]]; [split; [reflexivity|intros s []]|]. destruct e; try contradiction. split; [exact IH1|]. intros t [<-|I]; [exact E|auto].
Qed.
Lemma sent_grows F c c' : first c -> grows c c' -> sent F c -> sent F c'.
Proof.
  intros Fi G (f1&f2&->&L&Un&St). destruct (G Fi) as (_&U&l&E&Y). destruct (early_events l Y) as [Y1 Y2]. exists f1, f2. split; [reflexivity|]. rewrite E.
  split; [rewrite events_app, loads_app, Y1, app_nil_r; exact L|]. split; [tauto|]. intros s I. rewrite steps_list_app, in_app_iff in I. destruct I; auto.
Qed.
Lemma sent_load F C c c' : st_sat (c_st c) <> Unsat -> first c -> loaded C c c' -> sent F c -> sent (F ++ [C]) c'.
Proof.
  intros NU Fi H (f1&f2&->&L&Un&St). destruct Un as [->|]; [|contradiction]. rewrite app_nil_r. destruct (H Fi) as (_&l1&cl&l2&E&Y1&Y2&S).
  destruct (early_events l1 Y1) as [A1 A2], (early_events l2 Y2) as [B1 B2]. exists (f1 ++ [C]), []. split; [rewrite app_nil_r; reflexivity|]. rewrite E.
  rewrite !events_app, !loads_app, A1, B1. cbn [app events flat_map loads_of ProofReorder.loads_of]. split; [apply Forall2_app; [exact L|constructor; [exact S|constructor]]|].
  split; [auto|]. intros s I. rewrite !steps_list_app, !in_app_iff in I. destruct I as [I|[I|I]]; [auto|auto|exact (B2 s I)].
Qed.
Lemma early_run fuel k fr vis S U F c c' a : early_call k = true -> good fr vis S U c -> first c -> sent F c -> run fuel k c = Ret (c', a) ->
  first c' /\ sent (F ++ clauses_of [k]) c'.
Proof.
  intros Ek G Fi Se E.
  assert (Q : clauses_of [k] = [] -> grows c c' -> first c' /\ sent (F ++ clauses_of [k]) c').
  { intros -> Gr. rewrite app_nil_r. split; [apply Gr, Fi|eapply sent_grows; eassumption]. }
  destruct k; try discriminate; cbn [run] in E.
  - destruct (load_clause clause c) as [c1| |] eqn:E1; cbn [bind] in E; try discriminate. injection E as <- _. cbn [clauses_of flat_map app].
    destruct (g_load _ _ _ _ _ _ G _ E1) as [[Un ->]|[NU L]].
    + split; [exact Fi|]. destruct Se as (f1&f2&->&X). exists f1, (f2 ++ [clause]). rewrite app_assoc. split; [reflexivity|]. tauto.
    + split; [apply (L Fi)|eapply sent_load; eassumption].
  - destruct (new_user_var _) as [[c1 v]| |] eqn:E1; cbn [bind] in E; try discriminate. injection E as <- _. apply Q; [reflexivity|].
    eapply grows_trans; [|apply (g_new _ _ E1)]. gsame.
  - destruct (change_mode v Witness c) as [c1| |] eqn:E1; cbn [bind] in E; try discriminate. injection E as <- _. apply Q; [reflexivity|]. apply (g_mode v Witness c ltac:(discriminate) _ E1).
  - destruct (change_mode v Sample c) as [c1| |] eqn:E1; cbn [bind] in E; try discriminate. injection E as <- _. apply Q; [reflexivity|]. apply (g_mode v Sample c ltac:(discriminate) _ E1).
  - destruct (set_assumptions lits c) as [c1| |] eqn:E1; cbn [bind] in E; try discriminate. injection E as <- _. apply Q; [reflexivity|]. apply (g_assume lits c _ E1).
  - apply Q; [reflexivity|]. destruct (update_apply u (c_cfg c)) as [[] cfg]; [|injection E as <- _; apply grows_refl]. destruct (_ && _); [|discriminate]. injection E as <- _. gsame.
Qed.
Lemma early_all fuel ks : forall fr vis S U F c c' r, good fr vis S U c -> config_valid (c_cfg c) -> forallb early_call ks = true -> first c -> sent F c -> run_all fuel ks c = Ret (c', r) ->
  first c' /\ sent (F ++ clauses_of ks) c'.
Proof.
  induction ks as [|k ks IH]; intros fr vis S U F c c' r G V Ek Fi Se E; cbn [run_all] in E; [injection E as <- _; cbn; rewrite app_nil_r; auto|].
  cbn [forallb] in Ek. apply andb_prop in Ek as [E1 E2]. destruct (run fuel k c) as [[c1 a]| |] eqn:Er; cbn [bind] in E; try discriminate.
  destruct (run_all fuel ks c1) as [[c2 r2]| |] eqn:Ea; cbn [bind] in E; try discriminate. injection E as <- _.
  destruct (early_run fuel k _ _ _ _ F c c1 a E1 G Fi Se Er) as [F1 S1]. destruct (spec_get _ _ _ (run_spec fuel k fr vis S U c G V) Er) as (S' & _ & G1 & _).
  pose proof (run_valid fuel k c V _ Er) as V1. cbn [fst] in V1. destruct (IH _ _ _ _ _ _ _ _ G1 V1 E2 F1 S1 Ea) as [F2 S2]. split; [exact F2|].
  unfold clauses_of in *. cbn [flat_map] in *. rewrite app_nil_r in S2. rewrite app_assoc. exact S2.
Qed.
Lemma first_sent c : first c -> p_log (c_pf c) = [] -> sent [] c.
Proof. intros F E. exists [], []. rewrite E. split; [reflexivity|]. split; [constructor|]. split; [auto|intros s []]. Qed.
