(** The log of what is handed to the checker while the solver runs: if every event is valid after
    the ones before it, the checker never rejects one.  This file has the rules for the functions
    that add to the log. *)
From Coq Require Import Arith ZArith ZifyBool ZifyNat ZifyN Permutation.
From Verif Require Import Spec Lit LitProofs BinFormat Hash F32 Vsids VsidsProofs Luby Config Search SearchBase ClauseDb
  Analyze SolverCtx CtxFrame Solver VarsProofs P_Vars CtxEvents P_Proof.
From Verif Require Checker CheckerSteps CheckerRun CheckerSafe CheckerNames CheckerUsers CheckerValid.
Local Open Scope N_scope.

Notation event := CheckerRun.event.
Notation valid := CheckerValid.valid.
Notation valid_history := CheckerValid.valid_history.
Notation db_after := CheckerValid.db_after.

(** * Runs in which no check fails *)

Definition csim {A} (m : out A) (Q : A -> Prop) : Prop :=
  match m with Ret a => Q a | Panic p => p <> PSelfCheck | NoFuel => True end.
Lemma csim_ret {A} (a : A) (Q : A -> Prop) : Q a -> csim (Ret a) Q.
Proof. auto. Qed.
Lemma csim_bind {A B} (m : out A) (f : A -> out B) (P : A -> Prop) (Q : B -> Prop) :
  csim m P -> (forall a, P a -> csim (f a) Q) -> csim (bind m f) Q.
Proof. destruct m; cbn; auto. Qed.
Lemma csim_weaken {A} (m : out A) (P Q : A -> Prop) : csim m P -> (forall a, P a -> Q a) -> csim m Q.
Proof. destruct m; cbn; auto. Qed.
Lemma csim_spec {A} (m : out A) (P Q : A -> Prop) : spec m P -> csim m Q -> csim m (fun a => P a /\ Q a).
Proof. destruct m; cbn; auto. Qed.
Lemma csim_post {A} (m : out A) (P Q : A -> Prop) : post m P -> csim m Q -> csim m (fun a => P a /\ Q a).
Proof. destruct m; cbn; auto. Qed.
Lemma csim_get {A} (m : out A) (Q : A -> Prop) a : csim m Q -> m = Ret a -> Q a.
Proof. intros H ->. exact H. Qed.

(** * Logs that fit the checker *)

(** Literals are 32 bit and there are at most [Var::max_count] variables. *)
Definition event_fits (e : event) : Prop :=
  CheckerRun.event_u32 e /\
  match e with
  | CheckerRun.Step (SolverVarName _ (Some x)) => x < max_count
  | CheckerRun.Step (DeleteVar v) => v < 2^31
  | _ => True
  end.
Definition fits (es : list event) : Prop := Forall event_fits es.
(** All clauses together have less than 2^32 literals. *)
Definition room (es : list event) : Prop := CheckerSafe.history_size es < 2^32.
(** A checker that fails only where the modelled one does, on logs that fit *)
Definition within (judge : list pevent -> verdict) : Prop :=
  forall log, judge log = VFailed -> (fits (events log) /\ room (events log)) /\ checker_judge log = VFailed.

Lemma fits_snoc es e : fits (es ++ [e]) -> fits es /\ event_fits e.
Proof.
  intros A. apply Forall_app in A. destruct A as [A1 A2]. inversion A2; subst. split; assumption.
Qed.
Lemma room_snoc es e : room (es ++ [e]) -> room es.
Proof. unfold room. rewrite CheckerValid.history_snoc. lia. Qed.
Lemma events_snoc l e : events (l ++ [e]) = events l ++ events [e].
Proof. unfold events. rewrite flat_map_app. reflexivity. Qed.
Lemma valid_snoc es e : valid_history es -> valid es e -> valid_history (es ++ [e]).
Proof.
  intros H V es1 e1 es2 E. destruct es2 as [|x es2] using rev_ind.
  - apply app_inj_tail in E. destruct E as [<- <-]. exact V.
  - rewrite app_comm_cons, app_assoc in E. apply app_inj_tail in E. destruct E as [E _]. apply (H es1 e1 es2 E).
Qed.
Lemma valid_nil : valid_history [].
Proof. intros es1 e es2 E. destruct es1; discriminate. Qed.

Lemma ri_proc es c p : CheckerValid.RI es c -> CheckerValid.calm (Checker.with_proc c p) -> CheckerValid.RI es (Checker.with_proc c p).
Proof.
  intros [A B C D E F G H] K. constructor; auto; [apply CheckerSafe.si_proc; exact A|].
  destruct C as [C1 C2 C3]. constructor; assumption.
Qed.
Lemma ri_delayed es c : CheckerValid.RI es c -> CheckerValid.ok (Checker.self_check_delayed_steps c) (fun _ c' => CheckerValid.RI es c').
Proof.
  intros R. unfold Checker.self_check_delayed_steps, Checker.process_unit_conflicts.
  destruct (Checker.unit_conflict (Checker.c_clauses c)) as [[a b]|]; [|apply CheckerValid.ok_ret; exact R].
  apply CheckerValid.ok_process; [apply (CheckerValid.ri_calm _ _ R)|]. intros p K. apply ri_proc; assumption.
Qed.
(** Everything that is valid is accepted, with the delayed steps in between. *)
Lemma judge_run log : fits (events log) -> room (events log) -> valid_history (events log) -> exists c,
  fold_left (fun r e => Checker.bind r (fun _ c => checker_exec c e)) log (Checker.ROk tt fresh_checker) = Checker.ROk tt c /\
  CheckerValid.RI (events log) c.
Proof.
  induction log as [|e log IH] using rev_ind; intros F M0 V.
  - exists fresh_checker. split; [reflexivity|]. apply CheckerValid.ri_new; [intros; apply Permutation_refl|reflexivity].
  - rewrite events_snoc in F, M0, V. rewrite fold_left_app. cbn [fold_left].
    assert (EV : forall x, events [e] = [x] -> (forall c, checker_exec c e = CheckerRun.exec c x) -> exists c,
      Checker.bind (fold_left (fun r e0 => Checker.bind r (fun _ c => checker_exec c e0)) log (Checker.ROk tt fresh_checker)) (fun _ c => checker_exec c e) = Checker.ROk tt c /\
      CheckerValid.RI (events (log ++ [e])) c).
    { intros x E X. rewrite events_snoc, E in *. destruct (fits_snoc _ _ F) as [F1 [F2 _]].
      assert (V1 : valid_history (events log)). { intros es1 e1 es2 Q. apply (V es1 e1 (es2 ++ [x])). rewrite Q, <- app_assoc. reflexivity. }
      destruct (IH F1 (room_snoc _ _ M0) V1) as (c&R&RI). rewrite R. cbn [Checker.bind]. rewrite X.
      assert (M : CheckerSafe.history_size (events log) + CheckerSafe.event_size x < 2^32) by (rewrite <- CheckerValid.history_snoc; exact M0).
      pose proof (V (events log) x [] eq_refl) as VX.
      destruct (CheckerValid.exec_accepts _ c x RI F2 M VX) as ([]&c'&E'&_). exists c'. split; [exact E'|].
      apply (CheckerValid.ri_step _ c x c' tt RI F2 M VX E'). }
    destruct e as [cl|s|]; [apply (EV (CheckerRun.Load cl)); reflexivity|apply (EV (CheckerRun.Step s)); reflexivity|].
    clear EV. rewrite events_snoc. cbn [events flat_map app] in *. rewrite app_nil_r in *. destruct (IH F M0 V) as (c&R&RI). rewrite R. cbn [Checker.bind checker_exec].
    destruct (ri_delayed _ _ RI) as ([]&c'&E'&RI'). exists c'. auto.
Qed.
Lemma judge_ok log : fits (events log) -> room (events log) -> valid_history (events log) -> checker_judge log = VOk.
Proof. intros F M V. destruct (judge_run log F M V) as (c&E&_). unfold checker_judge. rewrite E. reflexivity. Qed.

(** * The log of a context *)

(** While the checker is there and the log fits, there is no error, the log is valid and [P] holds for
    it.  This depends on the proof and the stored error only. *)
Definition live (c : ctx) (P : list event -> Prop) : Prop :=
  within (p_judge (c_pf c)) /\
  (p_checker (c_pf c) = true -> fits (events (p_log (c_pf c))) ->
   st_error (c_st c) = None /\ valid_history (events (p_log (c_pf c))) /\ P (events (p_log (c_pf c)))).
Lemma live_weaken c (P Q : list event -> Prop) : live c P -> (forall es, fits es -> P es -> Q es) -> live c Q.
Proof. intros [J H] W. split; [exact J|]. intros C F. destruct (H C F) as (A&B&D). auto. Qed.
Lemma live_same c c' P : c_pf c' = c_pf c -> st_error (c_st c') = st_error (c_st c) -> live c P -> live c' P.
Proof. unfold live. intros -> ->. auto. Qed.
Lemma live_off c c' P Q : live c P -> p_judge (c_pf c') = p_judge (c_pf c) -> p_checker (c_pf c') = false -> live c' Q.
Proof. intros [J _] E C. split; [rewrite E; exact J|]. congruence. Qed.

Lemma ask_live c e P Q : live c P -> p_checker (c_pf c) = true ->
  (forall es x, events [e] = [x] -> P es -> fits (es ++ [x]) -> valid es x /\ Q (es ++ [x])) ->
  (events [e] = [] -> forall es, P es -> Q es) ->
  csim (ask_checker c e) (fun c' => frame c c' /\ live c' Q).
Proof.
  intros [J H] C S D. unfold ask_checker. set (p := p_push (c_pf c) e).
  assert (X : fits (events (p_log p)) -> st_error (c_st c) = None /\ valid_history (events (p_log p)) /\ Q (events (p_log p))).
  { intros F. unfold p in *. cbn [p_push p_log] in *. rewrite events_snoc in *.
    destruct e as [cl|s|]; cbn [events flat_map app] in *.
    - destruct (fits_snoc _ _ F) as [F1 _]. destruct (H C F1) as (A&B&E). destruct (S _ _ eq_refl E F) as [V R]. split; [exact A|]. split; [apply valid_snoc; assumption|exact R].
    - destruct (fits_snoc _ _ F) as [F1 _]. destruct (H C F1) as (A&B&E). destruct (S _ _ eq_refl E F) as [V R]. split; [exact A|]. split; [apply valid_snoc; assumption|exact R].
    - rewrite app_nil_r in *. destruct (H C F) as (A&B&E). split; [exact A|]. split; [exact B|]. apply D; [reflexivity|exact E]. }
  unfold handle_check. destruct (p_judge p (p_log p)) eqn:V.
  - split; [apply frame_pf|]. split; [exact J|]. intros _. exact X.
  - split; [exists (Some EProcessor), (proof_reset p); reflexivity|]. split; [exact J|discriminate].
  - destruct (J _ V) as [[F M] V']. rewrite (judge_ok _ F M) in V'; [discriminate|]. apply X, F.
Qed.

(** ** Names of literals *)
Definition gl (v : vars) (l : N) : N := match v_gs v (lit_var l) with Some g => lit_of g (is_positive l) | None => l end.
Definition gls (v : vars) (l : list N) : list N := map (gl v) l.
Definition gstep (v : vars) (s : proof_step) : proof_step :=
  match s with
  | AddClause cl => AddClause (gls v cl)
  | AtClause r cl h => AtClause r (gls v cl) h
  | UnitClauses u => UnitClauses (map (fun x => (gl v (fst x), snd x)) u)
  | DeleteClause cl p => DeleteClause (gls v cl) p
  | Model m => Model (gls v m)
  | Assumptions a => Assumptions (gls v a)
  | FailedAssumptions core h => FailedAssumptions (gls v core) h
  | _ => s
  end.
Lemma map_lit_gl v l y : map_lit (v_gs v) l = Some y -> gl v l = y.
Proof. unfold map_lit, gl. destruct (v_gs v (lit_var l)); [congruence|discriminate]. Qed.
Lemma map_lits_gl v l : forall r, map_lits (v_gs v) l = Some r -> gls v l = r.
Proof.
  induction l as [|x l IH]; intros r H; cbn [map_lits] in H; [injection H as <-; reflexivity|].
  destruct (map_lit (v_gs v) x) eqn:E; [|discriminate]. destruct (map_lits (v_gs v) l); [|discriminate]. injection H as <-.
  cbn [gls map]. rewrite (map_lit_gl _ _ _ E). fold (gls v l). rewrite (IH _ eq_refl). reflexivity.
Qed.
Lemma map_units_gl v l : forall r, map_units (v_gs v) l = Some r -> map (fun x => (gl v (fst x), snd x)) l = r.
Proof.
  induction l as [|[x h] l IH]; intros r H; cbn [map_units] in H; [injection H as <-; reflexivity|].
  destruct (map_lit (v_gs v) x) eqn:E; [|discriminate]. destruct (map_units (v_gs v) l); [|discriminate]. injection H as <-.
  cbn [map fst snd]. rewrite (map_lit_gl _ _ _ E), (IH _ eq_refl). reflexivity.
Qed.
Lemma map_step_gl v s s' : map_step (v_gs v) s = Some s' -> s' = gstep v s.
Proof.
  destruct s; cbn [map_step gstep]; intros E; try (injection E as <-; reflexivity);
    match type of E with option_map _ ?m = _ => destruct m eqn:M; [|discriminate] end; cbn [option_map] in E; injection E as <-;
    first [rewrite (map_lits_gl _ _ _ M); reflexivity|rewrite (map_units_gl _ _ _ M); reflexivity].
Qed.

(** ** Steps *)
Lemma step_live sv s c P Q : live c P ->
  (forall es, P es -> let s' := if sv : bool then gstep (c_v c) s else s in fits (es ++ [CheckerRun.Step s']) ->
     valid es (CheckerRun.Step s') /\ Q (es ++ [CheckerRun.Step s'])) ->
  csim (add_step sv s c) (fun c' => frame c c' /\ live c' Q).
Proof.
  intros L S. unfold add_step. destruct (st_error (c_st c)) as [e|] eqn:Er.
  { split; [apply frame_refl|]. destruct L as [J H]. split; [exact J|]. intros C F. destruct (H C F) as (A&_). congruence. }
  destruct (p_active (c_pf c)) eqn:AC.
  2:{ split; [apply frame_refl|]. apply (live_off c c P Q); auto. unfold p_active in AC. apply Bool.orb_false_iff in AC. apply AC. }
  destruct (if sv then map_step (v_gs (c_v c)) s else Some s) as [s'|] eqn:M; [|cbn; congruence].
  assert (E : s' = if sv then gstep (c_v c) s else s) by (destruct sv; [apply map_step_gl; exact M|congruence]).
  assert (K : forall p bytes, p_checker p = p_checker (c_pf c) -> p_log p = p_log (c_pf c) -> p_judge p = p_judge (c_pf c) ->
    csim (let p := p_write p bytes in
     let failed := match p_format p with Some _ => p_io p (p_out p) | None => false end in
     let c := cw_pf c p in
     if failed then Ret (handle_io c true) else if p_checker p then ask_checker c (EvStep s') else Ret c) (fun c' => frame c c' /\ live c' Q)).
  { intros p bytes E1 E2 E3. cbv zeta. destruct (match p_format (p_write p bytes) with Some _ => _ | None => _ end).
    - split; [eapply frame_trans; [apply (frame_pf c (p_write p bytes))|apply handle_io_frame]|].
      apply (live_off c _ P Q L); [exact E3|reflexivity].
    - cbn [p_write p_checker]. rewrite E1. destruct (p_checker (c_pf c)) eqn:C.
      + eapply csim_weaken; [eapply (ask_live (cw_pf c (p_write p bytes)) (EvStep s') P Q)|].
        * destruct L as [J H]. split; [cbn [cw_pf c_pf p_write p_judge]; rewrite E3; exact J|]. cbn [cw_pf c_pf p_write p_checker p_log c_st]. rewrite E2. intros _. apply H. exact C.
        * cbn [cw_pf c_pf p_write p_checker]. congruence.
        * intros es x EX PE F. cbn [events flat_map app] in EX. injection EX as <-. subst s'. apply (S es PE F).
        * discriminate.
        * intros c' [A B]. split; [|exact B]. eapply frame_trans; [apply (frame_pf c (p_write p bytes))|exact A].
      + split; [apply frame_pf|]. apply (live_off c _ P Q L); cbn [cw_pf c_pf p_write p_checker p_judge]; congruence. }
  destruct (p_format (c_pf c)) as [[]|]; cbn [bind].
  - destruct (write_varisat_step _ _ _) as [[p bytes]|] eqn:Wr; [|cbn; congruence]. cbn [bind]. apply K;
    unfold write_varisat_step in Wr; cbv zeta in Wr; destruct (64 <? _); try discriminate; injection Wr as <- <-; reflexivity.
  - destruct (Lrat.drat_write_step _) as [bytes|]; [|cbn; congruence]. cbn [bind]. apply K; reflexivity.
  - destruct (Lrat.drat_write_binary_step _) as [bytes|]; [|cbn; congruence]. cbn [bind]. apply K; reflexivity.
  - apply K; reflexivity.
Qed.

(** Adding a clause, before or after [solve] *)
Lemma add_live cl c P Q : live c P ->
  (forall es e, P es -> e = CheckerRun.Load (gls (c_v c) cl) \/ e = CheckerRun.Step (AddClause (gls (c_v c) cl)) -> fits (es ++ [e]) ->
     valid es e /\ Q (es ++ [e])) ->
  csim (proof_add_clause cl c) (fun c' => frame c c' /\ live c' Q).
Proof.
  intros L S. unfold proof_add_clause. destruct (st_invoked (c_st c)).
  { apply (step_live true (AddClause cl) c P Q L). intros es PE s' F. apply S; auto. }
  assert (CNT : forall c', frame c c' /\ live c' Q -> csim (Ret (if Nat.ltb 1 (length cl) then cw_pf c' (p_set_count (c_pf c') (p_count (c_pf c') + 1)) else c')) (fun c' => frame c c' /\ live c' Q)).
  { intros c' [A B]. destruct (Nat.ltb 1 (length cl)); [|split; assumption]. split; [eapply frame_trans; [exact A|apply frame_pf]|].
    destruct B as [J H]. split; assumption. }
  destruct (p_checker (c_pf c)) eqn:C.
  - destruct (map_lits (v_gs (c_v c)) cl) as [g|] eqn:M; [|cbn; congruence]. apply map_lits_gl in M.
    eapply csim_bind; [|exact CNT]. eapply csim_weaken; [eapply (ask_live c (EvLoad g) P Q L C)|].
    + intros es x EX PE F. cbn [events flat_map app] in EX. injection EX as <-. subst g. apply S; auto.
    + discriminate.
    + auto.
  - cbn [bind]. apply CNT. split; [apply frame_refl|]. apply (live_off c c P Q L); auto.
Qed.

Lemma flush_live c P : live c P -> live (flush_proof c) P.
Proof.
  intros L. unfold flush_proof, handle_io. destruct (match p_format (c_pf c) with Some _ => _ | None => _ end); [|exact L].
  apply (live_off c _ P P L); reflexivity.
Qed.
Lemma finished_live c P : live c P -> csim (solve_finished c) (fun c' => frame c c' /\ live c' P).
Proof.
  intros L. unfold solve_finished. pose proof (flush_live c P L) as L1. pose proof (flush_frame c) as FR. set (c1 := flush_proof c) in *. clearbody c1.
  destruct (p_checker (c_pf c1)) eqn:C; [|split; assumption].
  eapply csim_weaken; [eapply (ask_live c1 EvDelayed P P L1 C); [discriminate|auto]|]. intros c' [A B]. split; [eapply frame_trans; eassumption|exact B].
Qed.
Lemma close_live c (P Q : list event -> Prop) : live c P -> (forall es, P es -> Q (es ++ [CheckerRun.Step End])) -> csim (close_proof c) (fun c' => frame c c' /\ live c' Q).
Proof.
  intros L S. unfold close_proof. eapply csim_bind.
  { apply (step_live true End c P Q L). intros es PE s' F. split; [exact Logic.I|apply S; exact PE]. }
  intros c1 [F1 L1]. split; [eapply frame_trans; [exact F1|]; eapply frame_trans; [apply flush_frame|apply frame_pf]|].
  apply flush_live in L1. destruct L1 as [J H]. split; assumption.
Qed.
