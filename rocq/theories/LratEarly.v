(** The LRAT file of a checker that is given the clauses of the formula one by one, with names, assumptions and deletions of satisfied
    clauses in between.  Proofs only: the checker inside the solver (varisat/src/proof.rs:73-90, 150-200) is used like this. *)
From Coq Require Import Arith ZArith ZifyBool ZifyNat ZifyN Sorted Permutation.
From Verif Require Import Spec Lit LitProofs SortedLits SortedLitsProofs Hash Vli BinFormat Checker CheckerStore CheckerInv CheckerOps CheckerRup CheckerSteps CheckerRun CheckerCount CheckerReplay
  P_CheckerStore P_CheckerReplay Lrat LratSpec LratProofs LratReplay P_Checker P_Lrat.
From Verif Require CheckerSafe CheckerValid ProofReorder P_CliLrat.
Local Open Scope N_scope.
Notation early := ProofReorder.early.
Notation loads_of := ProofReorder.loads_of.

(** The steps between the clauses *)
Definition still (c c' : ctx) (ks : list checked_step) : Prop :=
  proc_log (c_proc c') = proc_log (c_proc c) ++ ks /\ Forall (fun k => ~ input_step k /\ intro_id k = []) ks /\
  next_clause_id (c_clauses c') = next_clause_id (c_clauses c) /\ s_unsat (c_state c') = s_unsat (c_state c).
Lemma step_still c s c' : tr c (Step s) c' -> early s = true -> exists ks, still c c' ks.
Proof.
  intros T EA. cbn [tr] in T. destruct s as [gl so|gl us|v|v sm|cl|red cl hs|us|cl pf|b|m|l|core hs| ]; try discriminate; cbn [step_eff] in T.
  1,2,3: destruct T as (A&B&ks&[EM _ _ _]&KS); exists ks; split; [exact EM|]; split; [eapply Forall_impl; [|exact KS]; intros [] X; try contradiction; split; auto|];
    split; [apply (sd_next _ _ A)|rewrite B; reflexivity].
  - destruct pf; try discriminate. destruct T as [id r T DE UN UC NX ST R]. cbn [is_red] in *. destruct R as (s&_&[EM _ _ _]). eexists. split; [exact EM|].
    split; [destruct r; repeat constructor; cbn; auto|]. split; [exact NX|]. rewrite ST. reflexivity.
  - destruct T as (A&B&[EM _ _ _]). eexists. split; [exact EM|]. split; [repeat constructor; cbn; auto|]. split; [apply (sd_next _ _ A)|rewrite B; reflexivity].
Qed.
Lemma other_log j f ks : Forall (fun k => ~ input_step k /\ intro_id k = []) ks -> forall ks', load_log j f ks' -> load_log j f (ks ++ ks').
Proof. induction 1 as [|k ks [A B] _ IH]; intros ks' L; [exact L|]. cbn [app]. apply LL_other; auto. Qed.

Lemma early_unsat es : forall c c', Inv c -> Forall event_u32 es -> (forall s, In (Step s) es -> early s = true) -> run c es = ROk tt c' -> s_unsat (c_state c) = true -> exists ks, still c c' ks.
Proof.
  induction es as [|e es IH]; intros c c' I U E R US; cbn [run] in R.
  - injection R as <-. exists []. split; [rewrite app_nil_r; reflexivity|]. repeat constructor.
  - destruct (exec c e) as [[] c1| |] eqn:X; cbn [bind] in R; try discriminate. apply Forall_cons_iff in U as [U1 U2]. destruct (exec_spec _ _ _ _ I U1 X) as [I1 T].
    destruct e as [cl|s].
    + cbn [exec] in X. unfold add_clause in X. rewrite US in X. injection X as <-. apply (IH c c' I U2); auto. intros s H. apply E. right. exact H.
    + destruct (step_still _ _ _ T (E s (or_introl eq_refl))) as (k1&A1&A2&A3&A4). destruct (IH c1 c' I1 U2) as (k2&B1&B2&B3&B4); [intros s' H; apply E; right; exact H|exact R|congruence|].
      exists (k1 ++ k2). split; [rewrite B1, A1, app_assoc; reflexivity|]. split; [apply Forall_app; auto|]. split; congruence.
Qed.
Lemma early_spec es : forall c c', Inv c -> Forall event_u32 es -> (forall s, In (Step s) es -> early s = true) -> run c es = ROk tt c' -> s_unsat (c_state c) = false ->
  exists ks, proc_log (c_proc c') = proc_log (c_proc c) ++ ks /\ load_log (next_clause_id (c_clauses c)) (loads_of es) ks /\
    (s_unsat (c_state c') = false -> next_clause_id (c_clauses c') = next_clause_id (c_clauses c) + N.of_nat (length (loads_of es))).
Proof.
  induction es as [|e es IH]; intros c c' I U E R US; cbn [run] in R.
  - injection R as <-. exists []. split; [rewrite app_nil_r; auto|]. split; [constructor|]. cbn. lia.
  - assert (E' : forall s, In (Step s) es -> early s = true) by (intros s H; apply E; right; exact H).
    destruct (exec c e) as [[] c1| |] eqn:X; cbn [bind] in R; try discriminate. apply Forall_cons_iff in U as [U1 U2]. destruct (exec_spec _ _ _ _ I U1 X) as [I1 T]. destruct e as [cl|s].
    + cbn [tr] in T. change (loads_of (Load cl :: es)) with (cl :: loads_of es). destruct (load_one _ _ _ T US) as (k&mk&K1&K2&[EM _ _ _]&NX).
      destruct (s_unsat (c_state c1)) eqn:U1'.
      * destruct (early_unsat es c1 c' I1 U2 E' R U1') as (k2&B1&B2&B3&B4). exists (mk ++ k :: k2). split; [rewrite B1, EM, <- !app_assoc; reflexivity|]. split; [|congruence].
        apply LL_load; auto. rewrite <- (app_nil_r k2). apply other_log; [exact B2|constructor].
      * destruct (IH c1 c' I1 U2 E' R U1') as (k2&B1&B2&B3). exists (mk ++ k :: k2). split; [rewrite B1, EM, <- !app_assoc; reflexivity|]. rewrite NX in *.
        split; [apply LL_load; auto|]. intros V. rewrite (B3 V). cbn [length]. lia.
    + destruct (step_still _ _ _ T (E s (or_introl eq_refl))) as (k1&A1&A2&A3&A4). destruct (IH c1 c' I1 U2 E' R ltac:(congruence)) as (k2&B1&B2&B3).
      exists (k1 ++ k2). rewrite A3 in *. split; [rewrite B1, A1, app_assoc; reflexivity|]. split; [apply other_log; assumption|exact B3].
Qed.

(** A clause that has the literals of another, and clauses that come later *)
Lemma load_log_same j g ks : load_log j g ks -> forall f1 f2, Forall2 ProofReorder.same_lits f1 g -> load_log j (f1 ++ f2) ks.
Proof.
  induction 1 as [j g|j c g k mk ks L IH K M|j g k ks N1 N2 L IH]; intros f1 f2 F; [constructor| |apply LL_other; auto].
  inversion F as [|x y f1' g' S F' E1 E2]; subst. assert (CE : canon c = canon x) by (apply ssorted_ext; try apply canonical_sorted; intros z; unfold canon; rewrite !canonical_in; symmetry; apply S). rewrite CE in *. cbn [app]. apply LL_load; auto.
Qed.

(** What is added to the formula later is ignored: a conflict was known before. *)
Lemma interleaved_accepted es1 steps f1 f2 c0 c c' binary fresh calls :
  reaches es1 c0 -> (forall s, In (Step s) es1 -> early s = true) -> Forall2 ProofReorder.same_lits f1 (loads_of es1) -> (f2 = [] \/ s_unsat (c_state c0) = true) ->
  Forall event_u32 (map Step steps) -> run c0 (map Step steps) = ROk tt c ->
  has_processors (c_proc c) = true -> no_late_deletion (es1 ++ map Step steps) ->
  self_check_delayed_steps c = ROk tt c' -> (forall cl, ~ In (AddClause cl) steps) ->
  call_steps calls = proc_log (c_proc c') -> Forall step_ok (proc_log (c_proc c')) ->
  (fresh = true -> s_unsat (c_state c0) = false) ->
  exists lines, lrat_parse binary (w_target (lrat_flush (fold_left do_call calls (lrat_new binary)))) = Some lines /\
    lrat_ops fresh (lrat_init (f1 ++ f2)) (flat_map line_ops lines) <> None /\
    (refuted (proc_log (c_proc c')) -> In [] (f1 ++ f2) \/ exists id hints, In (OAdd id [] hints) (flat_map line_ops lines)).
Proof.
  intros R0 EA SL F2 U1 RUN HP NL DEL NA CALLS OK FRESH.
  pose proof (reaches_inv _ _ R0) as I0.
  assert (R : reaches (es1 ++ map Step steps) c).
  { destruct R0 as (p&t&pf&tf&sh&S&F&R0). exists p, t, pf, tf, sh. split; [exact S|]. split; [apply Forall_app; auto|]. rewrite run_app, R0. exact RUN. }
  assert (L : exists ks0, proc_log (c_proc c0) = ks0 /\ load_log 0 (f1 ++ f2) ks0 /\ (s_unsat (c_state c0) = false -> next_clause_id (c_clauses c0) = N.of_nat (length (f1 ++ f2)))).
  { destruct R0 as (p&t&pf&tf&sh&S&F&R0). destruct (early_spec es1 _ c0 (new_inv p t pf tf sh S) F EA R0 eq_refl) as (ks&A&B&C).
    exists ks. split; [exact A|]. split; [apply (load_log_same _ _ _ B); exact SL|]. intros V. rewrite (C V). destruct F2 as [->|X]; [|congruence].
    rewrite app_nil_r. change (next_clause_id (c_clauses (checker_new p t pf tf sh))) with 0. rewrite N.add_0_l. f_equal. clear - SL. induction SL as [|? ? ? ? _ _ IH]; [reflexivity|]. cbn [length]. rewrite IH. reflexivity. }
  destruct L as (ks0&L1&L2&L3). destruct (steps_quiet _ _ _ I0 U1 RUN NA) as (ks1&Q1&Q2&Q3&Q4).
  assert (T : exists ks2, quiet_log c0 c' ks2).
  { unfold self_check_delayed_steps, process_unit_conflicts in DEL. destruct (unit_conflict (c_clauses c)) as [[i j]|] eqn:UC; [|inversion DEL; subst; exists ks1; repeat split; auto].
    destruct (process_step_spec _ _ _ _ DEL) as [E EM]. exists (ks1 ++ [KAtClause (next_clause_id (c_clauses c)) false [] [i; j]]). apply (quiet_log_trans c0 c c'); [repeat split; auto|].
    split; [exact (em_log _ _ _ EM)|]. split; [repeat constructor; cbn; auto|]. split; [cbn; repeat constructor; lia|]. rewrite E. cbn [with_proc c_clauses]. lia. }
  destruct T as (ks2&T1&T2&T3&_). rewrite L1 in T1.
  destruct (replay false db_empty (proc_log (c_proc c'))) as [D|] eqn:RP; [|destruct (C16_final_refutation _ _ _ R HP NL DEL RP)].
  pose proof (C14_identifiers_increase_delayed _ _ _ R DEL) as SS. rewrite T1 in *.
  assert (ACC : lrat_ops fresh (lrat_init (f1 ++ f2)) (flat_map step_ops (ks0 ++ ks2)) <> None).
  { apply (log_accepted fresh (f1 ++ f2) ks0 ks2 D L2 T2 RP SS). intros FT. specialize (FRESH FT). rewrite <- (L3 FRESH). exact T3. }
  rewrite <- CALLS in OK. destruct (C17_file_decodes binary calls OK) as (lines&k1&k2&P1&P2&P3&P4&P5). exists lines. split; [exact P1|].
  rewrite P3. rewrite <- CALLS in *. rewrite P2 in *. split.
  - intros E. apply ACC. rewrite flat_map_app, lrat_ops_app, E. reflexivity.
  - intros (id&red&hints&[IN|IN]).
    + right. apply input_dec in IN; [|exact P4]. exists (zid id), (map zid hints). apply in_flat_map. exists (KAtClause id red [] hints). split; [exact IN|left; reflexivity].
    + left. rewrite CALLS in IN. apply in_app_or in IN as [IN|IN]; [|rewrite Forall_forall in T2; destruct (T2 _ IN Logic.I)].
      clear - L2 IN. induction L2 as [j f|j cl f k mk ks _ IH K M|j f k ks NI _ _ IH]; [destruct IN| |destruct IN as [->|IN]; [destruct (NI Logic.I)|auto]]. apply in_app_or in IN as [IN|[IN|IN]].
      * destruct M as [->|[s ->]]; [destruct IN|]. destruct IN as [IN|[]]. discriminate.
      * left. subst k. destruct K as [K|[K|[s K]]]; try discriminate. injection K as -> K. destruct cl as [|x cl]; [reflexivity|]. exfalso.
        assert (X : In x (canon (x :: cl))) by (apply (canonical_in (x :: cl) x); left; reflexivity). rewrite <- K in X. destruct X.
      * right. auto.
Qed.

(** * Valid histories *)
Lemma early_loads es : (forall s, In (Step s) es -> early s = true) -> CheckerValid.valid_history es ->
  CheckerValid.db_unsat (CheckerValid.db_after es) = CheckerValid.db_unsat (CheckerValid.db_after (map Load (loads_of es))).
Proof.
  intros E V.
  assert (Es : forall s, In s (ProofReorder.steps_of es) -> early s = true).
  { intros s I. apply E. apply in_flat_map in I as ([cl|s']&I1&I2); [destruct I2|]. destruct I2 as [->|[]]. exact I1. }
  assert (O : ProofReorder.ordered es).
  { clear - E. induction es as [|[cl|s] es IH]; [exact Logic.I|apply IH; intros s H; apply E; right; exact H|]. split; [right; apply E; left; reflexivity|]. apply IH. intros s' H. apply E. right. exact H. }
  pose proof (ProofReorder.al_unsat _ _ (ProofReorder.ordered_loads es [] O V Es)) as X. cbn [app] in X. rewrite X, ProofReorder.after_loads. clear X.
  change (CheckerValid.db_after []) with CheckerValid.db_empty. generalize (ProofReorder.load_all (loads_of es) CheckerValid.db_empty). clear - Es. revert Es. generalize (ProofReorder.steps_of es).
  intros ss. induction ss as [|s ss IH]; intros Es d; [reflexivity|]. cbn [map fold_left]. rewrite IH by (intros s' H; apply Es; right; exact H). apply ProofReorder.early_unsat, Es. left. reflexivity.
Qed.

Definition lrat_of (binary : bool) (ks : list checked_step) : list N := w_target (lrat_flush (lrat_run (lrat_new binary) ks)).
Definition quiet_checker (sh : N -> list (N * list clause) -> list (N * list clause)) : ctx := checker_new true false (fun _ => false) (fun _ => false) sh.
Lemma valid_lrat sh es1 steps f1 f2 binary fresh : (forall n l, Permutation (sh n l) l) ->
  let es := es1 ++ map Step steps in
  Forall event_u32 es -> CheckerSafe.history_size es < 2^32 -> P_CliLrat.ids_used es < 2^32 -> CheckerValid.valid_history es ->
  (forall s, In (Step s) es1 -> early s = true) -> Forall2 ProofReorder.same_lits f1 (loads_of es1) -> (f2 = [] \/ CheckerValid.db_unsat (CheckerValid.db_after es1) = true) ->
  (forall v, ~ In (DeleteVar v) steps) -> (forall cl, ~ In (AddClause cl) steps) -> (fresh = true -> P_CliLrat.no_clash (f1 ++ f2)) ->
  exists k1 k2, run (quiet_checker sh) es = ROk tt k1 /\ self_check_delayed_steps k1 = ROk tt k2 /\ CheckerValid.RI es k1 /\
  exists lines, lrat_parse binary (lrat_of binary (proc_log (c_proc k2))) = Some lines /\
    lrat_ops fresh (lrat_init (f1 ++ f2)) (flat_map line_ops lines) <> None /\
    (CheckerValid.db_unsat (CheckerValid.db_after es) = true -> ~ In [] (f1 ++ f2) -> exists id hints, In (OAdd id [] hints) (flat_map line_ops lines)).
Proof.
  intros SH es U M SZ V EA SL F2 ND NA FR.
  pose proof (CheckerValid.ri_new true (fun _ => false) (fun _ => false) sh SH (fun _ => eq_refl)) as RI0. fold (quiet_checker sh) in RI0.
  apply Forall_app in U as [U1 U2].
  assert (M1 : CheckerSafe.history_size es1 < 2^32) by (unfold es, CheckerSafe.history_size in *; rewrite map_app, sumN_app in M; lia).
  assert (V1 : CheckerValid.valid_history es1) by (intros a e b E; apply (V a e (b ++ map Step steps)); unfold es; rewrite E, <- app_assoc; reflexivity).
  destruct (CheckerValid.run_accepts es1 [] _ RI0 U1 M1 V1) as (c0&R1&RI1). cbn [app] in RI1.
  destruct (CheckerValid.run_accepts (map Step steps) es1 c0 RI1 U2 M V) as (k1&R2&RI2). fold es in RI2.
  assert (R : run (quiet_checker sh) es = ROk tt k1) by (unfold es; rewrite run_app, R1; exact R2).
  assert (D : exists k2, self_check_delayed_steps k1 = ROk tt k2).
  { unfold self_check_delayed_steps, process_unit_conflicts. destruct (unit_conflict (c_clauses k1)) as [[a b]|]; [|eauto].
    destruct (CheckerValid.ok_process k1 (KAtClause (next_clause_id (c_clauses k1)) false [] [a; b]) (fun _ _ => True) (CheckerValid.ri_calm _ _ RI2)) as ([]&c'&E'&_); [auto|eauto]. }
  destruct D as (k2&D). exists k1, k2. split; [exact R|]. split; [exact D|]. split; [exact RI2|].
  assert (RC0 : reaches es1 c0) by (exists true, false, (fun _ => false), (fun _ => false), sh; auto).
  assert (RC : reaches es k1) by (exists true, false, (fun _ => false), (fun _ => false), sh; split; [exact SH|]; split; [apply Forall_app; auto|exact R]).
  assert (HP : has_processors (c_proc k1) = true).
  { rewrite (P_CliLrat.run_has es (quiet_checker sh) k1 (new_inv true false (fun _ => false) (fun _ => false) sh SH) (proj2 (Forall_app _ _ _) (conj U1 U2)) R). reflexivity. }
  assert (NL : no_late_deletion es).
  { intros a v b c1 E. exfalso. assert (X : In (Step (DeleteVar v)) es) by (rewrite E; apply in_or_app; right; left; reflexivity). apply in_app_or in X as [X|X].
    - specialize (EA _ X). discriminate.
    - apply in_map_iff in X as (s&X1&X2). injection X1 as ->. apply (ND v X2). }
  assert (UN : s_unsat (c_state c0) = CheckerValid.db_unsat (CheckerValid.db_after es1)) by (apply (CheckerValid.sy_unsat _ _ _ (CheckerValid.ri_sync _ _ RI1))).
  destruct (interleaved_accepted es1 steps f1 f2 c0 k1 k2 binary fresh (map WStep (proc_log (c_proc k2))) RC0 EA SL) as (lines&L1&L2&L3).
  - rewrite UN. exact F2.
  - exact U2.
  - exact R2.
  - exact HP.
  - exact NL.
  - exact D.
  - exact NA.
  - apply P_CliLrat.wsteps.
  - apply (P_CliLrat.log_ok es k1 k2 RC HP NL D). change (2^63) with 9223372036854775808. change (2^32) with 4294967296 in SZ. lia.
  - intros FT. rewrite UN, early_loads by assumption. destruct (P_CliLrat.db_loads (f1 ++ f2) (FR FT) f1 f2 eq_refl) as [X _]. rewrite ProofReorder.after_loads in *.
    rewrite <- (ProofReorder.same_loads _ _ _ SL). exact X.
  - exists lines. rewrite <- P_CliLrat.run_wsteps in L1. split; [exact L1|]. split; [exact L2|]. intros DU NE. destruct L3 as [X|X]; [|contradiction|exact X].
    apply (C10_refutation_delivered es k1 k2 RC); [|exact D]. right. right. right. rewrite (CheckerValid.sy_unsat _ _ _ (CheckerValid.ri_sync _ _ RI2)). exact DU.
Qed.
