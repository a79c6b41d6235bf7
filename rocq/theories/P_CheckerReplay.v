(** Property C16: the hints given to processors can be followed by an
    independent checker. *)
From Coq Require Import Arith ZArith ZifyBool ZifyNat ZifyN Permutation.
From Verif Require Import Spec Lit LitProofs Vec SortedLits SortedLitsProofs Hash Vli BinFormat Checker CheckerStore CheckerInv CheckerOps CheckerRup CheckerSteps CheckerRun CheckerReplay P_Checker P_CheckerStore.

Lemma store_db_stored cl i l : store_db cl i = Some l -> stored cl i l.
Proof.
  unfold store_db. destruct (find _ (aclauses cl)) as [a|] eqn:F.
  - apply find_some in F as [F1 F2]. intros E. inversion E; subst. left. exists a. split; [exact F1|]. split; [lia|reflexivity].
  - clear F. unfold unit_db. induction (map N.of_nat _) as [|v vs IH]; cbn [fold_right]; [discriminate|]. intros E.
    destruct (unit_of cl v) as [[[x|x|] b]|] eqn:U; auto. destruct (N.eqb_spec x i) as [->|]; auto. inversion E; subst. right. eauto.
Qed.
Lemma stored_store_db es c i l : reaches es c -> (stored (c_clauses c) i l <-> store_db (c_clauses c) i = Some l).
Proof.
  intros R. split; [|apply store_db_stored]. intros S. destruct (store_db (c_clauses c) i) as [m|] eqn:E.
  - f_equal. apply (proj1 (C14_identifiers_unique _ _ i i m l R (store_db_stored _ _ _ E) S) eq_refl).
  - exfalso. unfold store_db in E. destruct S as [(a&A1&A2&A3)|(v&b&A1&A2)].
    + destruct (find _ _) eqn:F; [discriminate|]. apply (find_none _ _ F) in A1. lia.
    + destruct (find _ _); [discriminate|]. unfold unit_db in E. assert (IN : In v (map N.of_nat (seq 0 (length (unit_clauses (c_clauses c)))))).
      { unfold unit_of in A1. destruct (vget (unit_clauses (c_clauses c)) v) as [o|] eqn:V; [|discriminate]. unfold vget in V.
        assert (N.to_nat v < length (unit_clauses (c_clauses c)))%nat by (apply nth_error_Some; congruence).
        apply in_map_iff. exists (N.to_nat v). split; [lia|]. apply in_seq. lia. }
      induction (map N.of_nat _) as [|w vs IH]; [destruct IN|]. cbn [fold_right] in E. destruct IN as [->|IN].
      * rewrite A1, N.eqb_refl in E. discriminate.
      * apply IH; [|exact IN]. destruct (unit_of (c_clauses c) w) as [[[x|x|] d]|]; auto. destruct (x =? i); [discriminate|exact E].
Qed.
Lemma store_db_ok es c : reaches es c -> db_ok (store_db (c_clauses c)) (c_clauses c).
Proof. intros R i l. apply (stored_store_db _ _ _ _ R). Qed.

(** A derived clause is given to the processors with identifiers of clauses that
    are stored at that time (nothing else is in [store_db], see
    [stored_store_db]), and following them refutes the negated clause: each
    clause in turn has exactly one literal that is not yet false, the last one
    has none. *)
Theorem C16_derived_hints : forall es c red clause hashes c', reaches es c -> has_processors (c_proc c) = true -> lits_u32 clause ->
  self_check_step c (AtClause red clause hashes) = ROk tt c' ->
  forall id r l hints, In (KAtClause id r l hints) (skipn (length (proc_log (c_proc c))) (proc_log (c_proc c'))) ->
    l = canon clause /\ r = red /\ store_db (c_clauses c) id = None /\ hint_check (store_db (c_clauses c)) l hints = true.
Proof.
  intros es c red clause hashes c' R HP U H id r l hints IN.
  destruct (exec_spec c (Step (AtClause red clause hashes)) c' tt (reaches_inv _ _ R) U H) as [_ T]. cbn [tr step_eff] in T.
  destruct T as [st1 id1 r1 hints1 T _ HC SE _ EM]. rewrite (em_log _ _ _ EM) in IN. change (c_proc (next_step c)) with (c_proc c) in *.
  rewrite skipn_app, skipn_all, Nat.sub_diag in IN. cbn [app skipn] in IN. change (c_clauses (next_step c)) with (c_clauses c) in *.
  specialize (HC _ (store_db_ok _ _ R) HP).
  destruct r1; [|destruct IN|destruct IN as [E|[]]; discriminate]. destruct IN as [E|[]]. inversion E; subst; clear E.
  split; [reflexivity|]. split; [reflexivity|]. split; [|exact HC].
  assert (id = next_clause_id (c_clauses c)) as -> by (inversion SE; subst; auto; try discriminate; match goal with E : SNew = (if ?b then _ else _) |- _ => destruct b; discriminate end).
  destruct (store_db (c_clauses c) _) as [m|] eqn:E; [|reflexivity]. exfalso. apply store_db_stored in E.
  pose proof (inv_wf _ (reaches_inv _ _ R)) as W. destruct E as [(a&A1&A2&A3)|(v&b&A1&A2)].
  - pose proof (gc_id _ _ _ (wf_clause _ _ _ W a A1)). lia.
  - destruct (wf_units _ _ _ W _ _ A1) as (_&j&J1&J2). cbn in J1. inversion J1; subst. lia.
Qed.
Print Assumptions C16_derived_hints.

(** The same for failed assumptions. *)
Theorem C16_failed_assumptions_hints : forall es c core hashes c', reaches es c -> has_processors (c_proc c) = true -> lits_u32 core ->
  self_check_step c (FailedAssumptions core hashes) = ROk tt c' ->
  exists hints, proc_log (c_proc c') = proc_log (c_proc c) ++ [KFailedAssumptions (canon core) hints] /\
    ((exists l, In l core /\ In (opp l) core) \/ hint_check (store_db (c_clauses c)) (map opp (canon core)) hints = true).
Proof.
  intros es c core hashes c' R HP U H.
  destruct (exec_spec c (Step (FailedAssumptions core hashes)) c' tt (reaches_inv _ _ R) U H) as [_ T]. cbn [tr step_eff] in T.
  destruct T as (_&_&_&_&hints&EM&X). exists hints. split; [exact (em_log _ _ _ EM)|]. destruct (taut core) eqn:T.
  - left. apply canonical_taut in T as (z&Z1&Z2). rewrite lnot_opp in Z2. eauto.
  - right. rewrite (map_ext opp lnot) by (intros; symmetry; apply lnot_opp). apply X; [apply (store_db_ok _ _ R)|exact HP].
Qed.
Print Assumptions C16_failed_assumptions_hints.

(** * The whole log *)

Lemma reaches_split es e c : reaches (es ++ [e]) c -> exists c1, reaches es c1 /\ event_u32 e /\ exec c1 e = ROk tt c.
Proof.
  intros (p&t&pf&tf&sh&S&F&R). apply Forall_app in F as [F1 F2]. inversion F2 as [|? ? Fe _]; subst. rewrite run_app in R.
  destruct (run _ es) as [[] c1| |] eqn:E; cbn [bind run] in R; try discriminate. exists c1.
  split; [exists p, t, pf, tf, sh; auto|]. split; [exact Fe|]. destruct (exec c1 e) as [[] c2| |]; cbn [bind] in R; congruence.
Qed.

(** No variable is deleted after the clauses have been refuted. *)
Definition no_late_deletion (es : list event) : Prop :=
  forall es1 v es2 c1, es = es1 ++ Step (DeleteVar v) :: es2 -> reaches es1 c1 -> ~ reports_unsat c1.

Lemma reaches_replay strict : forall es c, reaches es c -> has_processors (c_proc c) = true -> (strict = true -> keeps_irred es) ->
  exists db, replay strict db_empty (proc_log (c_proc c)) = Some db /\ RI strict db c /\ (strict = true -> Back es c) /\
    (no_late_deletion es -> conflict_ok db (c_clauses c)).
Proof.
  induction es as [|e es IH] using rev_ind; intros c R HP K.
  - destruct R as (p&t&pf&tf&sh&S&F&R). inversion R; subst. exists db_empty. split; [reflexivity|]. split; [|split].
    + constructor; try discriminate. intros i l [(a&[]&_)|(v&b&U&_)]. unfold unit_of in U. cbn in U. unfold vget in U. destruct (N.to_nat v); discriminate.
    + intros _. apply new_back.
    + intros _ i j. discriminate.
  - destruct (reaches_split _ _ _ R) as (c1&R1&U&X). destruct (exec_spec _ _ _ _ (reaches_inv _ _ R1) U X) as [_ T].
    destruct (tr_emits _ _ _ T) as [ks0 EM0]. rewrite (em_has _ _ _ EM0) in HP.
    assert (K12 : strict = true -> keeps_irred es /\ (forall v cl, e = Step (DeleteVar v) -> last_irred es = Some cl -> forall l, In l cl -> N.div2 l <> v)).
    { intros ES. apply keeps_irred_snoc. exact (K ES). }
    destruct (IH _ R1 HP (fun ES => proj1 (K12 ES))) as (db&A1&A2&A3&A4).
    destruct (ri_step strict es db c1 e c (reaches_inv _ _ R1) T HP A3 (fun ES => proj2 (K12 ES)) A2) as (ks&db'&B1&B2&B3&B4).
    exists db'. split; [rewrite B1, replay_app, A1; exact B2|]. split; [exact B3|]. split.
    + intros ES. eapply back_step; [apply (reaches_inv _ _ R1)|exact U|exact T|apply K12; exact ES|auto].
    + intros NL. assert (NL1 : no_late_deletion es).
      { intros es1 v es2 c2 E. apply (NL es1 v (es2 ++ [e]) c2). rewrite E, <- app_assoc. reflexivity. }
      destruct (deletes_var e) eqn:DV; [|apply B4; auto]. destruct e as [|s]; [discriminate|]. destruct s; try discriminate.
      cbn [tr step_eff] in T. destruct T as [_ _ _ UC _ _ _]. intros i j Hij. exfalso. eapply (NL es _ [] c1 eq_refl R1).
      right. right. left. rewrite UC in Hij. change (unit_conflict (c_clauses c1) = Some (i, j)) in Hij. congruence.
Qed.

(** Everything the checker gives to its processors can be replayed by a checker
    that starts with nothing, adds clauses under identifiers that are not in
    use, follows the hints in its own table only and deletes by identifier. *)
Theorem C16_log_replays : forall es c, reaches es c -> has_processors (c_proc c) = true ->
  replay false db_empty (proc_log (c_proc c)) <> None.
Proof. intros es c R HP. destruct (reaches_replay false es c R HP ltac:(discriminate)) as (db&E&_). congruence. Qed.
Print Assumptions C16_log_replays.

(** The hints for removed irredundant clauses are right as well, provided that no
    variable of the subsuming clause is deleted in between ([keeps_irred]). *)
Theorem C16_removal_hints : forall es c, reaches es c -> has_processors (c_proc c) = true -> keeps_irred es ->
  replay true db_empty (proc_log (c_proc c)) <> None.
Proof. intros es c R HP K. destruct (reaches_replay true es c R HP (fun _ => K)) as (db&E&_). congruence. Qed.
Print Assumptions C16_removal_hints.

(** The refutation reported at the end for conflicting unit clauses, provided
    that no variable is deleted after the conflict was found. *)
Theorem C16_final_refutation : forall es c c', reaches es c -> has_processors (c_proc c) = true -> no_late_deletion es ->
  self_check_delayed_steps c = ROk tt c' -> replay false db_empty (proc_log (c_proc c')) <> None.
Proof.
  intros es c c' R HP NL H. destruct (reaches_replay false es c R HP ltac:(discriminate)) as (db&A1&A2&_&A4). specialize (A4 NL).
  unfold self_check_delayed_steps, process_unit_conflicts in H. destruct (unit_conflict (c_clauses c)) as [[i j]|] eqn:UC; [|inversion H; subst; congruence].
  destruct (process_step_spec _ _ _ _ H) as [_ EM]. rewrite (em_log _ _ _ EM), replay_app, A1. cbn [replay replay1].
  rewrite (free_next _ _ _ A2). destruct (A4 _ _ UC) as (l&D1&D2).
  assert (HC : hint_check db [] [i; j] = true).
  { cbn [hint_check]. rewrite D1. cbn [filter existsb negb]. rewrite D2. rewrite <- !lnot_opp, lnot_invol. cbn [filter existsb andb orb]. rewrite N.eqb_refl. reflexivity. }
  rewrite HC. discriminate.
Qed.
Print Assumptions C16_final_refutation.

(** The independent checker is sound, so the log alone is a proof: if it contains
    the empty clause, then the clauses it adds are unsatisfiable, whatever the
    checker that produced it did. *)
Theorem C16_replay_sound : forall log db, replay false db_empty log = Some db -> refuted log ->
  forall a, exists id l, In (KAddClause id l) log /\ clause_holds a l = false.
Proof.
  intros log db H RF a.
  assert (DEC : (forall id l, In (KAddClause id l) log -> clause_holds a l = true) \/ exists id l, In (KAddClause id l) log /\ clause_holds a l = false).
  { clear. induction log as [|k log [IH|(id&l&IH1&IH2)]]; [left; intros ? ? []| |right; exists id, l; split; [right; exact IH1|exact IH2]].
    destruct k as [| id l | | | | | | | | | |]; try (left; intros i m [E|IN]; [discriminate|eauto]; fail).
    destruct (clause_holds a l) eqn:E; [left; intros i m [X|IN]; [inversion X; subst; exact E|eauto]|right; exists id, l; split; [left; reflexivity|exact E]]. }
  destruct DEC as [A|A]; [exfalso|exact A].
  destruct (replay_sound false a log db_empty db H) as [_ C]; [intros i l; discriminate|exact A|].
  destruct RF as (id&red&hints&[X|X]).
  - apply (proj1 (Forall_forall _ _) C) in X. discriminate.
  - apply A in X. discriminate.
Qed.
Print Assumptions C16_replay_sound.

(** Non-trivial: the refutation of [square] is replayed up to the empty clause
    (derivations with several hints, a unit clause). *)
Example C16_ex : exists c, reaches (square ++ refutation) c /\ has_processors (c_proc c) = true /\ keeps_irred (square ++ refutation) /\
  refuted (proc_log (c_proc c)) /\ replay true db_empty (proc_log (c_proc c)) <> None /\
  exists id red l a b, In (KAtClause id red l [a; b]) (proc_log (c_proc c)).
Proof.
  assert (X : exists c, run chk0 (square ++ refutation) = ROk tt c) by (vm_compute; eexists; reflexivity). destruct X as [c X]. exists c.
  assert (R : reaches (square ++ refutation) c).
  { exists true, true, (fun _ => false), (fun _ => false), (fun _ l => l). split; [auto|]. split; [repeat constructor|exact X]. }
  assert (K : keeps_irred (square ++ refutation)).
  { intros es1 v es2 cl E. exfalso. assert (IN : In (Step (DeleteVar v)) (square ++ refutation)) by (rewrite E; apply in_or_app; right; left; reflexivity).
    repeat (destruct IN as [IN|IN]; [discriminate|]). destruct IN. }
  split; [exact R|]. vm_compute in X. inversion X as [E]. rewrite E.
  assert (HP : has_processors (c_proc c) = true) by (subst c; reflexivity). split; [exact HP|]. split; [exact K|].
  split; [|split; [exact (C16_removal_hints _ _ R HP K)|]].
  - subst c. cbn. do 3 eexists. left. repeat (try (left; reflexivity); right).
  - subst c. cbn. do 5 eexists. repeat (try (left; reflexivity); right).
Qed.

(** [keeps_irred] cannot be dropped from [C16_removal_hints]: the subsuming clause
    may have been deleted together with its variable, and the hint refers to an
    identifier that is not in use any more (state.rs:150-204 does not reset
    [previous_irred_clause_id]). *)
Theorem C16_removal_hints_refuted : exists es c, reaches es c /\ has_processors (c_proc c) = true /\
  replay true db_empty (proc_log (c_proc c)) = None.
Proof.
  set (es := [Load [0]; Step (AtClause false [0] []); Step (DeleteVar 0); Step (AddClause [0;2]); Step (DeleteClause [0;2] DSimplified)]).
  assert (X : exists c, run chk0 es = ROk tt c) by (vm_compute; eexists; reflexivity). destruct X as [c X]. exists es, c.
  split; [exists true, true, (fun _ => false), (fun _ => false), (fun _ l => l); split; [auto|]; split; [repeat constructor|exact X]|].
  vm_compute in X. inversion X. split; vm_compute; reflexivity.
Qed.
Print Assumptions C16_removal_hints_refuted.

(** [no_late_deletion] cannot be dropped from [C16_final_refutation]: deleting the
    variable removes one of the two conflicting unit clauses, and the final
    report refers to it. *)
Theorem C16_final_refutation_refuted : exists es c c', reaches es c /\ has_processors (c_proc c) = true /\
  self_check_delayed_steps c = ROk tt c' /\ replay false db_empty (proc_log (c_proc c')) = None.
Proof.
  set (es := [Load [0]; Load [1]; Step (DeleteVar 0)]).
  assert (X : exists c c', run chk0 es = ROk tt c /\ self_check_delayed_steps c = ROk tt c') by (vm_compute; do 2 eexists; split; reflexivity).
  destruct X as (c&c'&X&Y). exists es, c, c'.
  split; [exists true, true, (fun _ => false), (fun _ => false), (fun _ l => l); split; [auto|]; split; [repeat constructor|exact X]|].
  vm_compute in X. inversion X; subst c. split; [reflexivity|]. split; [exact Y|]. vm_compute in Y. inversion Y; subst c'. vm_compute. reflexivity.
Qed.
Print Assumptions C16_final_refutation_refuted.
