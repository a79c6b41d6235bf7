(** Properties C09 to C12: what the checker accepts is right.

    [event]s are the loads and steps given to a checker, [run] processes them
    ([CheckerRun]); nothing is assumed about the processors, the hash values
    (they are chosen by the proof) or the order in which the clause map is
    traversed. *)
From Coq Require Import Permutation.
From Verif Require Import Spec Lit LitProofs Vec SortedLits SortedLitsProofs Hash Vli BinFormat Checker CheckerStore CheckerInv CheckerOps CheckerRup CheckerSteps CheckerRun.

(** [c] is the state of a fresh checker after [es] was accepted. *)
Definition reaches (es : list event) (c : ctx) : Prop :=
  exists procs trans pf tf sh, (forall n l, Permutation (sh n l) l) /\ Forall event_u32 es /\
    run (checker_new procs trans pf tf sh) es = ROk tt c.

Lemma reaches_inv es c : reaches es c -> Inv c.
Proof. intros (p&t&pf&tf&sh&S&F&R). eapply run_inv; [|exact F|exact R]. apply new_inv. exact S. Qed.
Lemma reaches_snoc es c e c' : reaches es c -> event_u32 e -> exec c e = ROk tt c' -> reaches (es ++ [e]) c'.
Proof.
  intros (p&t&pf&tf&sh&S&F&R) U E. exists p, t, pf, tf, sh. split; [exact S|]. split; [apply Forall_app; auto|].
  rewrite run_app, R. cbn [bind run]. rewrite E. reflexivity.
Qed.
Lemma reaches_sat es c W : reaches es c -> sat_events W g0 es = true ->
  s_unsat (c_state c) = false /\ sat_store (at_gen W (gens g0 es)) (c_clauses c).
Proof.
  intros (p&t&pf&tf&sh&S&F&R) H. destruct (sound_run W es _ _ _ g0 (new_inv p t pf tf sh S) F R H (new_sat _ _ _ _ _ _)) as [A B].
  split; [exact A|exact B].
Qed.

(** the clauses in the checker's store *)
Definition in_store (c : ctx) (lits : list N) : Prop := exists id, stored (c_clauses c) id lits.
Definition satisfies_store (a : asg) (c : ctx) : Prop := forall lits, in_store c lits -> clause_holds a lits = true.

Lemma stored_unit_lit (cl : clauses) v (b : bool) : v < 2^31 -> forall a, clause_holds a [2 * v + if b then 0 else 1] = true -> a v = b.
Proof.
  intros _ a H. apply clause_holds_in in H as (l&[<-|[]]&H). apply lit_holds_eq in H.
  assert (E : lit_var (2 * v + (if b then 0 else 1)) = v).
  { change (lit_var (2 * v + (if b then 0 else 1))) with (N.div2 (2 * v + if b then 0 else 1)).
    rewrite N.div2_div. symmetry. apply (N.div_unique _ 2 v (if b then 0 else 1)); destruct b; lia. }
  rewrite E in H. rewrite H, is_pos_neg, is_negative_odd. destruct b.
  - rewrite N.add_0_r, N.odd_mul. reflexivity.
  - rewrite N.odd_add, N.odd_mul. reflexivity.
Qed.

Lemma satisfies_sat a c : Inv c -> satisfies_store a c -> sat_store a (c_clauses c).
Proof.
  intros I H. split.
  - intros x Hx. apply H. exists (a_id x). left. exists x. auto.
  - intros v u Hv. destruct (wf_units _ _ _ (inv_wf _ I) v u Hv) as (LT&id&E&_). destruct u as [i b]. cbn [uc_id uc_value] in *. subst i.
    apply (stored_unit_lit (c_clauses c) v b LT). apply H. exists id. right. exists v, b. auto.
Qed.

Lemma canon_store_holds a l : clause_holds a (canon l) = true -> clause_holds a l = true.
Proof. rewrite clause_holds_canon. auto. Qed.

(** a small proof *)
Definition chk0 : ctx := checker_new true true (fun _ => false) (fun _ => false) (fun _ l => l).
Definition hs (ls : list (list N)) : list N :=
  map (fun l => match hasher_hash (c_hasher chk0) l with Some h => h | None => 0 end) ls.
Definition square : list event := [Load [0;2]; Load [1;2]; Load [0;3]; Load [3;1]].
Definition refutation : list event :=
  [Step (AtClause true [2] (hs [[0;2];[1;2]])); Step (UnitClauses [(0, nth 0 (hs [[0;3]]) 0)]); Step (AtClause false [] (hs [[1;3]])); Step End].
Definition log_of (r : res unit) : list checked_step := match r with ROk _ c => proc_log (c_proc c) | _ => [] end.

(** * C09 *)

(** An accepted derived clause is a consequence of the clauses in the store, and
    of the clauses given to the checker. *)
Theorem C09_derived_clause_implied : forall es c red clause hashes c', reaches es c -> lits_u32 clause ->
  self_check_step c (AtClause red clause hashes) = ROk tt c' ->
  (forall a, satisfies_store a c -> clause_holds a clause = true) /\
  (forall W, sat_events W g0 es = true -> clause_holds (at_gen W (gens g0 es)) clause = true).
Proof.
  intros es c red clause hashes c' R U H. pose proof (reaches_inv _ _ R) as I.
  destruct (exec_spec c (Step (AtClause red clause hashes)) c' tt I U H) as [I' T]. cbn [tr step_eff] in T.
  destruct T as [st1 id r hints T IMP _ SE ST EM]. split.
  - intros a S. apply canon_store_holds, IMP. apply (satisfies_sat _ _ I S).
  - intros W SW. apply canon_store_holds, IMP. apply (reaches_sat _ _ _ R SW).
Qed.
Print Assumptions C09_derived_clause_implied.

Theorem C09_derived_units_implied : forall es c units c', reaches es c -> lits_u32 (map fst units) ->
  self_check_step c (UnitClauses units) = ROk tt c' ->
  forall l hash, In (l, hash) units ->
  (forall a, satisfies_store a c -> lit_holds a l = true) /\
  (forall W, sat_events W g0 es = true -> lit_holds (at_gen W (gens g0 es)) l = true).
Proof.
  intros es c units c' R U H. pose proof (reaches_inv _ _ R) as I.
  destruct (exec_spec c (Step (UnitClauses units)) c' tt I U H) as [I' T]. cbn [tr step_eff] in T.
  assert (G : forall x us x', unit_chain x us x' -> forall a, sat_store a (c_clauses x) -> forall l h, In (l, h) us -> lit_holds a l = true).
  { clear. intros x us x' T. induction T as [x x' Q P|x l h rest x1 x' id r hints IMP _ SE EM _ IH]; intros a S l' h' HI; [destruct HI|]; destruct HI as [E|HI].
    - inversion E; subst. apply IMP, S.
    - apply (IH a) with (h := h'); [|exact HI]. apply (store_sound _ _ _ _ _ _ _ _ _ SE S). cbn. rewrite (IMP a S). reflexivity. }
  intros l hash HL. split.
  - intros a S. eapply (G _ _ _ T); [|exact HL]. apply (satisfies_sat _ _ I S).
  - intros W SW. eapply (G _ _ _ T); [|exact HL]. apply (reaches_sat _ _ _ R SW).
Qed.
Print Assumptions C09_derived_units_implied.

(** After an accepted derivation step, and after one that fails because the
    propagations lead to no conflict, the store is what it was before plus the
    accepted clause: no assignment made during the check remains. *)
Lemma store_eff_stored st cl lits red st' cl' id r : good_lits lits -> store_eff st cl lits red st' cl' id r ->
  forall i ls, stored cl' i ls -> stored cl i ls \/ ls = lits.
Proof.
  intros G H i ls S. assert (SAME : Permutation (aclauses cl') (aclauses cl) -> (forall v, unit_of cl' v = unit_of cl v) -> stored cl i ls).
  { intros P U. destruct S as [(x&S1&S2)|(v&b&S1&S2)]; [left; exists x; split; [apply (perm_in _ _ _ P S1)|exact S2]|].
    right. exists v, b. rewrite <- U. auto. }
  destruct H; subst; auto.
  - destruct S as [(x&S1&S2)|(v&b&S1&S2)]; [left; left; exists x; split; [apply (perm_in _ _ _ H1 S1)|exact S2]|].
    rewrite H3 in S1. destruct (N.eqb_spec (lit_var l) v) as [<-|NE]; [right|left; right; exists v, b; auto].
    inversion S1; subst. rewrite is_pos_neg, is_negative_odd. change (lit_var l) with (N.div2 l). f_equal.
    pose proof (N.div2_odd l). destruct (N.odd l); cbn [negb N.b2n] in *; lia.
  - destruct S as [(x&S1&S2&S3)|(v&b&S1&S2)]; [|left; right; exists v, b; rewrite <- H4; auto].
    destruct (perm_in _ _ _ H3 S1) as [<-|Hx]; [right; rewrite <- S3; destruct red; reflexivity|].
    left; left. exists x. split; [apply (perm_in _ _ _ (Permutation_sym H1)); right; exact Hx|auto].
  - destruct S as [(x&S1&S2&S3)|(v&b&S1&S2)]; [|left; right; exists v, b; rewrite <- H3; auto].
    destruct (perm_in _ _ _ H2 S1) as [<-|Hx]; [right; exact (eq_sym S3)|]. left; left. exists x. auto.
Qed.

Theorem C09_assignments_undone : forall es c red clause hashes r c', reaches es c -> lits_u32 clause ->
  self_check_step c (AtClause red clause hashes) = r ->
  r = ROk tt c' \/ (exists n, r = RErr (ECheckFailed n MATFailed) c') ->
  r_trail (c_rup c') = [] /\
  (forall id lits, stored (c_clauses c') id lits ->
     stored (c_clauses c) id lits \/ (r = ROk tt c' /\ forall l, In l lits <-> In l clause)).
Proof.
  intros es c red clause hashes r c' R U H C. pose proof (reaches_inv _ _ R) as I. destruct C as [->|(n&->)].
  - destruct (exec_spec c (Step (AtClause red clause hashes)) c' tt I U H) as [I' T]. cbn [tr step_eff] in T.
    split; [apply I'|]. destruct T as [st1 id r hints T IMP _ SE ST EM]. intros i ls S.
    destruct (store_eff_stored _ _ _ _ _ _ _ _ (canon_good _ U T) SE i ls S) as [A| ->]; [left; exact A|right].
    split; [reflexivity|]. intros l. apply canonical_in.
  - unfold self_check_step in H. cbn [check_step] in H. unfold check_at_clause_step in H. rewrite canon_eq in H.
    destruct (taut clause); [discriminate|]. fold (next_step c) in H.
    pose proof (check_clause_spec (next_step c) (canon clause) hashes (inv_next _ I)) as CC.
    destruct (check_clause_with_hashes (next_step c) (canon clause) hashes) as [[] c1|e c1|].
    + exfalso. cbn [bind] in H. unfold ctx_store_clause in H.
      destruct (store_clause _ _ _ _ _ _) as [[[[st cl] vs] [id' r']]|]; [|discriminate]. cbn [obind bind] in H.
      assert (P : forall x k c2, process_step x k = RErr (ECheckFailed n MATFailed) c2 -> False).
      { intros x k c2 X. unfold process_step in X. destruct (_ && _); [discriminate|]. destruct (has_transcripts _); [|discriminate].
        destruct (transcript_step _ _) as [[t|]|]; [destruct (trans_fail _ _); discriminate|discriminate|discriminate]. }
      destruct r'; try (apply P in H; exact H); discriminate.
    + cbn [bind] in H. inversion H; subst. destruct CC as [I' RO]. split; [apply I'|]. intros id lits S. left.
      eapply stored_same; [|exact S]. apply (ro_db _ _ _ RO).
    + discriminate.
Qed.
Print Assumptions C09_assignments_undone.

(** C09 examples: the derivation of the unit clause [2] is accepted, the same
    step with only one of the two hints is rejected with [MATFailed]. *)
Example C09_ex : exists c c', reaches square c /\
  self_check_step c (AtClause true [2] (hs [[0;2];[1;2]])) = ROk tt c' /\
  match self_check_step c (AtClause true [2] (hs [[0;2]])) with RErr (ECheckFailed 1 MATFailed) _ => True | _ => False end.
Proof.
  assert (X : exists c, run chk0 square = ROk tt c) by (vm_compute; eexists; reflexivity). destruct X as [c X].
  exists c.
  assert (R : reaches square c).
  { exists true, true, (fun _ => false), (fun _ => false), (fun _ l => l). split; [auto|]. split; [repeat constructor|exact X]. }
  vm_compute in X. inversion X. eexists. split; [congruence|]. split; [vm_compute; reflexivity|vm_compute; exact Logic.I].
Qed.
Example C09_units_ex : exists c c', reaches (square ++ firstn 1 refutation) c /\
  self_check_step c (UnitClauses [(0, nth 0 (hs [[0;3]]) 0)]) = ROk tt c'.
Proof.
  assert (X : exists c, run chk0 (square ++ firstn 1 refutation) = ROk tt c) by (vm_compute; eexists; reflexivity). destruct X as [c X].
  exists c.
  assert (R : reaches (square ++ firstn 1 refutation) c).
  { exists true, true, (fun _ => false), (fun _ => false), (fun _ l => l). split; [auto|]. split; [repeat constructor|exact X]. }
  vm_compute in X. inversion X. eexists. split; [congruence|]. vm_compute; reflexivity.
Qed.

(** The undo is skipped when a hash denotes no clause: the next check panics. *)
Theorem C09_undo_after_unknown_hash_refuted : exists es c s1 s2 n c1,
  reaches es c /\ self_check_step c s1 = RErr (ECheckFailed n MNoClauseForHash) c1 /\
  r_trail (c_rup c1) <> [] /\ self_check_step c1 s2 = RPanic.
Proof.
  assert (X : exists c, run chk0 square = ROk tt c) by (vm_compute; eexists; reflexivity). destruct X as [c X].
  exists square, c, (AtClause true [2] [5]), (AtClause true [2] [5]).
  assert (R : reaches square c).
  { exists true, true, (fun _ => false), (fun _ => false), (fun _ l => l). split; [auto|]. split; [repeat constructor|exact X]. }
  vm_compute in X. inversion X. do 2 eexists. split; [congruence|]. split; [vm_compute; reflexivity|].
  split; [vm_compute; discriminate|vm_compute; reflexivity].
Qed.
Print Assumptions C09_undo_after_unknown_hash_refuted.

(** * C10 *)

(** A refutation was reported: the empty clause was given to the processors, or
    the transcript says "unsatisfiable", or the checker knows it internally and
    will report it at the end. *)
Definition reports_unsat (c : ctx) : Prop :=
  refuted (proc_log (c_proc c)) \/ In TUnsat (trans_log (c_proc c)) \/ unit_conflict (c_clauses c) <> None \/ s_unsat (c_state c) = true.

Lemma reaches_flag es c : reaches es c -> reports_unsat c -> s_unsat (c_state c) = true.
Proof.
  intros (p&t&pf&tf&sh&S&F&R). destruct (obs_run es _ _ _ (new_inv p t pf tf sh S) F R (new_obs p t pf tf sh)) as [[O1 O2] _].
  assert (TO : trans_obs c) by (eapply trans_obs_run; [apply (new_inv p t pf tf sh S)|exact F|exact R|intros []]).
  intros [H|[H|[H|H]]]; auto.
Qed.

(** No assignment to the variables, even when every deletion of a variable
    starts a new variable, satisfies the clauses given so far. *)
Theorem C10_unsat_sound : forall es c, reaches es c -> reports_unsat c ->
  (forall W, sat_events W g0 es = false) /\ unsat (given es).
Proof.
  intros es c R U. pose proof (reaches_flag _ _ R U) as F.
  assert (G : forall W, sat_events W g0 es = false).
  { intros W. destruct (sat_events W g0 es) eqn:E; [|reflexivity]. destruct (reaches_sat _ _ _ R E). congruence. }
  split; [exact G|]. intros a. rewrite <- (sat_events_const a es g0). apply G.
Qed.
Print Assumptions C10_unsat_sound.

(** The delayed report of conflicting unit clauses. *)
Theorem C10_delayed_sound : forall es c c', reaches es c -> self_check_delayed_steps c = ROk tt c' -> reports_unsat c' ->
  (forall W, sat_events W g0 es = false) /\ unsat (given es).
Proof.
  intros es c c' R H U. apply (C10_unsat_sound es c R). unfold self_check_delayed_steps, process_unit_conflicts in H.
  destruct (unit_conflict (c_clauses c)) as [[a b]|] eqn:UC; [right; right; left; congruence|]. inversion H; subst. exact U.
Qed.
Print Assumptions C10_delayed_sound.

(** The whole tool: a formula is loaded, a proof file is checked and accepted,
    and a refutation is reported.  Then the formula together with the clauses
    that the file adds is unsatisfiable. *)
Theorem C10_check_proof_sound : forall procs trans pf tf sh f file c0 c, (forall n l, Permutation (sh n l) l) -> Forall lits_u32 f ->
  add_formula (checker_new procs trans pf tf sh) f = ROk tt c0 -> check_proof c0 file = Some (ROk tt c) -> reports_unsat c ->
  exists steps, decodes file steps /\ unsat (f ++ given (map Step steps)).
Proof.
  intros p t pf tf sh f file c0 c S F A B U. rewrite add_formula_run in A.
  destruct (check_proof_run _ _ _ _ _ B) as (steps&c1&D&R&P&E). exists steps. split; [exact D|].
  assert (RC : reaches (map Load f ++ map Step steps) c1).
  { exists p, t, pf, tf, sh. split; [exact S|]. split.
    - apply Forall_app. split; [|apply Forall_map; apply (decodes_u32 _ _ D)]. apply Forall_map. exact F.
    - rewrite run_app, A. exact R. }
  destruct (C10_delayed_sound _ _ _ RC P U) as [_ X]. rewrite given_app in X.
  replace (given (map Load f)) with f in X; [exact X|]. clear. induction f as [|cl f IH]; cbn [map given]; congruence.
Qed.
Print Assumptions C10_check_proof_sound.

(** When the flag is set and the delayed steps have been processed, the
    refutation has indeed been given to the processors. *)
Theorem C10_refutation_delivered : forall es c c', reaches es c -> reports_unsat c -> self_check_delayed_steps c = ROk tt c' ->
  refuted (proc_log (c_proc c')).
Proof.
  intros es c c' R U H. pose proof (reaches_flag _ _ R U) as F. destruct R as (p&t&pf&tf&sh&S&FE&R).
  assert (WR : will_report c) by (eapply flag_run; [apply (new_inv p t pf tf sh S)|exact FE|exact R|discriminate|exact F]).
  unfold self_check_delayed_steps, process_unit_conflicts in H. destruct (unit_conflict (c_clauses c)) as [[a b]|] eqn:UC.
  - destruct (process_step_spec _ _ _ _ H) as [_ [EM _ _ _]]. rewrite EM. exists (next_clause_id (c_clauses c)), false, [a; b]. left.
    apply in_or_app. right. left. reflexivity.
  - inversion H; subst. destruct WR as [WR|WR]; [exact WR|congruence].
Qed.
Print Assumptions C10_refutation_delivered.

(** ... but acceptance alone means nothing: a proof file consisting of a single
    end marker is accepted for a satisfiable formula ([varisat --check] prints
    "s VERIFIED" for it, check.rs:71-72). *)
Theorem C10_acceptance_means_unsat_refuted : exists f file c0 c,
  add_formula chk0 f = ROk tt c0 /\ check_proof c0 file = Some (ROk tt c) /\ formula_holds (fun _ => true) f = true.
Proof.
  exists [[0;2]], (write_step End, []). do 2 eexists. split; [vm_compute; reflexivity|]. split; [vm_compute; reflexivity|reflexivity].
Qed.
Print Assumptions C10_acceptance_means_unsat_refuted.

Example C10_ex : exists c, reaches (square ++ refutation) c /\ reports_unsat c /\ In TUnsat (trans_log (c_proc c)).
Proof.
  assert (X : exists c, run chk0 (square ++ refutation) = ROk tt c) by (vm_compute; eexists; reflexivity). destruct X as [c X].
  exists c.
  assert (R : reaches (square ++ refutation) c).
  { exists true, true, (fun _ => false), (fun _ => false), (fun _ l => l). split; [auto|]. split; [repeat constructor|exact X]. }
  split; [exact R|]. clear R. vm_compute in X. inversion X. clear X.
  assert (T : In TUnsat (trans_log (c_proc c))) by (subst c; cbn; tauto).
  subst c. split; [right; left; exact T|exact T].
Qed.
Definition C10_file : reader := ([], map (fun e => match e with Step s => write_step s | _ => [] end) refutation).
Example C10_file_ex :
  match add_formula chk0 (given square) with
  | ROk _ c0 => match check_proof c0 C10_file with Some (ROk _ c) => s_unsat (c_state c) = true /\ In TUnsat (trans_log (c_proc c)) | _ => False end
  | _ => False
  end.
Proof. vm_compute. split; [reflexivity|tauto]. Qed.
(** a unit conflict, reported by the delayed step *)
Example C10_delayed_ex :
  match run chk0 [Load [0]; Load [1]] with
  | ROk _ c => refuted (log_of (self_check_delayed_steps c)) /\ ~ refuted (proc_log (c_proc c))
  | _ => False
  end.
Proof.
  vm_compute. split.
  - exists 2, false, [0;1]. left. tauto.
  - intros (i&r&h&H). destruct H as [[H|[H|[]]]|[H|[H|[]]]]; discriminate.
Qed.

(** * C11 *)
Theorem C11_failed_assumptions_sound : forall es c core hashes c', reaches es c -> lits_u32 core ->
  self_check_step c (FailedAssumptions core hashes) = ROk tt c' ->
  incl core (assumed es) /\
  (forall W, sat_events W g0 es = true -> cube_holds (at_gen W (gens g0 es)) core = false) /\
  (forall a, formula_holds a (given es) = true -> cube_holds a core = false).
Proof.
  intros es c core hashes c' R U H. pose proof (reaches_inv _ _ R) as I.
  destruct (exec_spec c (Step (FailedAssumptions core hashes)) c' tt I U H) as [I' T]. cbn [tr step_eff] in T.
  destruct T as (_&_&SUB&CORE&_).
  assert (G : forall W, sat_events W g0 es = true -> cube_holds (at_gen W (gens g0 es)) core = false).
  { intros W SW. apply CORE. apply (reaches_sat _ _ _ R SW). }
  split; [|split; [exact G|]].
  - intros l Hl. apply SUB in Hl. change (In l (s_assumptions (c_state c))) in Hl. destruct R as (p&t&pf&tf&sh&S&F&R).
    rewrite (assumed_run _ _ _ _ (new_inv p t pf tf sh S) eq_refl F R) in Hl. apply (proj1 (canonical_in _ _)) in Hl. exact Hl.
  - intros a Ha. specialize (G (const_world a)). rewrite sat_events_const in G. apply (G Ha).
Qed.
Print Assumptions C11_failed_assumptions_sound.
Example C11_ex : exists c c', reaches (firstn 2 square ++ [Step (Assumptions [3; 4])]) c /\
  self_check_step c (FailedAssumptions [3] (hs [[0;2];[1;2]])) = ROk tt c' /\
  assumed (firstn 2 square ++ [Step (Assumptions [3; 4])]) = [3;4].
Proof.
  assert (X : exists c, run chk0 (firstn 2 square ++ [Step (Assumptions [3; 4])]) = ROk tt c) by (vm_compute; eexists; reflexivity). destruct X as [c X].
  exists c.
  assert (R : reaches (firstn 2 square ++ [Step (Assumptions [3; 4])]) c).
  { exists true, true, (fun _ => false), (fun _ => false), (fun _ l => l). split; [auto|]. split; [repeat constructor|exact X]. }
  vm_compute in X. inversion X. eexists. split; [congruence|]. split; [vm_compute; reflexivity|reflexivity].
Qed.

(** * C12 *)
(** An accepted model has no contradictory literals and contains the assumptions. *)
Theorem C12_model_consistent : forall es c m c', reaches es c -> lits_u32 m ->
  self_check_step c (Model m) = ROk tt c' ->
  (forall l, In l m -> ~ In (opp l) m) /\ incl (assumed es) m.
Proof.
  intros es c m c' R U H. pose proof (reaches_inv _ _ R) as I.
  destruct (exec_spec c (Step (Model m)) c' tt I U H) as [I' T]. cbn [tr step_eff] in T. destruct T as (_&_&_&M1&_&M3&_).
  split.
  - intros l Hl. specialize (M1 l Hl). rewrite lnot_val2 in M1. exact M1.
  - intros l Hl. apply M3. change (In l (s_assumptions (c_state c))). destruct R as (p&t&pf&tf&sh&S&F&R).
    rewrite (assumed_run _ _ _ _ (new_inv p t pf tf sh S) eq_refl F R). apply (proj2 (canonical_in _ _)). exact Hl.
Qed.
Print Assumptions C12_model_consistent.

(** Full statement (false, see the refutations below):
      forall es c m c', reaches es c -> self_check_step c (Model m) = ROk tt c' ->
      forall cl, In cl (given es) -> exists l, In l cl /\ In l m.
    Proved: if the checker has not yet found the formula unsatisfiable and no
    variable of the last derived irredundant clause is deleted while that clause
    can still justify deletions, the model can be extended to a solution of all
    given clauses (unassigned variables and deleted variables may need particular values). *)
Theorem C12_model_extends_partial : forall es c m c', reaches es c -> lits_u32 m -> keeps_irred es -> ~ reports_unsat c ->
  self_check_step c (Model m) = ROk tt c' ->
  exists W, sat_events W g0 es = true /\ cube_holds (at_gen W (gens g0 es)) m = true.
Proof.
  intros es c m c' R U K NU H. pose proof (reaches_inv _ _ R) as I.
  destruct (exec_spec c (Step (Model m)) c' tt I U H) as [I' T]. cbn [tr step_eff] in T. destruct T as (_&_&_&MO).
  destruct (model_extends (next_step c) m MO) as (a&A1&A2). destruct R as (p&t&pf&tf&sh&S&F&R).
  destruct (back_run _ (new_inv p t pf tf sh S) (new_back p t pf tf sh) es c tt F K R) as [B _ _].
  assert (US : s_unsat (c_state c) = false).
  { destruct (s_unsat (c_state c)) eqn:E; [|reflexivity]. exfalso. apply NU. right. right. right. exact E. }
  destruct (B US a (sat_irr _ _ A2)) as (W&W1&W2). exists W. split; [exact W2|].
  unfold cube_holds in *. rewrite forallb_forall in *. intros l Hl. rewrite (lit_holds_ext _ a); [auto|]. apply W1.
Qed.
Print Assumptions C12_model_extends_partial.

Definition no_deletes (es : list event) : Prop := forall v, ~ In (Step (DeleteVar v)) es.
Lemma no_deletes_gens es : no_deletes es -> forall g, gens g es = g.
Proof.
  induction es as [|e es IH]; intros N g; [reflexivity|]. cbn [gens]. rewrite IH.
  - destruct e as [|s]; [reflexivity|]. destruct s; try reflexivity. exfalso. eapply N. left. reflexivity.
  - intros v Hv. apply (N v). right. exact Hv.
Qed.
Lemma no_deletes_sat W es : no_deletes es -> forall g, sat_events W g es = formula_holds (at_gen W g) (given es).
Proof.
  induction es as [|e es IH]; intros N g; [reflexivity|]. cbn [sat_events].
  assert (N' : no_deletes es) by (intros v Hv; apply (N v); right; exact Hv). rewrite (IH N').
  destruct e as [cl|s]; [reflexivity|]. destruct s; try reflexivity. exfalso. eapply N. left. reflexivity.
Qed.

(** If no variable is deleted and the model assigns all variables of the given
    clauses, it satisfies each of them. *)
Theorem C12_total_model_partial : forall es c m c', reaches es c -> lits_u32 m -> no_deletes es -> ~ reports_unsat c ->
  self_check_step c (Model m) = ROk tt c' ->
  (forall cl l, In cl (given es) -> In l cl -> In l m \/ In (opp l) m) ->
  forall cl, In cl (given es) -> exists l, In l cl /\ In l m.
Proof.
  intros es c m c' R U N NU H TOT cl Hcl.
  assert (K : keeps_irred es) by (intros es1 v es2 x E; exfalso; apply (N v); rewrite E; apply in_or_app; right; left; reflexivity).
  destruct (C12_model_extends_partial es c m c' R U K NU H) as (W&W1&W2). rewrite (no_deletes_sat _ _ N) in W1. rewrite (no_deletes_gens _ N) in W2.
  unfold formula_holds in W1. rewrite forallb_forall in W1. specialize (W1 cl Hcl). apply clause_holds_in in W1 as (l&H1&H2).
  exists l. split; [exact H1|]. destruct (TOT cl l Hcl H1) as [X|X]; [exact X|]. exfalso.
  unfold cube_holds in W2. rewrite forallb_forall in W2. specialize (W2 _ X).
  assert (E : opp l = lnot l) by (rewrite lnot_val2; reflexivity). rewrite E, lit_holds_lnot, H2 in W2. discriminate.
Qed.
Print Assumptions C12_total_model_partial.

Ltac reach c X := exists true, true, (fun _ => false), (fun _ => false), (fun _ l => l); split; [auto|]; split; [repeat constructor|exact X].
Example C12_ex : exists c c', reaches (firstn 3 square ++ [Step (AtClause false [2] (hs [[0;2];[1;2]])); Step (DeleteClause [0;2] DSimplified); Step (Assumptions [2])]) c /\
  self_check_step c (Model [0;2]) = ROk tt c' /\ s_unsat (c_state c) = false /\ ~ reports_unsat c.
Proof.
  set (es := firstn 3 square ++ _).
  assert (X : exists c, run chk0 es = ROk tt c) by (vm_compute; eexists; reflexivity). destruct X as [c X].
  exists c. assert (R : reaches es c) by reach c X.
  assert (F : s_unsat (c_state c) = false /\ exists c', self_check_step c (Model [0;2]) = ROk tt c').
  { vm_compute in X. inversion X. split; [reflexivity|]. eexists. vm_compute. reflexivity. }
  destruct F as [F [c' F']]. exists c'. split; [exact R|]. split; [exact F'|]. split; [exact F|]. intros U.
  rewrite (reaches_flag _ _ R U) in F. discriminate.
Qed.

(** A unit clause that the model does not mention is not checked. *)
Theorem C12_unit_not_in_model_refuted : exists es c m c' cl, reaches es c /\ self_check_step c (Model m) = ROk tt c' /\
  ~ reports_unsat c /\ no_deletes es /\ In cl (given es) /\ forall l, In l cl -> ~ In l m.
Proof.
  set (es := [Load [0]]). assert (X : exists c, run chk0 es = ROk tt c) by (vm_compute; eexists; reflexivity). destruct X as [c X].
  assert (R : reaches es c) by reach c X.
  exists es, c, []. vm_compute in X. inversion X. eexists. exists [0]. split; [congruence|]. split; [vm_compute; reflexivity|].
  split; [intros U|]. { rewrite H0 in U. apply (reaches_flag _ _ R) in U. subst c. discriminate. }
  split; [intros v [E|[]]; discriminate|]. split; [left; reflexivity|]. intros l _ [].
Qed.
Print Assumptions C12_unit_not_in_model_refuted.

(** After a refutation any model is accepted. *)
Theorem C12_model_after_unsat_refuted : exists es c m c', reaches es c /\ self_check_step c (Model m) = ROk tt c' /\
  no_deletes es /\ unsat (given es).
Proof.
  set (es := [Load [0]; Load []]). assert (X : exists c, run chk0 es = ROk tt c) by (vm_compute; eexists; reflexivity). destruct X as [c X].
  assert (R : reaches es c) by reach c X.
  exists es, c, [0]. vm_compute in X. inversion X. eexists. split; [congruence|]. split; [vm_compute; reflexivity|].
  split; [intros v [E|[E|[]]]; discriminate|]. intros a. cbn. rewrite andb_false_r. reflexivity.
Qed.
Print Assumptions C12_model_after_unsat_refuted.

(** A variable of the input formula can be deleted; a total model violating the
    deleted unit clause is then accepted. *)
Theorem C12_deleted_input_variable_refuted : exists es c m c' cl, reaches es c /\ self_check_step c (Model m) = ROk tt c' /\
  ~ reports_unsat c /\ keeps_irred es /\ In cl (given es) /\
  (forall x l, In x (given es) -> In l x -> In l m \/ In (opp l) m) /\ forall l, In l cl -> ~ In l m.
Proof.
  set (es := [Load [0]; Step (DeleteVar 0)]). assert (X : exists c, run chk0 es = ROk tt c) by (vm_compute; eexists; reflexivity). destruct X as [c X].
  assert (R : reaches es c) by reach c X.
  exists es, c, [1]. vm_compute in X. inversion X. eexists. exists [0]. split; [congruence|]. split; [vm_compute; reflexivity|].
  split; [intros U|]. { rewrite H0 in U. apply (reaches_flag _ _ R) in U. subst c. discriminate. }
  split. { intros es1 v es2 cl E L. destruct es1 as [|e1 [|e2 es1]]; inversion E; subst; try discriminate. destruct es1; discriminate. }
  split; [left; reflexivity|]. split.
  - intros x l [<-|[]] [<-|[]]. right. left. reflexivity.
  - intros l [<-|[]] [E|[]]. discriminate.
Qed.
Print Assumptions C12_deleted_input_variable_refuted.

(** The last derived irredundant clause stays usable after its variable was
    deleted, so a clause over the re-used variable can be dropped. *)
Theorem C12_stale_subsumption_refuted : exists es c m c', reaches es c /\ self_check_step c (Model m) = ROk tt c' /\
  ~ reports_unsat c /\ (exists W, sat_events W g0 es = true) /\
  forall W, cube_holds (at_gen W (gens g0 es)) m = true -> sat_events W g0 es = false.
Proof.
  set (es := [Load [0]; Step (AtClause false [0] []); Step (DeleteVar 0); Step (AddClause [0;2]); Step (DeleteClause [0;2] DSimplified)]).
  assert (X : exists c, run chk0 es = ROk tt c) by (vm_compute; eexists; reflexivity). destruct X as [c X].
  assert (R : reaches es c) by reach c X.
  exists es, c, [1;3]. vm_compute in X. inversion X. eexists. split; [congruence|]. split; [vm_compute; reflexivity|].
  split; [intros U|]. { rewrite H0 in U. apply (reaches_flag _ _ R) in U. subst c. discriminate. }
  split; [exists (fun _ _ => true); reflexivity|]. intros W. cbn. unfold lit_holds. cbn. unfold at_gen, g0. cbn.
  destruct (W 0 1%nat), (W 1 0%nat), (W 0 0%nat); cbn; congruence.
Qed.
Print Assumptions C12_stale_subsumption_refuted.
