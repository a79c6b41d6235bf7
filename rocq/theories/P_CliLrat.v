(** The LRAT files of the command line checker (C17, C49). *)
From Coq Require Import Lia Arith ZArith ZifyBool ZifyNat ZifyN Sorted Permutation String.
From Verif Require Import Spec Lit LitProofs SortedLits SortedLitsProofs Hash Vli VliProofs Dimacs DimacsSpec BinFormat Checker CheckerStore CheckerInv CheckerOps CheckerRup CheckerSteps
  CheckerRun CheckerCount CheckerReplay CheckerSafe P_Checker P_CheckerStore P_CheckerReplay P_CheckerSafe Lrat LratSpec LratProofs LratReplay P_Lrat CliCheck P_CliCheck.
From Verif Require Cli P_Cli CheckerValid.
Local Open Scope N_scope.

(** * Identifiers *)
Definition refs_below (m : N) (k : checked_step) : Prop :=
  match k with
  | KAtClause id _ _ hints => id < m /\ Forall (fun i => i < m) hints
  | KAddClause id _ | KDuplicatedClause id _ _ | KTautologicalClause id _ | KDeleteClause id _
  | KDeleteAtClause id _ _ _ | KDeleteRatClause id _ _ _ => id < m
  | _ => True
  end.
Lemma hint_known db hints : forall fal, hint_check db fal hints = true -> Forall (fun i => db i <> None) hints.
Proof.
  induction hints as [|i hints IH]; intros fal H; [constructor|]. cbn [hint_check] in H. destruct (db i) as [cl|] eqn:E; [|discriminate].
  constructor; [congruence|]. destruct (filter _ cl) as [|x [|y u]]; [|apply andb_prop in H as [_ H]; eapply IH; exact H|discriminate].
  destruct hints; [constructor|discriminate].
Qed.
Lemma replay_refs m ks : forall db db', (forall i, db i <> None -> i < m) -> Forall (fun i => i < m) (flat_map new_id ks) -> replay false db ks = Some db' -> Forall (refs_below m) ks.
Proof.
  induction ks as [|k ks IH]; intros db db' D N H; [constructor|]. cbn [replay flat_map] in *. apply Forall_app in N as [N1 N2]. destruct (replay1 false db k) as [db1|] eqn:E; [|discriminate].
  assert (HAS : forall id l, db_has db id l = true -> id < m).
  { intros id l X. apply D. unfold db_has in X. destruct (db id); [discriminate|discriminate X]. }
  assert (PUT : forall i l, i < m -> forall j, db_put db i l j <> None -> j < m) by (intros i l L j; unfold db_put; destruct (N.eqb_spec j i) as [->|_]; [auto|apply D]).
  assert (DEL : forall i j, db_del db i j <> None -> j < m) by (intros i j; unfold db_del; destruct (j =? i); [congruence|apply D]).
  assert (X : refs_below m k /\ forall i, db1 i <> None -> i < m).
  { destruct k as [v u|id l|id sm l|id l|id red l hs|id l|id keep l hs|id keep l pv|id l|mo|l|core hs]; cbn [replay1 refs_below new_id] in *.
    all: try (inversion E; subst; auto; fail).
    - apply Forall_inv in N1. destruct (db_free db id); inversion E; subst. split; [exact N1|apply PUT; exact N1].
    - apply Forall_inv in N1. destruct (_ && _); inversion E; subst. auto.
    - apply Forall_inv in N1. destruct (_ && _); inversion E; subst. auto.
    - apply Forall_inv in N1. destruct (db_free db id); [|discriminate]. destruct (hint_check db l hs) eqn:HC; inversion E; subst. split; [split; [exact N1|]|apply PUT; exact N1].
      eapply Forall_impl; [|eapply hint_known; exact HC]. exact D.
    - destruct (db_has db id l) eqn:HA; inversion E; subst. split; [eapply HAS; exact HA|apply DEL].
    - destruct (db_has db id l) eqn:HA; [|discriminate]. cbn [negb orb andb] in E. inversion E; subst. split; [eapply HAS; exact HA|]. destruct keep; [exact D|apply DEL].
    - destruct keep; (destruct (db_has db id l) eqn:HA; inversion E; subst); (split; [eapply HAS; exact HA|]); [exact D|apply DEL].
    - destruct (db_has db id l) eqn:HA; inversion E; subst. auto.
    - destruct (_ || _); inversion E; subst. auto. }
  constructor; [apply X|]. apply (IH db1 db'); [apply X|exact N2|exact H].
Qed.

(** How many identifiers an event takes at most *)
Definition event_ids (e : event) : N := match e with Load _ | Step (AddClause _) | Step (AtClause _ _ _) => 1 | Step (UnitClauses us) => N.of_nat (length us) | _ => 0 end.
Definition ids_used (es : list event) : N := sumN (map event_ids es).
Lemma next_step_bound c e c' : tr c e c' -> next_clause_id (c_clauses c') <= next_clause_id (c_clauses c) + event_ids e.
Proof.
  intros T.
  assert (ADD : forall x cl, c_clauses x = c_clauses c -> add_eff x cl c' -> next_clause_id (c_clauses c') <= next_clause_id (c_clauses c) + 1).
  { intros x cl CX AE. destruct AE as [E ->|E T' S1 V1 C1 _|cl1 id r E T' SE R]; [rewrite CX; lia|rewrite C1, CX; cbn [with_next_id next_clause_id]; lia|].
    destruct (store_next _ _ _ _ _ _ _ _ SE) as [(->&_&N)|(NR&N)]; rewrite CX in N.
    - destruct R as [R _]. rewrite R. lia.
    - destruct r; [congruence| |]; destruct R as [R _]; rewrite R; cbn [with_next_id next_clause_id]; rewrite N; lia. }
  destruct e as [cl|s]; cbn [tr] in T; [apply (ADD c cl); auto|].
  destruct s as [gl so|gl us|v|v sm|cl|red cl hs|us|cl pf|b|m|l|core hs| ]; cbn [step_eff] in T; cbn [event_ids].
  all: assert (NS : next_clause_id (c_clauses (next_step c)) = next_clause_id (c_clauses c)) by reflexivity.
  1,2,4,9: destruct T as (A&_); pose proof (sd_next _ _ A); lia.
  - destruct T as [_ _ _ _ NX _ _]. rewrite NX. lia.
  - apply (ADD (next_step c) cl); auto.
  - destruct T as [st1 id r hints T IMP _ SE S _]. destruct (store_next _ _ _ _ _ _ _ _ SE) as [(->&_&N)|(NR&N)]; rewrite N; change (c_clauses (next_step c)) with (c_clauses c); lia.
  - assert (G : forall x x', unit_chain x us x' -> next_clause_id (c_clauses x') <= next_clause_id (c_clauses x) + N.of_nat (length us)).
    { clear. intros x x' T. induction T as [x x' Q P|x l h rest x1 x' id r hints _ _ SE _ _ IH]; [destruct Q as [q1 _ _ _]; rewrite (sd_next _ _ q1); lia|].
      destruct (store_next _ _ _ _ _ _ _ _ SE) as [(_&_&N)|(_&N)]; cbn [length]; lia. }
    apply (G _ _ T).
  - destruct T as [id r T DE UN UC NX ST R]. rewrite NX. lia.
  - destruct T as (A&_). rewrite (sd_next _ _ A). change (c_clauses (next_step c)) with (c_clauses c). lia.
  - destruct T as (A&_). rewrite (sd_next _ _ A). change (c_clauses (next_step c)) with (c_clauses c). lia.
  - destruct T as (A&_). rewrite (sd_next _ _ A). change (c_clauses (next_step c)) with (c_clauses c). lia.
  - destruct T as (A&_). rewrite (sd_next _ _ A). change (c_clauses (next_step c)) with (c_clauses c). lia.
Qed.
Lemma next_run_bound : forall es c c' u, Inv c -> Forall event_u32 es -> run c es = ROk u c' -> next_clause_id (c_clauses c') <= next_clause_id (c_clauses c) + ids_used es.
Proof.
  apply (run_ind (fun c es c' => next_clause_id (c_clauses c') <= next_clause_id (c_clauses c) + ids_used es)).
  - intros c _. unfold ids_used. cbn. lia.
  - intros c e c1 es c' I U I1 T IH. apply next_step_bound in T. change (ids_used (e :: es)) with (event_ids e + ids_used es). lia.
Qed.
Lemma parse_ids r s r' : parse_step r = POk (s, r') -> event_ids (Step s) + bytes_left r' <= bytes_left r.
Proof.
  unfold parse_step, parse_step_gen. intros H. apply pbind_ok in H as ([code s1]&E0&H). apply rd_left in E0.
  repeat match type of H with (if ?b then _ else _) = _ => destruct b end;
    repeat match type of H with
      | pbind (read_literals _ _) _ = _ => let E := fresh "E" in apply pbind_ok in H as ([? ?]&E&H); apply literals_left in E
      | pbind (read_hashes _ _) _ = _ => let E := fresh "E" in apply pbind_ok in H as ([? ?]&E&H); apply hashes_left in E
      | pbind (read_unit_clauses _ _) _ = _ => let E := fresh "E" in apply pbind_ok in H as ([? ?]&E&H); apply unit_left in E
      | pbind _ _ = _ => let E := fresh "E" in apply pbind_ok in H as ([? ?]&E&H); apply rd_left in E
      end; try discriminate; inversion H; subst; cbn [event_ids]; lia.
Qed.
Lemma ids_app a b : ids_used (a ++ b) = ids_used a + ids_used b.
Proof. induction a as [|e a IH]; [reflexivity|]. cbn [app]. change (event_ids e + ids_used (a ++ b) = event_ids e + ids_used a + ids_used b). lia. Qed.
Lemma ids_loads f : ids_used (map Load f) = N.of_nat (length f).
Proof. induction f as [|cl f IH]; [reflexivity|]. cbn [map length]. change (1 + ids_used (map Load f) = N.of_nat (Datatypes.S (length f))). lia. Qed.
Lemma decodes_ids r ss r' : decodes_to r ss r' -> ids_used (map Step ss) + bytes_left r' <= bytes_left r.
Proof. induction 1; [cbn; lia|]. cbn [map]. change (event_ids (Step s) + ids_used (map Step ss) + bytes_left r' <= bytes_left r). apply parse_ids in H. lia. Qed.

(** The steps that a checker reports are in the range of the LRAT writer. *)
Lemma log_ok es c c' : reaches es c -> has_processors (c_proc c) = true -> no_late_deletion es -> self_check_delayed_steps c = ROk tt c' ->
  ids_used es + 1 < 2^63 -> Forall step_ok (proc_log (c_proc c')).
Proof.
  intros RC HP NL D SZ. pose proof RC as (p&t&pf&tf&sh&S&U&R). pose proof (new_inv p t pf tf sh S) as I0.
  destruct (replay false db_empty (proc_log (c_proc c'))) as [db|] eqn:RP; [|destruct (C16_final_refutation _ _ _ RC HP NL D RP)].
  assert (IO : ids_ok (checker_new p t pf tf sh)) by (split; constructor).
  pose proof (ids_run _ _ _ _ I0 U R IO) as [_ ID]. pose proof (next_run_bound _ _ _ _ I0 U R) as NB. change (next_clause_id (c_clauses (checker_new p t pf tf sh))) with 0 in NB.
  destruct (logged_run es _ _ _ I0 U R [] (logged_new p t pf tf sh)) as [[_ LF _] _]. cbn [app] in LF.
  assert (E : exists ks, proc_log (c_proc c') = proc_log (c_proc c) ++ ks /\ Forall (fun k => match k with KAtClause id _ [] _ => id = next_clause_id (c_clauses c) | _ => False end) ks).
  { unfold self_check_delayed_steps, process_unit_conflicts in D. destruct (unit_conflict _) as [[a b]|].
    - destruct (process_step_spec _ _ _ _ D) as [Q EM]. eexists. split; [exact (em_log _ _ _ EM)|]. repeat constructor.
    - inversion D; subst. exists []. rewrite app_nil_r. auto. }
  destruct E as (ks&E&K).
  assert (RB : Forall (refs_below (ids_used es + 1)) (proc_log (c_proc c'))).
  { apply (replay_refs _ _ db_empty db); [intros i X; destruct (X eq_refl)| |exact RP]. rewrite E, flat_map_app. apply Forall_app. split.
    - eapply Forall_impl; [|exact ID]. cbn. intros i L. lia.
    - clear - K NB. induction K as [|k ks H _ IH]; [constructor|]. destruct k as [| | | |id red [|] hs| | | | | | |]; try contradiction. cbn [flat_map new_id app]. constructor; [subst id; lia|exact IH]. }
  assert (IK : forall i, i < ids_used es + 1 -> id_ok i) by (intros i L; unfold id_ok; change (2^63) with 9223372036854775808 in *; lia).
  apply Forall_forall. intros k I. rewrite Forall_forall in RB. pose proof (RB k I) as B. destruct k as [v u|id l|id sm l|id l|id red l hs|id l|id keep l hs|id keep l pv|id l|mo|l|core hs]; cbn [refs_below step_ok] in *; auto.
  destruct B as [B1 B2]. split; [auto|]. split; [|eapply Forall_impl; [exact IK|exact B2]].
  rewrite E in I. apply in_app_or in I as [I|I].
  - destruct (LF _ I) as (e&Ie&FE). cbn [from_event] in FE. rewrite Forall_forall in U. specialize (U e Ie).
    destruct FE as [(r0&cl&hs0&->&->)|(us&l0&h&->&IU&->)]; cbn [event_u32 step_u32] in U.
    + apply Forall_forall. intros x X. apply (proj1 (canonical_in cl x)) in X. unfold lits_u32 in U. rewrite Forall_forall in U. auto.
    + repeat constructor. unfold lits_u32 in U. rewrite Forall_forall in U. apply U. apply in_map_iff. exists (l0, h). auto.
  - rewrite Forall_forall in K. specialize (K _ I). cbn beta iota in K. destruct l; [constructor|contradiction].
Qed.

(** * C17 *)
Lemma run_has es : forall c c', Inv c -> Forall event_u32 es -> run c es = ROk tt c' -> has_processors (c_proc c') = has_processors (c_proc c).
Proof.
  induction es as [|e es IH]; intros c c' I U R; cbn [run] in R; [inversion R; reflexivity|]. inversion U as [|? ? U1 U2]; subst.
  destruct (exec c e) as [[] c1| |] eqn:E; try discriminate. cbn [bind] in R. destruct (exec_spec _ _ _ _ I U1 E) as [I1 T].
  rewrite (IH _ _ I1 U2 R). destruct (tr_emits _ _ _ T) as (ks&EM). apply (em_has _ _ _ EM).
Qed.
Lemma run_wsteps binary ks : lrat_run (lrat_new binary) ks = fold_left do_call (map WStep ks) (lrat_new binary).
Proof. unfold lrat_run. generalize (lrat_new binary). induction ks as [|k ks IH]; intros w; [reflexivity|apply IH]. Qed.
Lemma wsteps ks : call_steps (map WStep ks) = ks.
Proof. induction ks as [|k ks IH]; [reflexivity|]. cbn [map]. change (k :: call_steps (map WStep ks) = k :: ks). rewrite IH. reflexivity. Qed.
Lemma late_end es : no_late_deletion es -> no_late_deletion (es ++ [Step End]).
Proof.
  intros H es1 v es2 c1 E. destruct (exists_last (l := Step (DeleteVar v) :: es2) ltac:(discriminate)) as (l&x&X). rewrite X, app_assoc in E.
  apply app_inj_tail in E as [-> <-]. destruct l as [|y l]; cbn [app] in X; [discriminate|]. injection X as <- ->. apply (H es1 v l c1). reflexivity.
Qed.

(** No empty clause, and no two clauses that force opposite values of a variable on their own *)
Definition no_clash (f : list (list N)) : Prop :=
  ~ In [] f /\ forall C D l, In C f -> In D f -> (forall x, In x C <-> x = l) -> ~ forall x, In x D <-> x = lnot l.
Lemma canon_one C l : canon C = [l] -> forall x, In x C <-> x = l.
Proof. intros E x. change (In x C <-> x = l). rewrite <- (canonical_in C x). change (fst (copy_canonical C)) with (canon C). rewrite E. cbn. intuition. Qed.
Lemma db_loads f : no_clash f -> forall a b, f = a ++ b -> CheckerValid.db_unsat (CheckerValid.db_after (map Load a)) = false /\
  forall l, In l (CheckerValid.db_units (CheckerValid.db_after (map Load a))) -> exists C, In C a /\ canon C = [l].
Proof.
  intros [N1 N2] a. induction a as [|C a IH] using rev_ind; intros b E; [split; [reflexivity|intros l []]|].
  rewrite <- app_assoc in E. destruct (IH _ E) as [U L]. unfold CheckerValid.db_after in *. rewrite map_app, fold_left_app. cbn [map fold_left CheckerValid.db_event]. rewrite U. cbn [orb].
  assert (L' : forall l, In l (CheckerValid.db_units (fold_left CheckerValid.db_event (map Load a) CheckerValid.db_empty)) -> exists D, In D (a ++ [C]) /\ canon D = [l]).
  { intros l I. destruct (L l I) as (D&D1&D2). exists D. split; [apply in_or_app; left; exact D1|exact D2]. }
  destruct (taut C); [split; [exact U|exact L']|]. destruct (canon C) as [|l [|m t]] eqn:EC; cbn [CheckerValid.db_store].
  - exfalso. apply N1. rewrite E. apply in_or_app. right. left. apply canon_nil. exact EC.
  - destruct (mem l _) eqn:M1; [split; [exact U|exact L']|]. destruct (mem (lnot l) _) eqn:M2.
    + exfalso. apply mem_iff in M2. destruct (L _ M2) as (D&D1&D2). apply (N2 C D l).
      * rewrite E. apply in_or_app. right. left. reflexivity.
      * rewrite E. apply in_or_app. left. exact D1.
      * apply canon_one. exact EC.
      * apply canon_one. exact D2.
    + split; [exact U|]. cbn [CheckerValid.db_units]. intros x [<-|I]; [exists C; split; [apply in_or_app; right; left; reflexivity|exact EC]|apply L'; exact I].
  - split; [exact U|exact L'].
Qed.
Lemma sync_run es : forall d c c', Inv c -> Forall event_u32 es -> run c es = ROk tt c' -> CheckerValid.sync d (s_unsat (c_state c)) (c_clauses c) ->
  CheckerValid.sync (fold_left CheckerValid.db_event es d) (s_unsat (c_state c')) (c_clauses c').
Proof.
  induction es as [|e es IH]; intros d c c' I U R S; cbn [run] in R; [inversion R; subst; exact S|]. inversion U as [|? ? U1 U2]; subst.
  destruct (exec c e) as [[] c1| |] eqn:E; try discriminate. cbn [bind] in R. destruct (exec_spec _ _ _ _ I U1 E) as [I1 T].
  apply (IH _ _ _ I1 U2 R). apply (CheckerValid.sync_step _ _ _ _ T S).
Qed.
Lemma loads_quiet f c0 : reaches (map Load f) c0 -> no_clash f -> ~ reports_unsat c0.
Proof.
  intros R N U. pose proof (reaches_flag _ _ R U) as F. destruct R as (p&t&pf&tf&sh&S&F0&R).
  assert (S0 : CheckerValid.sync CheckerValid.db_empty (s_unsat (c_state (checker_new p t pf tf sh))) (c_clauses (checker_new p t pf tf sh))) by apply CheckerValid.sync_new.
  pose proof (sync_run _ _ _ _ (new_inv p t pf tf sh S) F0 R S0) as Y. apply CheckerValid.sy_unsat in Y. destruct (db_loads f N f [] ltac:(rewrite app_nil_r; reflexivity)) as [X _].
  unfold CheckerValid.db_after in X. congruence.
Qed.

Lemma steps_accepted trans pf tf sh f ss rest file c0 c c' binary fresh calls : (forall n l, Permutation (sh n l) l) -> Forall lits_u32 f ->
  decodes_to file (ss ++ [End]) rest -> N.of_nat (length f) + bytes_left file + 1 < 2^63 ->
  run (checker_new true trans pf tf sh) (map Load f) = ROk tt c0 -> run c0 (map Step (ss ++ [End])) = ROk tt c -> self_check_delayed_steps c = ROk tt c' ->
  (forall cl, ~ In (AddClause cl) ss) -> no_late_deletion (map Load f ++ map Step ss) -> call_steps calls = proc_log (c_proc c') -> (fresh = true -> no_clash f) ->
  exists lines, lrat_parse binary (w_target (lrat_flush (fold_left do_call calls (lrat_new binary)))) = Some lines /\
    lrat_ops fresh (lrat_init f) (flat_map line_ops lines) <> None /\
    (refuted (proc_log (c_proc c')) -> In [] f \/ exists id hints, In (OAdd id [] hints) (flat_map line_ops lines)).
Proof.
  intros SH U C SZ A R D NA NL CA FR. pose proof (new_inv true trans pf tf sh SH) as I. destruct (loads_ended _ _ _ I U A) as [I0 _].
  assert (R0 : reaches (map Load f) c0) by (exists true, trans, pf, tf, sh; split; [exact SH|]; split; [apply Forall_map; exact U|exact A]).
  assert (U1 : Forall event_u32 (map Step (ss ++ [End]))).
  { apply Forall_map. clear - C. revert C. generalize (ss ++ [End]). intros l C. induction C; constructor; auto. eapply parse_step_u32. eassumption. }
  assert (RA : reaches (map Load f ++ map Step (ss ++ [End])) c).
  { exists true, trans, pf, tf, sh. split; [exact SH|]. split; [apply Forall_app; split; [apply Forall_map; exact U|exact U1]|]. rewrite run_app, A. exact R. }
  assert (HP : has_processors (c_proc c) = true).
  { rewrite (run_has (map Step (ss ++ [End])) c0 c I0 U1 R), (run_has (map Load f) _ c0 I (proj2 (Forall_map Load event_u32 f) U) A). reflexivity. }
  assert (NL' : no_late_deletion (map Load f ++ map Step (ss ++ [End]))) by (rewrite map_app, app_assoc; apply late_end; exact NL).
  apply (C17_lrat_accepted f (ss ++ [End]) c0 c c' binary fresh calls R0 U1 R HP NL' D (no_add_end _ NA) CA); [|intros FT; apply (loads_quiet f c0 R0 (FR FT))].
  apply (log_ok _ _ _ RA HP NL' D). rewrite ids_app, ids_loads. apply decodes_ids in C. lia.
Qed.

(** From the bytes of a proof file to the bytes of the LRAT file: the only bound is on the sizes of the formula and of the file.  The file is that of a checker
    which accepted the proof, for either format and any flushes in between; the proof adds no clauses of its own and deletes no variable once a conflict
    is known (else false: C16_final_refutation_refuted). *)
Theorem C17_file_accepted : forall trans pf tf sh f file ss c0 c' binary fresh calls,
  (forall n l, Permutation (sh n l) l) -> Forall lits_u32 f -> contents file ss -> N.of_nat (length f) + bytes_left file + 1 < 2^63 ->
  add_formula (checker_new true trans pf tf sh) f = ROk tt c0 -> check_proof c0 file = Some (ROk tt c') ->
  (forall cl, ~ In (AddClause cl) ss) -> no_late_deletion (map Load f ++ map Step ss) ->
  call_steps calls = proc_log (c_proc c') -> (fresh = true -> no_clash f) ->
  exists lines, lrat_parse binary (w_target (lrat_flush (fold_left do_call calls (lrat_new binary)))) = Some lines /\
    lrat_ops fresh (lrat_init f) (flat_map line_ops lines) <> None /\
    (refuted (proc_log (c_proc c')) -> In [] f \/ exists id hints, In (OAdd id [] hints) (flat_map line_ops lines)).
Proof.
  intros trans pf tf sh f file ss c0 c' binary fresh calls SH U C SZ A P NA NL CA FR. rewrite add_formula_run in A. pose proof (new_inv true trans pf tf sh SH) as I.
  destruct (loads_ended _ _ _ I U A) as [I0 E0]. destruct (loop_contents _ _ _ _ I0 E0 P) as (ss'&c&C'&R&D).
  assert (ss' = ss) by (apply (contents_unique ss' file); assumption). subst ss'. destruct C as (rest&C&_).
  apply (steps_accepted trans pf tf sh f ss rest file c0 c c' binary fresh calls); assumption.
Qed.
Print Assumptions C17_file_accepted.

(** * C49 *)
(** [varisat --check --write-lrat FILE --write-clrat FILE]: when the proof is verified, the checker for LRAT that is not part of the project accepts both files
    for the formula in the input.  They derive the empty clause if the output has the line "t UNSAT". *)
Theorem C49_lrat : forall o pf sh chunks proof text lrat clrat g cls ss, (forall n l, Permutation (sh n l) l) ->
  check_main o pf sh chunks proof = Some (Exit 0 text lrat clrat) -> Dimacs.parse chunks = inl g -> Cnf.cnf_iter g = Some cls -> contents proof ss ->
  (forall cl, ~ In (AddClause cl) ss) -> no_late_deletion (map Load cls ++ map Step ss) -> N.of_nat (length cls) + bytes_left proof + 1 < 2^63 ->
  forall (binary : bool) bytes fresh, (if binary then clrat else lrat) = Some bytes -> (fresh = true -> no_clash cls) ->
  exists lines, lrat_parse binary bytes = Some lines /\ lrat_ops fresh (lrat_init cls) (flat_map line_ops lines) <> None /\
    (says text "t UNSAT" -> ~ In [] cls -> exists id hints, In (OAdd id [] hints) (flat_map line_ops lines)).
Proof.
  intros o pf sh chunks proof text lrat clrat g cls ss SH H Eg Ec C NA NL SZ binary bytes fresh B FR.
  destruct (accepted _ _ _ _ _ _ _ _ SH H) as (f&ss'&c0&c1&c&Ep&C'&R0&R1&D&U&->&->&->). assert (ss' = ss) by (apply (contents_unique ss' proof); assumption). subst ss'.
  assert (cls = P_Cli.loaded chunks) by (pose proof (P_Cli.loaded_ok _ _ Eg); congruence). subst cls. destruct C as (rest&C&_).
  assert (W : k_lrat o || k_clrat o = true) by (destruct binary; unfold lrat_file in B; [destruct (k_clrat o)|destruct (k_lrat o)]; [destruct (k_lrat o); reflexivity|discriminate|reflexivity|discriminate]).
  assert (EB : bytes = w_target (lrat_flush (fold_left do_call (map WStep (proc_log (c_proc c))) (lrat_new binary)))).
  { rewrite <- run_wsteps. destruct binary; unfold lrat_file in B; [destruct (k_clrat o)|destruct (k_lrat o)]; try discriminate; injection B as <-; reflexivity. }
  unfold the_checker in *. rewrite W in *.
  destruct (steps_accepted true pf (fun _ => false) sh (P_Cli.loaded chunks) ss rest proof c0 c1 c binary fresh (map WStep (proc_log (c_proc c))) SH
    (valid_u32 _ (P_Cli.loaded_valid _ _ Ep)) C SZ R0 R1 D NA NL (wsteps _) FR) as (lines&L1&L2&L3).
  exists lines. rewrite EB. split; [exact L1|]. split; [exact L2|]. intros T NE. destruct L3 as [X|X]; [|contradiction|exact X].
  destruct (vd_lines "s VERIFIED" eq_refl ltac:(discriminate)) as [V1 V2]. destruct (text_lines c _ V1 V2) as (ls&_&_&TU&_). apply TU in T.
  assert (R : run (checker_new true true pf (fun _ => false) sh) (map Load (P_Cli.loaded chunks) ++ map Step (ss ++ [End])) = ROk tt c1) by (rewrite run_app, R0; exact R1).
  apply (vd_refuted _ _ (run_verdict _ _ _ _ _ _ _ SH U R D) T).
Qed.
Print Assumptions C49_lrat.

(** The refutation of the formula with all clauses over two variables: the lines of the text file are the three derived clauses. *)
Definition C49_both : check_options := CheckOptions true true.
Definition C49_square : list (list N) := [Cli.bytes "1 2 0 -1 2 0 1"; Cli.bytes " -2 0 -1 -2 0"].
Definition C49_text : list N := Cli.line "5 2 0 1 2 0" ++ Cli.line "6 1 0 5 3 0" ++ Cli.line "7 0 6 5 4 0".
Example C49_lrat_case : exists out, check_main C49_both (fun _ => false) keep_order C49_square C10_file =
    Some (Exit 0 out (Some C49_text) (Some [97; 10; 4; 0; 2; 4; 0; 97; 12; 2; 0; 10; 6; 0; 97; 14; 0; 12; 10; 8; 0])) /\ says out "t UNSAT" /\
  (exists ss, contents C10_file ss /\ (forall cl, ~ In (AddClause cl) ss) /\ no_late_deletion (map Load (P_Cli.loaded C49_square) ++ map Step ss)) /\
  no_clash (P_Cli.loaded C49_square) /\
  exists lines, lrat_parse false C49_text = Some lines /\ length lines = 3%nat /\ lrat_ops true (lrat_init (P_Cli.loaded C49_square)) (flat_map line_ops lines) <> None.
Proof.
  eexists. split; [vm_compute; reflexivity|]. split; [vm_compute; auto|]. split.
  { exists (removelast (flat_map (fun e => match e with Step s => [s] | _ => [] end) refutation)). split; [|split].
    - eexists. split; [|vm_compute; intuition discriminate].
      change (_ ++ [End]) with (flat_map (fun e => match e with Step s => [s] | _ => [] end) refutation). unfold C10_file, refutation. cbn [flat_map app].
      repeat (econstructor; [vm_compute; reflexivity|]). constructor.
    - intros cl H. vm_compute in H. intuition discriminate.
    - intros es1 v es2 c1 E. exfalso. assert (X : In (Step (DeleteVar v)) (map Load (P_Cli.loaded C49_square) ++ map Step (removelast (flat_map (fun e => match e with Step s => [s] | _ => [] end) refutation)))).
      { rewrite E. apply in_or_app. right. left. reflexivity. } vm_compute in X. intuition discriminate. }
  split.
  { split; [vm_compute; intuition discriminate|]. intros C D l I1 I2 H1 _. vm_compute in I1.
    assert (X : exists a b, In a C /\ In b C /\ a <> b) by (destruct I1 as [<-|[<-|[<-|[<-|[]]]]]; do 2 eexists; (split; [left; reflexivity|]); (split; [right; left; reflexivity|discriminate])).
    destruct X as (a&b&A&B&Ne). apply H1 in A. apply H1 in B. congruence. }
  eexists. split; [vm_compute; reflexivity|]. split; [reflexivity|]. vm_compute. discriminate.
Qed.
