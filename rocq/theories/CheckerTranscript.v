(** Checkers with transcripts: what a checker with a transcript processor does is what the checker
    without it does, unless it panics.  Valid steps whose literals can be named are accepted. *)
From Coq Require Import Arith ZArith ZifyBool ZifyNat ZifyN Permutation Sorted.
From Verif Require Import Spec Lit LitProofs Vec SortedLits SortedLitsProofs Hash HashProofs Vli BinFormat Checker CheckerStore CheckerInv CheckerOps CheckerRup CheckerSteps CheckerRun CheckerCount CheckerSafe CheckerNames CheckerUsers Rup CheckerAccept P_Checker P_CheckerSafe CheckerValid P_CheckerAccept.

(** * The checker without the transcript *)

Definition er (c : ctx) : ctx :=
  with_proc c (Processing (has_processors (c_proc c)) false (proc_fail (c_proc c)) (fun _ => false) (proc_log (c_proc c)) []).
(** no transcript processor returns an error *)
Definition still (c : ctx) : Prop := forall n, trans_fail (c_proc c) n = false.

Inductive sim {A} : res A -> res A -> Prop :=
| sim_ok a c : still c -> sim (ROk a c) (ROk a (er c))
| sim_err e c : sim (RErr e c) (RErr e (er c))
| sim_panic r : sim RPanic r.

Lemma sim_bind {A B} (r r0 : res A) (k k0 : A -> ctx -> res B) : sim r r0 -> (forall a c, still c -> sim (k a c) (k0 a (er c))) -> sim (bind r k) (bind r0 k0).
Proof. intros H K. destruct H; cbn [bind]; [apply K; assumption|apply sim_err|apply sim_panic]. Qed.
Lemma sim_obind {A B} (o : option A) (k k0 : A -> res B) : (forall a, sim (k a) (k0 a)) -> sim (obind o k) (obind o k0).
Proof. intros K. destruct o; cbn [obind]; [apply K|apply sim_panic]. Qed.
Lemma sim_failed {A} c m : sim (A:=A) (failed c m) (failed (er c) m).
Proof. unfold failed. apply (sim_err _ c). Qed.

Ltac sret := match goal with |- sim (ROk ?a ?x) _ => apply (sim_ok a x) | |- sim (RErr ?e ?x) _ => apply (sim_err e x) | |- sim (failed ?x ?m) _ => apply (sim_failed x m) end.
Lemma sim_process c k : still c -> sim (process_step c k) (process_step (er c) k).
Proof.
  intros S. unfold process_step. cbn [er with_proc c_proc has_processors has_transcripts proc_fail proc_log trans_log trans_fail c_vars].
  destruct (has_processors (c_proc c) && proc_fail (c_proc c) _); [sret|].
  destruct (has_transcripts (c_proc c)).
  - destruct (transcript_step (c_vars c) k) as [[t|]|]; [rewrite S|..].
    + sret. exact S.
    + sret. exact S.
    + apply sim_panic.
  - sret. exact S.
Qed.

Lemma er_ensure c v : ctx_ensure_var (er c) v = er (ctx_ensure_var c v).
Proof. unfold ctx_ensure_var. cbn [er with_proc c_clauses c_vars]. destruct (ensure_var _ _ _). reflexivity. Qed.
Lemma still_ensure c v : still c -> still (ctx_ensure_var c v).
Proof. unfold ctx_ensure_var. destruct (ensure_var _ _ _). auto. Qed.

Lemma sim_sampling lits : forall c, still c -> sim (ensure_sampling_vars c lits) (ensure_sampling_vars (er c) lits).
Proof.
  induction lits as [|l lits IH]; intros c S; cbn [ensure_sampling_vars]; [apply sim_ok; exact S|].
  apply sim_bind; [|intros _ c1 S1; apply IH; exact S1]. unfold ensure_sampling_var. rewrite er_ensure.
  pose proof (still_ensure c (lit_var l) S) as S1. set (c1 := ctx_ensure_var c (lit_var l)) in *. clearbody c1.
  change (c_vars (er c1)) with (c_vars c1). destruct (vget _ _) as [d|]; [|apply sim_panic].
  destruct (mode_eqb _ _); [apply sim_ok; exact S1|apply sim_failed].
Qed.
Lemma sim_add_user c g u : still c -> sim (add_user_mapping c g u) (add_user_mapping (er c) g u).
Proof.
  intros S. unfold add_user_mapping. rewrite er_ensure. apply (still_ensure c g) in S. set (c1 := ctx_ensure_var c g) in *. clearbody c1.
  change (c_vars (er c1)) with (c_vars c1). destruct (_ || _); [apply sim_failed|]. destruct (vget _ _) as [d|]; [|apply sim_panic].
  destruct (mode_eqb _ _); [apply sim_failed|]. destruct (vd_user d); [apply sim_failed|]. apply (sim_process (with_vars c1 _)). exact S.
Qed.
Lemma sim_remove_user c g : still c -> sim (remove_user_mapping c g) (remove_user_mapping (er c) g).
Proof.
  intros S. unfold remove_user_mapping. rewrite er_ensure. apply (still_ensure c g) in S. set (c1 := ctx_ensure_var c g) in *. clearbody c1.
  change (c_vars (er c1)) with (c_vars c1). destruct (vget _ _) as [d|]; [|apply sim_panic].
  destruct (vd_user d); [|apply sim_failed]. apply sim_bind; [apply sim_process; exact S|]. intros _ c2 S2. apply (sim_ok _ (with_vars c2 _)). exact S2.
Qed.
Lemma sim_store c lits red : still c -> sim (ctx_store_clause c lits red) (ctx_store_clause (er c) lits red).
Proof.
  intros S. unfold ctx_store_clause. apply sim_obind. intros [[[st cl] vs] x]. apply (sim_ok _ (with_vars (with_clauses (with_state c st) cl) vs)). exact S.
Qed.
Lemma sim_add c cl : still c -> sim (add_clause c cl) (add_clause (er c) cl).
Proof.
  intros S. unfold add_clause. change (c_state (er c)) with (c_state c). change (c_clauses (er c)) with (c_clauses c).
  destruct (s_unsat _); [apply sim_ok; exact S|]. destruct (copy_canonical cl) as [tmp t]. destruct t.
  - apply sim_bind; [apply sim_process; exact S|]. intros _ c1 S1. apply (sim_ok _ (skip_id c1)). exact S1.
  - apply sim_bind; [apply sim_sampling; exact S|]. intros _ c1 S1. apply sim_bind; [apply sim_store; exact S1|]. intros [id added] c2 S2.
    assert (T : forall c, still c -> sim (bind (process_step c (KDuplicatedClause (next_clause_id (c_clauses c)) id tmp)) (fun _ c => ROk tt (skip_id c)))
      (bind (process_step (er c) (KDuplicatedClause (next_clause_id (c_clauses (er c))) id tmp)) (fun _ c => ROk tt (skip_id c)))).
    { intros x X. apply sim_bind; [apply sim_process; exact X|]. intros _ c3 S3. apply (sim_ok _ (skip_id c3)). exact S3. }
    destruct added; [apply sim_process; exact S2|..]; (apply sim_bind; [|intros _ c3 S3; apply T; exact S3]);
      [first [apply sim_process|apply sim_ok]; exact S2..].
Qed.
Lemma sim_check c lits hashes : still c -> sim (check_clause_with_hashes c lits hashes) (check_clause_with_hashes (er c) lits hashes).
Proof.
  intros S. unfold check_clause_with_hashes. apply (sim_obind (if rename_flag (c_hasher c) then rehash (c_hasher c) (c_clauses c) else Some (c_hasher c, c_clauses c))).
  intros [h cl]. cbv zeta. cbn [with_clauses with_hasher er with_proc c_rup c_clauses c_vars c_hasher c_state c_proc has_processors].
  destruct (r_trail (c_rup c)); [|apply sim_panic]. destruct (ensure_vars cl (c_vars c) lits) as [cl1 vs1]. apply sim_obind. intros [id|].
  - match goal with |- sim (ROk tt ?x) _ => apply (sim_ok tt x) end. exact S.
  - apply sim_obind. intros r. apply sim_obind. intros [r1 result]. destruct result.
    + apply sim_obind. intros us. match goal with |- sim (ROk tt ?x) _ => apply (sim_ok tt x) end. exact S.
    + apply sim_obind. intros us. match goal with |- sim (failed ?x _) _ => apply (sim_failed x) end.
    + match goal with |- sim (failed ?x _) _ => apply (sim_failed x) end.
Qed.
Lemma sim_delete_var c v : still c -> sim (check_delete_var_step c v) (check_delete_var_step (er c) v).
Proof.
  intros S. unfold check_delete_var_step. rewrite er_ensure. apply (still_ensure c v) in S. set (c1 := ctx_ensure_var c v) in *. clearbody c1.
  cbv zeta. change (c_vars (er c1)) with (c_vars c1). change (c_clauses (er c1)) with (c_clauses c1).
  apply sim_obind. intros d. destruct (vd_user d); [apply sim_failed|]. apply sim_obind. intros n0. destruct (0 <? n0); [apply sim_failed|].
  apply sim_obind. intros n1. destruct (0 <? n1); [apply sim_failed|]. apply sim_obind. intros u. apply sim_bind.
  - destruct u as [u|]; [|apply sim_ok; exact S]. destruct (uc_id u); try apply sim_panic.
    apply sim_bind; [apply sim_process; exact S|]. intros _ c2 S2. match goal with |- sim (ROk tt ?x) _ => apply (sim_ok tt x) end. exact S2.
  - intros _ c2 S2. match goal with |- sim (ROk tt ?x) _ => apply (sim_ok tt x) end. exact S2.
Qed.
Lemma sim_mode c v b : still c -> sim (check_change_sampling_mode c v b) (check_change_sampling_mode (er c) v b).
Proof.
  intros S. unfold check_change_sampling_mode. rewrite er_ensure. apply (still_ensure c v) in S. set (c1 := ctx_ensure_var c v) in *. clearbody c1.
  cbv zeta. change (c_vars (er c1)) with (c_vars c1). apply sim_obind. intros d. destruct (mode_eqb _ _); [apply sim_ok; exact S|].
  destruct (vd_user d); [match goal with |- sim (process_step ?x _) _ => apply (sim_process x) end; exact S|].
  destruct b; [match goal with |- sim (failed ?x _) _ => apply (sim_failed x) end|match goal with |- sim (ROk tt ?x) _ => apply (sim_ok tt x) end; exact S].
Qed.
Lemma sim_at c red cl hashes : still c -> sim (check_at_clause_step c red cl hashes) (check_at_clause_step (er c) red cl hashes).
Proof.
  intros S. unfold check_at_clause_step. destruct (copy_canonical cl) as [tmp t]. destruct t; [apply sim_failed|].
  apply sim_bind; [apply sim_check; exact S|]. intros _ c1 S1. apply sim_bind; [apply sim_store; exact S1|]. intros [id added] c2 S2. cbv zeta.
  set (c3 := if red then c2 else with_state c2 (with_prev (c_state c2) (Some id) tmp)).
  replace (if red then er c2 else with_state (er c2) (with_prev (c_state (er c2)) (Some id) tmp)) with (er c3) by (unfold c3; destruct red; reflexivity).
  assert (S3 : still c3) by (unfold c3; destruct red; exact S2). clearbody c3.
  destruct added; first [apply (sim_process c3); exact S3|apply sim_ok; exact S3].
Qed.
Lemma sim_delete c cl p : still c -> sim (check_delete_clause_step c cl p) (check_delete_clause_step (er c) cl p).
Proof.
  intros S. unfold check_delete_clause_step. destruct (copy_canonical cl) as [tmp t]. destruct t; [apply sim_failed|]. apply sim_bind.
  - destruct p; [apply (sim_ok None c); exact S|..].
    + change (c_state (er c)) with (c_state c). destruct (subsumed_by_previous_irred_clause _ _); [apply (sim_ok _ c); exact S|apply sim_failed].
    + apply (sim_obind (satisfied_by (unit_clauses (c_clauses c)) tmp)). intros [id|]; [apply (sim_ok _ c); exact S|apply sim_failed].
  - intros sub c1 S1. cbv zeta. apply (sim_obind (delete_clause (c_hasher c1) (c_clauses c1) (c_vars c1) tmp _)). intros [[cl1 vs1] [[id d]|m]].
    2:{ match goal with |- sim (failed ?x _) _ => apply (sim_failed x) end. }
    set (c2 := with_vars (with_clauses (with_state c1 _) cl1) vs1). assert (S2 : still c2) by exact S1.
    change (with_vars (with_clauses (with_state (er c1) _) cl1) vs1) with (er c2). clearbody c2.
    destruct p, d; try apply sim_panic; try (apply sim_ok; exact S2); try (apply sim_process; exact S2);
      (destruct sub; [apply sim_process; exact S2|apply sim_panic]).
Qed.
Lemma sim_units us : forall c, still c -> sim (check_unit_clauses_step c us) (check_unit_clauses_step (er c) us).
Proof.
  induction us as [|[l h] us IH]; intros c S; cbn [check_unit_clauses_step]; [apply sim_ok; exact S|]. rewrite er_ensure.
  apply (still_ensure c (lit_var l)) in S. set (c1 := ctx_ensure_var c (lit_var l)) in *. clearbody c1. cbv zeta.
  apply sim_bind; [apply sim_check; exact S|]. intros _ c2 S2. apply (sim_obind (store_unit_clause (c_state c2) (c_clauses c2) l)).
  intros [[st cl] [id added]]. cbv zeta. apply sim_bind; [|intros _ c3 S3; apply IH; exact S3].
  destruct added; [apply (sim_process (with_clauses (with_state c2 st) cl)); exact S2|apply sim_panic|apply (sim_ok tt (with_clauses (with_state c2 st) cl)); exact S2] ||
  (destruct added; [apply (sim_process (with_clauses (with_state c2 st) cl)); exact S2|apply (sim_ok tt (with_clauses (with_state c2 st) cl)); exact S2|apply sim_panic]).
Qed.
Lemma sim_model c m : still c -> sim (check_model_step c m) (check_model_step (er c) m).
Proof.
  intros S. unfold check_model_step. apply (sim_obind (model_lits (unit_clauses (c_clauses c)) [] m)). intros [a|msg]; [|apply sim_failed].
  change (c_state (er c)) with (c_state c). change (c_clauses (er c)) with (c_clauses c). destruct (negb _); [apply sim_failed|].
  apply sim_obind. intros [|]; [apply sim_process; exact S|apply sim_failed].
Qed.
Lemma sim_core c core hashes : still c -> sim (check_failed_assumptions_step c core hashes) (check_failed_assumptions_step (er c) core hashes).
Proof.
  intros S. unfold check_failed_assumptions_step. destruct (copy_canonical core) as [tmp d]. change (c_state (er c)) with (c_state c).
  destruct (negb _); [apply sim_failed|]. apply sim_bind; [|intros _ c1 S1; apply (sim_process c1); exact S1].
  destruct d; [|apply sim_check; exact S]. match goal with |- sim (ROk tt ?x) _ => apply (sim_ok tt x) end. exact S.
Qed.
Lemma sim_step c s : still c -> sim (check_step c s) (check_step (er c) s).
Proof.
  intros S. destruct s; cbn [check_step].
  - match goal with |- sim (ROk tt ?x) _ => apply (sim_ok tt x) end. exact S.
  - destruct user; [apply sim_add_user|apply sim_remove_user]; exact S.
  - apply sim_delete_var; exact S.
  - apply sim_mode; exact S.
  - apply sim_add; exact S.
  - apply sim_at; exact S.
  - apply sim_units; exact S.
  - apply sim_delete; exact S.
  - cbv zeta. change (c_hasher (er c)) with (c_hasher c). change (c_clauses (er c)) with (c_clauses c). apply sim_obind. intros [h cl].
    match goal with |- sim (ROk tt ?x) _ => apply (sim_ok tt x) end. exact S.
  - apply sim_model; exact S.
  - apply sim_bind; [apply sim_sampling; exact S|]. intros _ c1 S1. cbv zeta. match goal with |- sim (process_step ?x _) _ => apply (sim_process x) end. exact S1.
  - apply sim_core; exact S.
  - match goal with |- sim (ROk tt ?x) _ => apply (sim_ok tt x) end. exact S.
Qed.
Lemma sim_exec c e : still c -> sim (exec c e) (exec (er c) e).
Proof.
  intros S. destruct e as [cl|s]; cbn [exec]; [apply sim_add; exact S|]. unfold self_check_step.
  match goal with |- sim (check_step ?x _) _ => apply (sim_step x) end. exact S.
Qed.

(** * Valid steps with a transcript *)

(** A variable that is at most one that was announced or one of a clause given before *)
Definition seen (es : list event) (v : N) : Prop :=
  announced es v \/ exists cl l, (In (Load cl) es \/ In (Step (AddClause cl)) es) /\ taut cl = false /\ In l cl /\ v <= lit_var l.
(** A variable the transcript has a name for: that given by the proof, or its own *)
Definition has_name (es : list event) (v : N) : Prop := var_modes es v = Sample \/ user_names es v <> None.
(** The literals the transcript must name that the checks of the step do not cover: those of
    tautologies, and those of failed assumptions *)
Definition told (es : list event) (e : event) : Prop :=
  match e with
  | Load cl | Step (AddClause cl) =>
      db_unsat (db_after es) = true \/ taut cl = false \/ Forall (fun l => seen es (lit_var l) /\ has_name es (lit_var l)) cl
  | Step (FailedAssumptions core _) => Forall (fun l => has_name es (lit_var l)) core
  | _ => True
  end.
Definition told_history (es : list event) : Prop := forall es1 e es2, es = es1 ++ e :: es2 -> told es1 e.

Record RT (es : list event) (c : ctx) : Prop := {
  rt_ri : RI es (er c);
  rt_still : still c;
  rt_seen : db_unsat (db_after es) = false -> forall v, seen es v -> v < nvars (c_vars c);
  rt_assumed : Forall (fun l => lit_var l < nvars (c_vars c)) (assumed es) }.

Lemma rt_si es c : RT es c -> SI (history_size es) c.
Proof. intros R. pose proof (si_proc _ _ (c_proc c) (ri_si _ _ (rt_ri _ _ R))) as S. destruct c; exact S. Qed.

Lemma named_nameable es c l : RI es (er c) -> lit_var l < nvars (c_vars c) -> has_name es (lit_var l) -> nameable (c_vars c) l.
Proof.
  intros R L H. pose proof (ni_data _ _ (ri_names _ _ R) (lit_var l)) as D. change (c_vars (er c)) with (c_vars c) in D.
  unfold nameable, user_from_proof_var, vd in *. destruct (vget (var_datas (c_vars c)) (lit_var l)) as [d|] eqn:E.
  - subst d. cbn [vd_user vd_mode]. destruct (user_names es (lit_var l)) eqn:UN; [discriminate|]. destruct H as [H|H]; [rewrite H; discriminate|congruence].
  - apply vget_none in E. unfold nvars in L. lia.
Qed.

Lemma told_safe es c e : RT es c -> valid es e -> told es e -> safe_event (er c) e -> safe_event c e.
Proof.
  intros R V T G. pose proof (rt_ri _ _ R) as RI0.
  assert (ADD : forall cl, db_unsat (db_after es) = true \/ taut cl = false \/ Forall (fun l => seen es (lit_var l) /\ has_name es (lit_var l)) cl -> safe_add c cl).
  { intros cl T0 _ US TT. pose proof (sy_unsat _ _ _ (ri_sync _ _ RI0)) as Y. change (s_unsat (c_state (er c))) with (s_unsat (c_state c)) in Y.
    rewrite US in Y. destruct T0 as [T0|[T0|T0]]; [congruence|congruence|].
    rewrite Forall_forall in *. intros l H. destruct (T0 l H) as [A B]. apply (named_nameable es c l RI0); [apply (rt_seen _ _ R); auto|exact B]. }
  destruct e as [cl|s]; [apply ADD; exact T|]. destruct s; try exact G; cbn [safe_event told valid] in *.
  - apply ADD; exact T.
  - intros _. destruct V as [IN _]. unfold safe_core. rewrite Forall_forall in *. intros l H. left.
    apply (named_nameable es c l RI0); [|apply T; exact H]. pose proof (rt_assumed _ _ R) as A. rewrite Forall_forall in A. apply A, IN, H.
Qed.

(** An accepted step leaves the variables it mentions known. *)
Lemma add_known c cl u c' : Inv c -> lits_u32 cl -> add_clause c cl = ROk u c' -> s_unsat (c_state c) = false -> taut cl = false ->
  Forall (fun l => lit_var l < nvars (c_vars c')) cl.
Proof.
  intros I U H US T. unfold add_clause in H. rewrite US, canon_eq, T in H.
  destruct (ensure_sampling_vars c (canon cl)) as [[] c1| |] eqn:E1; try discriminate. cbn [bind] in H.
  destruct (ensure_sampling_vars_spec _ _ _ _ I E1) as (I1&_&_&_&F).
  assert (F1 : Forall (fun l => lit_var l < nvars (c_vars c1)) cl).
  { apply canon_forall. eapply Forall_impl; [|exact F]. intros l (d&A&_). apply (vget_some_lt _ _ _ A). }
  clear F. assert (G : nvars (c_vars c1) <= nvars (c_vars c')).
  { destruct (ctx_store_clause c1 (canon cl) false) as [[id r] c2| |] eqn:E2; try discriminate. cbn [bind] in H.
    destruct (ctx_store_spec _ _ _ _ _ _ I1 (canon_good _ U T) E2) as (_&_&_&_&_&V). pose proof (vx_nv _ _ V).
    assert (P : forall c0 k u0 c3, process_step c0 k = ROk u0 c3 -> c_vars c3 = c_vars c0).
    { intros c0 k u0 c3 E. destruct (process_step_spec _ _ _ _ E) as [-> _]. reflexivity. }
    assert (Q : forall c0 c3 k, bind (process_step c0 k) (fun _ c => ROk tt (skip_id c)) = ROk u c3 -> c_vars c3 = c_vars c0).
    { intros c0 c3 k E. destruct (process_step c0 k) as [[] c4| |] eqn:E3; try discriminate. cbn [bind] in E. inversion E; subst.
      change (c_vars (skip_id c4)) with (c_vars c4). apply (P _ _ _ _ E3). }
    destruct r.
    - rewrite (P _ _ _ _ H). exact H0.
    - cbn [bind] in H. rewrite (Q _ _ _ H). exact H0.
    - destruct (process_step c2 _) as [[] c4| |] eqn:E3; try discriminate. cbn [bind] in H. rewrite (Q _ _ _ H), (P _ _ _ _ E3). exact H0. }
  eapply Forall_impl; [|exact F1]. cbv beta. intros l L. lia.
Qed.
Lemma assume_known c l u c' : Inv c -> exec c (Step (Assumptions l)) = ROk u c' -> Forall (fun x => lit_var x < nvars (c_vars c')) l.
Proof.
  intros I H. cbn [exec] in H. unfold self_check_step in H. cbn [check_step] in H. set (c0 := with_state c _) in H.
  assert (I0 : Inv c0) by (apply inv_state; [exact I|apply (inv_assumptions _ I)|apply (inv_prev _ I)]).
  destruct (ensure_sampling_vars c0 l) as [[] c1| |] eqn:E1; try discriminate. cbn [bind] in H. cbv zeta in H.
  destruct (ensure_sampling_vars_spec _ _ _ _ I0 E1) as (_&_&_&_&F). destruct (process_step_spec _ _ _ _ H) as [-> _].
  eapply Forall_impl; [|exact F]. intros x (d&A&_). apply (vget_some_lt _ _ _ A).
Qed.
Lemma store_unsat d lits red : db_unsat d = true -> db_unsat (db_store d lits red) = true.
Proof. intros H. unfold db_store. destruct lits as [|l [|? ?]]; [reflexivity| |exact H]. destruct (mem l _); [exact H|]. destruct (mem _ _); [reflexivity|exact H]. Qed.
Lemma event_unsat d e : db_unsat d = true -> db_unsat (db_event d e) = true.
Proof.
  intros H. destruct e as [cl|s]; [|destruct s]; cbn [db_event]; try exact H; try (rewrite H; exact H).
  - apply store_unsat. exact H.
  - revert d H. induction units as [|x us IH]; intros d H; [exact H|]. cbn [fold_left]. apply IH, store_unsat. exact H.
Qed.
Lemma db_snoc es e : db_after (es ++ [e]) = db_event (db_after es) e.
Proof. unfold db_after. apply fold_left_app. Qed.

Lemma rt_step es c e : RT es c -> event_u32 e -> history_size es + event_size e < 2^32 -> valid es e -> told es e ->
  exists c', exec c e = ROk tt c' /\ RT (es ++ [e]) c'.
Proof.
  intros R U M V T. pose proof (rt_ri _ _ R) as RI0. destruct (exec_accepts es (er c) e RI0 U M V) as ([]&c0&E&[K NV]&_).
  pose proof (ri_step es (er c) e c0 tt RI0 U M V E) as R1.
  assert (BE : bits_event e) by (destruct e as [|[]]; try exact Logic.I; exact V).
  pose proof (exec_safe _ _ _ _ (si_inv _ _ (ri_si _ _ RI0)) U E BE) as G0.
  pose proof (exec_wp _ c e (rt_si _ _ R) U M (told_safe _ _ _ R V T G0)) as W.
  pose proof (sim_exec c e (rt_still _ _ R)) as S.
  destruct (exec c e) as [u c'|err c'|] eqn:E1; [|inversion S; subst; congruence|destruct W].
  inversion S as [? ? ST| |]; subst. rewrite E in *. inversion H1; subst u c0. clear S.
  change (nvars (c_vars (er c)) <= nvars (c_vars (er c'))) with (nvars (c_vars c) <= nvars (c_vars c')) in NV.
  exists c'. split; [reflexivity|]. constructor; [exact R1|exact ST| |].
  - intros NU v SV. rewrite db_snoc in NU.
    assert (NU0 : db_unsat (db_after es) = false).
    { destruct (db_unsat (db_after es)) eqn:X; [|reflexivity]. rewrite (event_unsat _ e X) in NU. discriminate. }
    pose proof (rt_seen _ _ R NU0) as OLD. destruct SV as [AN|(cl&l&IN&TT&IL&LE)].
    + apply (announced_lt _ _ v R1 AN).
    + assert (IN' : (In (Load cl) es \/ In (Step (AddClause cl)) es) \/ e = Load cl \/ e = Step (AddClause cl)).
      { destruct IN as [IN|IN]; apply in_app_iff in IN; destruct IN as [IN|[IN|[]]]; auto. }
      destruct IN' as [IN'|IN'].
      * specialize (OLD v (or_intror (ex_intro _ cl (ex_intro _ l (conj IN' (conj TT (conj IL LE))))))). lia.
      * assert (US : s_unsat (c_state c) = false) by (rewrite <- NU0; apply (sy_unsat _ _ _ (ri_sync _ _ RI0))).
        assert (F : Forall (fun l => lit_var l < nvars (c_vars c')) cl).
        { pose proof (si_inv _ _ (rt_si _ _ R)) as I.
          destruct IN' as [->| ->]; cbn [exec event_u32 step_u32] in *; [eapply add_known; eassumption|].
          unfold self_check_step in E1. eapply (add_known (next_step c)); [|exact U|exact E1|exact US|exact TT].
          apply inv_state; [exact I|apply (inv_assumptions _ I)|apply (inv_prev _ I)]. }
        rewrite Forall_forall in F. specialize (F l IL). lia.
  - assert (AS : assumed (es ++ [e]) = assume_event (assumed es) e) by (unfold assumed; apply fold_left_app). rewrite AS.
    assert (OLD : Forall (fun l => lit_var l < nvars (c_vars c')) (assumed es)).
    { eapply Forall_impl; [|apply (rt_assumed _ _ R)]. cbv beta. intros l L. lia. }
    destruct e as [cl|s]; [exact OLD|]. destruct s; try exact OLD. cbn [assume_event]. eapply assume_known; [|exact E1]. apply (si_inv _ _ (rt_si _ _ R)).
Qed.

Lemma rt_run es2 : forall es1 c, RT es1 c -> Forall event_u32 es2 -> history_size (es1 ++ es2) < 2^32 -> valid_history (es1 ++ es2) ->
  told_history (es1 ++ es2) -> exists c', run c es2 = ROk tt c' /\ RT (es1 ++ es2) c'.
Proof.
  induction es2 as [|e es2 IH]; intros es1 c R U M V T; cbn [run]; [exists c; rewrite app_nil_r; auto|]. inversion U as [|? ? U1 U2]; subst.
  assert (M1 : history_size es1 + event_size e < 2^32).
  { unfold history_size in M. rewrite map_app, sumN_app in M. cbn in M. fold (history_size es1) in M. lia. }
  destruct (rt_step es1 c e R U1 M1 (V es1 e es2 eq_refl) (T es1 e es2 eq_refl)) as (c1&E&R1). rewrite E. cbn [bind].
  replace (es1 ++ e :: es2) with ((es1 ++ [e]) ++ es2) in * by (rewrite <- app_assoc; reflexivity). apply IH; auto.
Qed.
Lemma rt_new p t pf tf sh : (forall n l, Permutation (sh n l) l) -> (forall n, pf n = false) -> (forall n, tf n = false) -> RT [] (checker_new p t pf tf sh).
Proof.
  intros SH PF TF. constructor; [apply (ri_new p pf (fun _ => false) sh SH PF)|exact TF| |constructor].
  intros _ v [(w&x&[]&_)|(cl&l&[[]|[]]&_)].
Qed.
Lemma rt_delayed es c : RT es c -> exists c', process_unit_conflicts c = ROk tt c'.
Proof.
  intros R. unfold process_unit_conflicts. destruct (unit_conflict (c_clauses c)) as [[a b]|]; [|eauto].
  destruct (ri_calm _ _ (rt_ri _ _ R)) as [PF _]. change (proc_fail (c_proc (er c))) with (proc_fail (c_proc c)) in PF.
  unfold process_step. rewrite PF, andb_false_r. destruct (has_transcripts (c_proc c)); [|eauto]. cbn [transcript_step]. rewrite (rt_still _ _ R). eauto.
Qed.

Lemma loop_told ss : forall es c r r' fuel, RT es c -> s_ended (c_state c) = false -> ~ In End ss -> decodes_to r (ss ++ [End]) r' ->
  history_size (es ++ map Step (ss ++ [End])) < 2^32 -> valid_history (es ++ map Step (ss ++ [End])) -> told_history (es ++ map Step (ss ++ [End])) ->
  check_proof_loop fuel c r <> None -> exists c', check_proof_loop fuel c r = Some (ROk tt c').
Proof.
  induction ss as [|s ss IH]; intros es c r r' fuel R EN NE D M V T NN; cbn [app map] in *; inversion D as [|? ? r1 ? ? P D']; subst;
    pose proof (parse_step_u32 _ _ _ P) as U; (destruct fuel as [|fuel]; cbn [check_proof_loop] in *; rewrite EN in *; [congruence|]); rewrite P in *; fold (next_step c) in *.
  - assert (M1 : history_size es + event_size (Step End) < 2^32).
    { unfold history_size in M. rewrite map_app, sumN_app in M. cbn [map sumN fold_right] in M. fold (history_size es) in M. lia. }
    destruct (rt_step es c (Step End) R U M1 (V es (Step End) [] eq_refl) (T es (Step End) [] eq_refl)) as (c1&E&R1).
    cbn [exec] in E. unfold self_check_step in E. fold (next_step c) in E. rewrite E in *.
    cbn [check_step] in E. inversion E; subst c1. destruct (rt_delayed _ _ R1) as [c' PC]. exists c'.
    destruct fuel; cbn [check_proof_loop]; match goal with |- context [s_ended ?x] => change (s_ended x) with true end; cbn iota; rewrite PC; reflexivity.
  - assert (M1 : history_size es + event_size (Step s) < 2^32).
    { unfold history_size in M. rewrite map_app, sumN_app in M. cbn [map sumN fold_right] in M. fold (history_size es) in M. lia. }
    destruct (rt_step es c (Step s) R U M1 (V es (Step s) _ eq_refl) (T es (Step s) _ eq_refl)) as (c1&E&R1).
    destruct (exec_spec c (Step s) c1 tt (si_inv _ _ (rt_si _ _ R)) U E) as [_ TE]. cbn [tr] in TE. cbn [exec] in E. unfold self_check_step in E. fold (next_step c) in E.
    rewrite E in *. change (es ++ Step s :: map Step (ss ++ [End])) with (es ++ [Step s] ++ map Step (ss ++ [End])) in *. rewrite app_assoc in *.
    apply (IH (es ++ [Step s]) c1 r1 r' fuel R1); auto.
    + rewrite (ended_step _ _ _ TE). destruct s; auto. destruct NE. left. reflexivity.
    + intros H. apply NE. right. exact H.
Qed.
