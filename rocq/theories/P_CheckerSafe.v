(** Property C19: when checking a proof cannot panic, and when it does. *)
From Coq Require Import Arith ZArith ZifyBool ZifyNat ZifyN Permutation.
From Verif Require Import Spec Lit LitProofs Vec SortedLits SortedLitsProofs Hash Vli BinFormat Checker CheckerStore CheckerInv CheckerOps CheckerRup CheckerSteps CheckerRun CheckerCount CheckerSafe P_Checker.

(** * Bytes read *)
Definition bytes_left (r : reader) : N := N.of_nat (length (fst r) + length (concat (snd r))).

Lemma fill_left r : bytes_left (fill_buf r) = bytes_left r.
Proof. destruct r as [[|b l] [|c cs]]; try reflexivity. unfold bytes_left. cbn [fill_buf fst snd concat length]. rewrite app_length. lia. Qed.
Lemma read_byte_left r b r' : read_byte r = Some (b, r') -> bytes_left r = bytes_left r' + 1.
Proof.
  unfold read_byte. intros H. rewrite <- fill_left. destruct (fill_buf r) as [[|x buf] rest]; [discriminate|]. inversion H; subst.
  unfold bytes_left. cbn [fst snd length]. lia.
Qed.
Lemma read_rest_left n : forall i len res r v r', read_rest n i len res r = Some (v, r') -> bytes_left r' <= bytes_left r.
Proof.
  induction n as [|n IH]; intros i len res r v r' H; cbn [read_rest] in H; [inversion H; lia|].
  destruct (read_byte r) as [[b r1]|] eqn:E; [|discriminate]. apply read_byte_left in E. apply IH in H. lia.
Qed.
Lemma read_u64_left r v r' : read_u64 r = Some (v, r') -> bytes_left r' < bytes_left r.
Proof.
  unfold read_u64. intros H. rewrite <- (fill_left r). destruct (Nat.leb_spec 16 (length (fst (fill_buf r)))) as [L|L].
  - unfold read_u64_fast in H. set (len := ctz _ + 1) in *. assert (1 <= len) by (unfold len; lia). clearbody len.
    assert (K : r' = consume (N.to_nat len) (fill_buf r)) by (destruct (len <=? 8); inversion H; reflexivity). subst r'.
    unfold bytes_left, consume. cbn [fst snd]. rewrite skipn_length. lia.
  - unfold read_u64_slow in H. destruct (read_byte (fill_buf r)) as [[b0 r1]|] eqn:E; [|discriminate]. apply read_byte_left in E.
    destruct (b0 =? 0).
    + destruct (read_byte r1) as [[b1 r2]|] eqn:E1; [|discriminate]. apply read_byte_left in E1. apply read_rest_left in H. lia.
    + apply read_rest_left in H. lia.
Qed.
Lemma rd_left r v r' : rd_p read_u64 r = POk (v, r') -> bytes_left r' + 1 <= bytes_left r.
Proof. unfold rd_p. destruct (read_u64 r) as [[x y]|] eqn:E; [|discriminate]. intros H. inversion H; subst. apply read_u64_left in E. lia. Qed.
Lemma rd_n_left conv n : forall r l r', rd_n read_u64 conv n r = POk (l, r') -> N.of_nat (length l) + bytes_left r' <= bytes_left r.
Proof.
  induction n as [|n IH]; intros r l r' H; cbn [rd_n] in H; [inversion H; cbn; lia|].
  apply pbind_ok in H as ([v s1]&E1&H). apply rd_left in E1. apply pbind_ok in H as ([vs s2]&E&H). apply IH in E. inversion H; subst. cbn [length]. lia.
Qed.
Lemma rd_pairs_left n : forall r l r', rd_pairs read_u64 n r = POk (l, r') -> N.of_nat (length l) + bytes_left r' <= bytes_left r.
Proof.
  induction n as [|n IH]; intros r l r' H; cbn [rd_pairs] in H; [inversion H; cbn; lia|].
  apply pbind_ok in H as ([v s1]&E1&H). apply rd_left in E1. apply pbind_ok in H as ([v2 s2]&E2&H). apply rd_left in E2.
  apply pbind_ok in H as ([vs s3]&E&H). apply IH in E. inversion H; subst. cbn [length]. lia.
Qed.
Lemma literals_left r l r' : read_literals read_u64 r = POk (l, r') -> N.of_nat (length l) + bytes_left r' + 1 <= bytes_left r.
Proof.
  unfold read_literals. intros H. apply pbind_ok in H as ([len s1]&E&H). apply rd_left in E. destruct (reserve_ok len 4); [|discriminate].
  apply rd_n_left in H. lia.
Qed.
Lemma hashes_left r l r' : read_hashes read_u64 r = POk (l, r') -> bytes_left r' <= bytes_left r.
Proof.
  unfold read_hashes. intros H. apply pbind_ok in H as ([len s1]&E&H). apply rd_left in E. destruct (reserve_ok len 8); [|discriminate].
  apply rd_n_left in H. lia.
Qed.
Lemma unit_left r l r' : read_unit_clauses read_u64 r = POk (l, r') -> N.of_nat (length l) + bytes_left r' <= bytes_left r.
Proof.
  unfold read_unit_clauses. intros H. apply pbind_ok in H as ([len s1]&E&H). apply rd_left in E. destruct (reserve_ok len 16); [|discriminate].
  apply rd_pairs_left in H. lia.
Qed.

(** the clauses of a step take no more room than the bytes it was read from *)
Lemma parse_left r s r' : parse_step r = POk (s, r') -> event_size (Step s) + bytes_left r' <= bytes_left r /\ bytes_left r' < bytes_left r.
Proof.
  unfold parse_step, parse_step_gen. intros H. apply pbind_ok in H as ([code s1]&E0&H). apply rd_left in E0.
  repeat match type of H with (if ?b then _ else _) = _ => destruct b end;
    repeat match type of H with
      | pbind (read_literals _ _) _ = _ => let E := fresh "E" in apply pbind_ok in H as ([? ?]&E&H); apply literals_left in E
      | pbind (read_hashes _ _) _ = _ => let E := fresh "E" in apply pbind_ok in H as ([? ?]&E&H); apply hashes_left in E
      | pbind (read_unit_clauses _ _) _ = _ => let E := fresh "E" in apply pbind_ok in H as ([? ?]&E&H); apply unit_left in E
      | pbind _ _ = _ => let E := fresh "E" in apply pbind_ok in H as ([? ?]&E&H); apply rd_left in E
      end; try discriminate; inversion H; subst; cbn [event_size]; unfold clause_size; lia.
Qed.

(** the steps in a file and where reading them ends *)
Inductive decodes_to : reader -> list proof_step -> reader -> Prop :=
| DTNil r : decodes_to r [] r
| DTCons r s r1 ss r' : parse_step r = POk (s, r1) -> decodes_to r1 ss r' -> decodes_to r (s :: ss) r'.

Lemma decodes_left r ss r' : decodes_to r ss r' -> history_size (map Step ss) + bytes_left r' <= bytes_left r.
Proof.
  induction 1; [cbn; lia|]. cbn [map]. change (history_size (Step s :: map Step ss)) with (event_size (Step s) + history_size (map Step ss)).
  apply parse_left in H. lia.
Qed.

(** * C19 *)

(** Reading and checking a file always ends: with acceptance, an error or a
    panic. *)
Lemma loop_ends fuel : forall c r, bytes_left r < N.of_nat fuel -> check_proof_loop fuel c r <> None.
Proof.
  induction fuel as [|fuel IH]; intros c r L; [lia|]. cbn [check_proof_loop]. destruct (s_ended _); [discriminate|].
  destruct (parse_step r) as [[s rest]| | |] eqn:P; try discriminate. destruct (check_step _ s); try discriminate.
  apply IH. apply parse_left in P. lia.
Qed.
Theorem C19_check_proof_ends : forall c file, check_proof c file <> None.
Proof. intros c file. apply loop_ends. unfold bytes_left. lia. Qed.
Print Assumptions C19_check_proof_ends.

(** One more event in a state reached with acceptable hash widths and less than
    [2^32] stored literals does not panic if
    - a model, and a clause deleted as satisfied, mentions only variables known
      to the checker ([nvars]);
    - with transcripts registered, a tautology that is loaded and a failed core
      mention only variables that have a name for the user (or, for the core,
      variables that are new).
    The full claim (no panic for any steps) is false, see below. *)
Definition guarded (c : ctx) (e : event) : Prop :=
  match e with
  | Load l | Step (AddClause l) => has_transcripts (c_proc c) = true -> taut l = true -> Forall (nameable (c_vars c)) l
  | Step (Model l) | Step (DeleteClause l DSatisfied) => Forall (fun l => lit_var l < nvars (c_vars c)) l
  | Step (FailedAssumptions core _) => has_transcripts (c_proc c) = true -> safe_core c core
  | _ => True
  end.
Lemma guarded_safe c e : bits_event e -> guarded c e -> safe_event c e.
Proof.
  destruct e as [l|s]; [|destruct s]; cbn [bits_event guarded safe_event]; try tauto; unfold safe_add; auto.
Qed.
Lemma history_snoc es e : history_size (es ++ [e]) = history_size es + event_size e.
Proof. unfold history_size. induction es as [|x es IH]; cbn [app map sumN fold_right] in *; unfold sumN in *; cbn [fold_right] in *; lia. Qed.

Theorem C19_no_panic_partial : forall es c e, reaches es c -> event_u32 e -> Forall bits_event (es ++ [e]) ->
  history_size (es ++ [e]) < 2^32 -> guarded c e -> exec c e <> RPanic.
Proof.
  intros es c e (p&t&pf&tf&sh&S&F&R) U B M G. apply Forall_app in B as [B1 B2]. inversion B2 as [|? ? BE _]; subst. rewrite history_snoc in M.
  pose proof (si_run es 0 _ _ _ (new_si p t pf tf sh S) F B1 ltac:(lia) R) as SI0. rewrite N.add_0_l in SI0.
  pose proof (exec_wp _ _ _ SI0 U M (guarded_safe _ _ BE G)) as W. intros X. rewrite X in W. exact W.
Qed.
Print Assumptions C19_no_panic_partial.

(** Delayed processing at the end of a proof never panics. *)
Theorem C19_delayed_steps_no_panic : forall es c, reaches es c -> self_check_delayed_steps c <> RPanic.
Proof.
  intros es c R. unfold self_check_delayed_steps, process_unit_conflicts. destruct (unit_conflict _) as [[a b]|]; [|discriminate].
  unfold process_step. destruct (_ && _); [discriminate|]. destruct (has_transcripts _); [|discriminate]. cbn [transcript_step].
  destruct (trans_fail _ _); discriminate.
Qed.
Print Assumptions C19_delayed_steps_no_panic.

(** Whole runs and whole files: steps that cannot meet a guard above are safe in
    every order and number, whether accepted or not. *)
Definition plain (s : proof_step) : Prop :=
  match s with
  | Model _ | DeleteClause _ DSatisfied => False
  | ChangeHashBits b => 1 <= b /\ b <= 64
  | _ => True
  end.
Definition plain_event (e : event) : Prop := match e with Load _ => True | Step s => plain s end.

Lemma plain_safe c e : has_transcripts (c_proc c) = false -> plain_event e -> safe_event c e.
Proof.
  intros T P. destruct e as [l|s]; [|destruct s]; cbn [plain_event plain safe_event] in *; try tauto; try (intros X; congruence).
  destruct proof; tauto.
Qed.
Lemma chain_trans c us c' : unit_chain c us c' -> has_transcripts (c_proc c') = has_transcripts (c_proc c).
Proof.
  induction 1 as [c c' Q P|c l hash rest c1 c' id r hints _ _ _ EM _ IH]; [rewrite P; reflexivity|]. rewrite IH. apply (em_trans _ _ _ EM).
Qed.
Lemma keeps_trans c e c' u : Inv c -> event_u32 e -> exec c e = ROk u c' -> has_transcripts (c_proc c') = has_transcripts (c_proc c).
Proof.
  intros I U H. pose proof (exec_spec _ _ _ _ I U H) as [_ T].
  assert (A : forall x cl y, add_eff x cl y -> has_transcripts (c_proc y) = has_transcripts (c_proc x)).
  { intros x cl y X. destruct X as [_ ->|_ _ _ _ _ E|cl1 id r _ _ _ X]; [reflexivity|apply (em_trans _ _ _ E)|].
    destruct r; destruct X as [_ E]; apply (em_trans _ _ _ E). }
  change (has_transcripts (c_proc c)) with (has_transcripts (c_proc (next_step c))).
  destruct e as [cl|s]; [exact (A _ _ _ T)|]. cbn [tr] in T. destruct s; cbn [step_eff] in T.
  1,2,4,9: destruct T as (_&_&ks&E&_); apply (em_trans _ _ _ E).
  - destruct T as [_ _ _ _ _ _ E]. apply (em_trans _ _ _ E).
  - apply (A _ _ _ T).
  - destruct T as [st1 id r hints _ _ _ _ _ E]. apply (em_trans _ _ _ E).
  - apply (chain_trans _ _ _ T).
  - destruct T as [id r _ _ _ _ _ _ E]. destruct (is_red proof); [apply (em_trans _ _ _ E)|]. destruct E as (s&_&E). apply (em_trans _ _ _ E).
  - destruct T as (_&_&E&_). apply (em_trans _ _ _ E).
  - destruct T as (_&_&E). apply (em_trans _ _ _ E).
  - destruct T as (_&_&_&_&hints&E&_). apply (em_trans _ _ _ E).
  - destruct T as (_&_&E). apply (em_trans _ _ _ E).
Qed.

Lemma run_plain es : forall m c, SI m c -> has_transcripts (c_proc c) = false -> Forall event_u32 es -> Forall plain_event es ->
  m + history_size es < 2^32 -> run c es <> RPanic.
Proof.
  induction es as [|e es IH]; intros m c S T U P M; cbn [run]; [discriminate|]. inversion U as [|? ? U1 U2]; subst. inversion P as [|? ? P1 P2]; subst.
  change (history_size (e :: es)) with (event_size e + history_size es) in M.
  pose proof (exec_wp m c e S U1 ltac:(lia) (plain_safe _ _ T P1)) as W.
  destruct (exec c e) as [[] c1|err c1|] eqn:E; cbn [bind wp] in *; [|discriminate|tauto].
  apply (IH (m + event_size e)); auto; [|lia]. rewrite (keeps_trans _ _ _ _ (si_inv _ _ S) U1 E). exact T.
Qed.

Theorem C19_plain_run_no_panic_partial : forall procs pf tf sh es, (forall n l, Permutation (sh n l) l) -> Forall event_u32 es ->
  Forall plain_event es -> history_size es < 2^32 -> run (checker_new procs false pf tf sh) es <> RPanic.
Proof. intros procs pf tf sh es S U P M. apply (run_plain es 0); auto. apply new_si. exact S. Qed.
Print Assumptions C19_plain_run_no_panic_partial.

(** The size bound follows from the number of bytes in the file; what is left to
    assume about it is that no length field exceeds what a vector can hold. *)
Lemma loop_plain fuel : forall m c r, SI m c -> has_transcripts (c_proc c) = false ->
  (forall ss r', decodes_to r ss r' -> Forall plain ss /\ parse_step r' <> PPanic) ->
  m + bytes_left r < 2^32 -> check_proof_loop fuel c r <> Some RPanic.
Proof.
  induction fuel as [|fuel IH]; intros m c r S T D M; cbn [check_proof_loop]; destruct (s_ended _).
  1, 3: unfold process_unit_conflicts; destruct (unit_conflict _) as [[a b]|]; [|discriminate]; unfold process_step;
    destruct (_ && _); [discriminate|]; rewrite T; discriminate.
  - discriminate.
  - destruct (parse_step r) as [[s rest]| | |] eqn:P; try discriminate.
    + pose proof (parse_left _ _ _ P) as [L _]. destruct (D [s] rest) as [PL _]; [econstructor; [exact P|constructor]|]. inversion PL as [|? ? PS _]; subst.
      pose proof (parse_step_u32 _ _ _ P) as U.
      pose proof (exec_wp m c (Step s) S U ltac:(lia) (plain_safe c (Step s) T PS)) as W. cbn [exec] in W. unfold self_check_step in W.
      destruct (check_step _ s) as [[] c1|err c1|] eqn:E; cbn [wp] in W; [|discriminate|tauto].
      apply (IH (m + event_size (Step s))); [exact W| | |lia].
      * rewrite (keeps_trans c (Step s) c1 tt (si_inv _ _ S) U E). exact T.
      * intros ss r' X. destruct (D (s :: ss) r') as [A B]; [econstructor; eassumption|]. inversion A; subst. auto.
    + destruct (D [] r) as [_ B]; [constructor|]. congruence.
Qed.

Lemma formula_size f : history_size (map Load f) = sumN (map clause_size f).
Proof. unfold history_size. rewrite map_map. reflexivity. Qed.

Theorem C19_plain_file_no_panic_partial : forall procs pf tf sh f file c, (forall n l, Permutation (sh n l) l) -> Forall lits_u32 f ->
  add_formula (checker_new procs false pf tf sh) f = ROk tt c ->
  (forall ss r', decodes_to file ss r' -> Forall plain ss /\ parse_step r' <> PPanic) ->
  sumN (map clause_size f) + bytes_left file < 2^32 -> check_proof c file <> Some RPanic.
Proof.
  intros procs pf tf sh f file c S F A D M. rewrite add_formula_run in A. rewrite <- formula_size in M.
  assert (U : Forall event_u32 (map Load f)) by (apply Forall_map; exact F).
  assert (B : Forall bits_event (map Load f)) by (apply Forall_map; rewrite Forall_forall; intros; exact I).
  pose proof (si_run _ 0 _ _ _ (new_si procs false pf tf sh S) U B ltac:(lia) A) as SI0. rewrite N.add_0_l in SI0.
  apply (loop_plain _ _ _ _ SI0); [|exact D|exact M]. clear D M SI0 B F.
  assert (G : forall es c0, Inv c0 -> Forall event_u32 es -> run c0 es = ROk tt c -> has_transcripts (c_proc c) = has_transcripts (c_proc c0)).
  { clear. induction es as [|e es IH]; intros c0 I0 U R; cbn [run] in R; [inversion R; reflexivity|]. inversion U as [|? ? U1 U2]; subst.
    destruct (exec c0 e) as [[] c1| |] eqn:E; try discriminate. cbn [bind] in R. destruct (exec_spec _ _ _ _ I0 U1 E) as [I1 _].
    rewrite (IH _ I1 U2 R). apply (keeps_trans _ _ _ _ I0 U1 E). }
  rewrite (G _ _ (new_inv procs false pf tf sh S) U A). reflexivity.
Qed.
Print Assumptions C19_plain_file_no_panic_partial.

(** a proof that is rejected, and one that is accepted, without a panic *)
Definition chk1 : ctx := checker_new true false (fun _ => false) (fun _ => false) (fun _ l => l).
Example C19_ex : exists c, run chk1 (square ++ refutation) = ROk tt c /\ Forall event_u32 (square ++ refutation) /\
  Forall plain_event (square ++ refutation) /\ history_size (square ++ refutation) = 15 /\
  exists e c', run chk1 [Load [0;2]; Step (AtClause true [0] (hs [[0;2]]))] = RErr e c'.
Proof.
  eexists. split; [vm_compute; reflexivity|]. split; [repeat constructor|]. split; [repeat constructor|]. split; [reflexivity|].
  eexists. eexists. vm_compute. reflexivity.
Qed.

(** ** The full claim is false: proof steps that make the checker panic *)

(** a model, or a clause deleted as satisfied, with a variable that never
    occurred *)
Theorem C19_model_unknown_variable_refuted : exists es c m, reaches es c /\ lits_u32 m /\ self_check_step c (Model m) = RPanic.
Proof. exists [], chk1, [10]. split; [repeat eexists; [intros; apply Permutation_refl|constructor]|]. split; [repeat constructor|vm_compute; reflexivity]. Qed.
Theorem C19_delete_unknown_variable_refuted : exists es c l, reaches es c /\ lits_u32 l /\ self_check_step c (DeleteClause l DSatisfied) = RPanic.
Proof. exists [], chk1, [10; 12]. split; [repeat eexists; [intros; apply Permutation_refl|constructor]|]. split; [repeat constructor|vm_compute; reflexivity]. Qed.

(** hash widths outside 1 to 64, as soon as a clause is stored *)
Theorem C19_hash_width_refuted : exists es c, reaches es c /\ self_check_step c (ChangeHashBits 0) = RPanic /\
  self_check_step c (ChangeHashBits 65) = RPanic.
Proof.
  exists [Load [0;2]]. eexists. split.
  - exists true, false, (fun _ => false), (fun _ => false), (fun _ l => l). split; [intros; apply Permutation_refl|].
    split; [repeat constructor|vm_compute; reflexivity].
  - split; vm_compute; reflexivity.
Qed.

(** with transcripts (always registered by the command line checker): a
    tautological input clause over a variable that did not occur before, and
    a failed assumption whose variable was hidden *)
Theorem C19_transcript_tautology_refuted : exists es c cl, reaches es c /\ lits_u32 cl /\ exec c (Load cl) = RPanic.
Proof. exists [], chk0, [4;5]. split; [repeat eexists; [intros; apply Permutation_refl|constructor]|]. split; [repeat constructor|vm_compute; reflexivity]. Qed.
Theorem C19_transcript_hidden_assumption_refuted : exists es c core hashes, reaches es c /\ lits_u32 core /\
  self_check_step c (FailedAssumptions core hashes) = RPanic.
Proof.
  exists [Step (UserVarName 0 (Some 0)); Load [0;2]; Load [0;3]; Step (Assumptions [1]); Step (UserVarName 0 None)]. eexists. exists [1], (hs [[0;2];[0;3]]).
  split; [|split; [repeat constructor|]].
  - exists true, true, (fun _ => false), (fun _ => false), (fun _ l => l). split; [intros; apply Permutation_refl|].
    split; [repeat constructor|vm_compute; reflexivity].
  - vm_compute. reflexivity.
Qed.

(** an 11-byte file with an impossible length field *)
Theorem C19_length_field_refuted : exists file, check_proof chk1 (file, []) = Some RPanic /\ Forall (fun b => b < 256) file.
Proof. exists (write_u64 CODE_AT_CLAUSE_RED ++ write_u64 (2^62)). split; [vm_compute; reflexivity|vm_compute; repeat constructor]. Qed.
Print Assumptions C19_length_field_refuted.
