(** Property C15: renaming solver variables and changing the hash width does not
    lose clauses. *)
From Coq Require Import Arith ZArith ZifyBool ZifyNat ZifyN Permutation.
From Verif Require Import Spec Lit LitProofs Vec SortedLits SortedLitsProofs Hash Vli BinFormat Checker CheckerStore CheckerInv CheckerOps CheckerRup CheckerSteps CheckerRun CheckerCount CheckerSafe CheckerNames P_Checker P_CheckerStore P_CheckerSafe.

Lemma reaches_hash es c : reaches es c -> hash_inv es (c_hasher c).
Proof. intros (p&t&pf&tf&sh&S&F&R). eapply hash_run; [|exact R]. apply new_hash. Qed.
Lemma reaches_si es c : reaches es c -> Forall bits_event es -> history_size es < 2^32 -> SI (history_size es) c.
Proof.
  intros (p&t&pf&tf&sh&S&F&R) B M. pose proof (si_run es 0 _ _ _ (new_si p t pf tf sh S) F B ltac:(lia) R) as SI0. rewrite N.add_0_l in SI0. exact SI0.
Qed.

(** ** C14: a redundant copy that is there can be deleted; only a processor can
    refuse. *)
Theorem C14_delete_present_accepted : forall es c clause lits, reaches es c -> Forall bits_event es -> history_size es < 2^32 ->
  ~ reports_unsat c -> lits_u32 clause -> long_clause lits -> (forall l, In l clause <-> In l lits) -> (copy_count lits true es > 0)%Z ->
  (exists c', self_check_step c (DeleteClause clause DRedundant) = ROk tt c') \/
  (exists c', self_check_step c (DeleteClause clause DRedundant) = RErr EProcessorError c').
Proof.
  intros es c clause lits R B M NU U LC EQ CC. pose proof (reaches_si _ _ R B M) as S. set (m := history_size es) in *.
  assert (CE : canon clause = lits).
  { apply ssorted_ext; [apply canonical_sorted|apply LC|]. intros x. rewrite <- EQ. apply canonical_in. }
  assert (TA : taut clause = false).
  { destruct (taut clause) eqn:T; [|reflexivity]. apply canonical_taut in T as (x&X1&X2). apply EQ in X1, X2. exfalso.
    destruct LC as (_&_&N). apply (N x X1). rewrite lnot_val2 in X2. exact X2. }
  destruct (C14_store_is_multiset es c lits R NU LC) as (_&_&X3&X4). destruct X4 as (id&irr&red&ST); [right; exact CC|].
  destruct (X3 _ _ _ ST) as (_&X5&_). assert (RED : red <> 0) by lia.
  pose proof (exec_wp m c (Step (DeleteClause clause DRedundant)) S U ltac:(cbn [event_size]; lia) I) as W. cbn [exec] in W.
  destruct (self_check_step c (DeleteClause clause DRedundant)) as [[] c'|e c'|] eqn:H; [left; eauto|right|destruct W].
  exists c'. f_equal. unfold self_check_step in H. cbn [check_step] in H. unfold check_delete_clause_step in H. rewrite canon_eq, TA, CE in H. cbn [bind] in H.
  set (c0 := with_state (with_state c _) _) in *. change (c_clauses c0) with (c_clauses c) in H. change (c_vars c0) with (c_vars c) in H. change (c_hasher c0) with (c_hasher c) in H.
  destruct (delete_clause (c_hasher c) (c_clauses c) (c_vars c) lits true) as [[[cl vs] r]|] eqn:D; [|discriminate]. cbn [obind] in H.
  destruct (delete_clause_spec _ _ _ _ _ _ _ _ (inv_wf _ (si_inv _ _ S)) D) as (_&DE&_).
  assert (P : forall x k e y, process_step x k = RErr e y -> e = EProcessorError).
  { clear. intros x k e y X. unfold process_step in X. destruct (_ && _); [inversion X; reflexivity|]. destruct (has_transcripts _); [|discriminate].
    destruct (transcript_step _ _) as [[t|]|]; [destruct (trans_fail _ _); inversion X; reflexivity|discriminate|discriminate]. }
  destruct r as [[id' del]|msg].
  - destruct del; [discriminate|discriminate|]. symmetry. symmetry. apply (P _ _ _ _ H).
  - exfalso. inversion DE as [| |? ? C]; subst. destruct C as [C|C]; [destruct LC as (_&L&_); lia|]. specialize (C _ ST eq_refl). cbn in C. congruence.
Qed.
Print Assumptions C14_delete_present_accepted.

(** The names ([current_names]) and the width ([current_bits]) are those of the
    last step in the history that set them; [clause_key] is the hash of the
    clause under them.  Giving this single hash as the propagations of a derived
    clause with the literals of a stored clause is accepted, if each of its
    variables has a name or never had one. *)
Theorem C15_stored_clause_found : forall es c lits clause k, reaches es c -> Forall bits_event es ->
  history_size es + clause_size clause < 2^32 -> long_clause lits -> in_store c lits -> (forall l, In l clause <-> In l lits) ->
  (forall l, In l lits -> current_names es (lit_var l) <> None \/ never_named es (lit_var l)) ->
  k = clause_key (current_names es) (current_bits es) lits ->
  exists c', self_check_step c (AtClause true clause [k]) = ROk tt c'.
Proof.
  intros es c lits clause k R B M LC IS EQ NM ->. pose proof (reaches_hash _ _ R) as (H1&H2&H3&H4).
  pose proof (reaches_si _ _ R B ltac:(lia)) as S. set (m := history_size es) in *.
  assert (CE : canon clause = lits).
  { apply ssorted_ext; [apply canonical_sorted|apply LC|]. intros x. rewrite <- EQ. apply canonical_in. }
  assert (TA : taut clause = false).
  { destruct (taut clause) eqn:T; [|reflexivity]. apply canonical_taut in T as (x&X1&X2). apply EQ in X1, X2. exfalso.
    destruct LC as (_&_&N). apply (N x X1). rewrite lnot_val2 in X2. exact X2. }
  destruct IS as (id&[(a&A1&A2&A3)|(v&b&_&E)]); [|exfalso; destruct LC as (_&L&_); rewrite E in L; cbn in L; lia].
  unfold self_check_step. cbn [check_step]. unfold check_at_clause_step. rewrite canon_eq, TA, CE. fold (next_step c).
  assert (S1 : SI m (next_step c)) by (apply si_state; [exact S|apply (inv_assumptions _ (si_inv _ _ S))|apply (inv_prev _ (si_inv _ _ S))]).
  rewrite <- H1. replace (clause_key (current_names es) (hash_bits (c_hasher c)) lits) with (clause_key (eff (c_hasher c)) (hash_bits (c_hasher c)) lits).
  2:{ unfold clause_key. f_equal. generalize 0. clear -H2. induction lits as [|l ls IH]; intros acc; [reflexivity|]. cbn [fold_left]. rewrite IH. do 2 f_equal.
      unfold lit_key. rewrite H2. reflexivity. }
  destruct a as [aid irr red al]. cbn [a_id a_lits] in *. subst aid al.
  destruct (check_stored m (next_step c) id lits irr red (clause_key (eff (c_hasher c)) (hash_bits (c_hasher c)) lits) S1 H3 A1) as [c1 E1]; [|reflexivity|].
  { intros l Hl. change (c_hasher (next_step c)) with (c_hasher c). destruct (NM l Hl) as [X|X]; [left; rewrite H2; exact X|right; apply H4, X]. }
  pose proof (check_clause_wp m (next_step c) lits [clause_key (eff (c_hasher c)) (hash_bits (c_hasher c)) lits] S1) as W. rewrite E1 in *. cbn [wp bind] in *.
  destruct W as (S2&RO&_).
  assert (GL : good_lits lits) by (apply (gc_lits _ _ _ (wf_clause _ _ _ (inv_wf _ (si_inv _ _ S)) _ A1))).
  pose proof (ctx_store_wp m c1 lits true S2 GL ltac:(unfold clause_size in M; lia)) as W. destruct (ctx_store_clause c1 lits true) as [[id2 added] c2| |] eqn:E2; cbn [wp bind] in *; [|eauto|tauto].
  2:{ exfalso. unfold ctx_store_clause in E2. destruct (store_clause _ _ _ _ _ _) as [[[[? ?] ?] ?]|]; discriminate. }
  destruct (ctx_store_spec _ _ _ _ _ _ (si_inv _ _ S2) GL E2) as (_&SE&_).
  assert (added = SDuplicate) as ->; [|eauto]. destruct LC as (_&L&_).
  clear CE. destruct SE; subst; cbn [length] in L; try lia; try reflexivity.
  exfalso. match goal with X : ~ In _ (map a_lits _) |- _ => apply X end. apply in_map_iff. exists (AC id irr red lits). split; [reflexivity|].
  apply (perm_in _ _ _ (Permutation_sym (sd_clauses _ _ (ro_db _ _ _ RO)))). exact A1.
Qed.
Print Assumptions C15_stored_clause_found.

(** Clauses loaded before and after names and the width change are found with
    the last names and width. *)
Definition renames : list event :=
  [Load [0;2]; Step (SolverVarName 0 (Some 5)); Step (SolverVarName 1 (Some 3)); Step (AtClause true [0;2] [clause_key (fun v => if v =? 0 then Some 5 else if v =? 1 then Some 3 else None) 64 [0;2]]);
   Load [3;4]; Step (ChangeHashBits 6); Step (SolverVarName 0 None); Step (SolverVarName 0 (Some 8))].
Example C15_ex : exists c, reaches renames c /\ Forall bits_event renames /\ long_clause [0;2] /\ long_clause [3;4] /\
  in_store c [0;2] /\ in_store c [3;4] /\ current_bits renames = 6 /\ current_names renames 0 = Some 8 /\ current_names renames 1 = Some 3 /\
  never_named renames 2.
Proof.
  eexists. split.
  { exists true, false, (fun _ => false), (fun _ => false), (fun _ l => l). split; [intros; apply Permutation_refl|].
    split; [repeat constructor|vm_compute; reflexivity]. }
  split; [repeat constructor; discriminate|]. assert (LC : forall a b, a < b -> opp a <> b -> opp b <> a -> long_clause [a;b]).
  { intros a b A B C. split; [repeat constructor; exact A|]. split; [cbn; lia|]. intros l [<-|[<-|[]]] [X|[X|[]]]; try congruence; rewrite opp_val in X; match type of X with ?x = _ => pose proof (N.div2_odd x) end; destruct (N.odd _); cbn [N.b2n] in *; lia. }
  split; [apply LC; [reflexivity|discriminate|discriminate]|]. split; [apply LC; [reflexivity|discriminate|discriminate]|].
  split; [exists 0; left; eexists; split; [vm_compute; left; reflexivity|split; reflexivity]|].
  split; [exists 1; left; eexists; split; [vm_compute; right; left; reflexivity|split; reflexivity]|].
  repeat split. intros x H. repeat (destruct H as [H|H]; [discriminate|]). destruct H.
Qed.

(** Without the condition on the names this fails: a name that was removed stays
    in the keys until the next rename or width change. *)
Theorem C15_removed_name_refuted : exists es c lits, reaches es c /\ in_store c lits /\ current_names es 0 = None /\ In 0 lits /\
  exists n c', self_check_step c (AtClause true lits [clause_key (current_names es) (current_bits es) lits]) = RErr (ECheckFailed n MNoClauseForHash) c'.
Proof.
  exists [Load [0;2]; Step (SolverVarName 0 (Some 5)); Step (ChangeHashBits 64); Step (SolverVarName 0 None)]. eexists. exists [0;2]. split.
  { exists true, false, (fun _ => false), (fun _ => false), (fun _ l => l). split; [intros; apply Permutation_refl|].
    split; [repeat constructor|vm_compute; reflexivity]. }
  split; [exists 0; left; eexists; split; [vm_compute; left; reflexivity|split; reflexivity]|].
  split; [reflexivity|]. split; [left; reflexivity|]. eexists. eexists. vm_compute. reflexivity.
Qed.
