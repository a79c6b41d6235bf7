(** Property C13: user variable names. *)
From Coq Require Import Arith ZArith ZifyBool ZifyNat ZifyN Permutation.
From Verif Require Import Spec Lit LitProofs Vec SortedLits SortedLitsProofs Hash Vli BinFormat Checker CheckerStore CheckerInv CheckerOps CheckerRup CheckerSteps CheckerRun CheckerCount CheckerSafe CheckerNames CheckerUsers P_Checker P_CheckerStore P_CheckerSafe.

Lemma reaches_names es c : reaches es c -> names_inv es c.
Proof. intros (p&t&pf&tf&sh&S&F&R). eapply names_run; [|exact R]. apply new_names. Qed.

(** [user_names] is the last name given to the variable by the accepted steps,
    [var_modes] its last sampling mode. *)

(** No two variables have the same user name. *)
Theorem C13_names_one_to_one : forall es c v w u, reaches es c -> user_names es v = Some u -> user_names es w = Some u -> v = w.
Proof. intros es c v w u R. apply (ni_inj _ _ (reaches_names _ _ R)). Qed.
Print Assumptions C13_names_one_to_one.

(** A name in use cannot be given to another variable, nor can a variable change
    its name without giving it up first, nor can a hidden variable get a name. *)
Theorem C13_misuse_rejected : forall es c v u c', reaches es c -> self_check_step c (UserVarName v (Some u)) = ROk tt c' ->
  (forall w, user_names es w <> Some u) /\ user_names es v = None /\ var_modes es v <> Hide.
Proof.
  intros es c v u c' R H. destruct (reaches_names _ _ R) as [A B C]. unfold self_check_step in H. cbn [check_step] in H.
  pose proof (add_user_post (with_state c (with_step (c_state c) (s_step (c_state c) + 1))) v u) as P. rewrite H in P. destruct P as [P1 P2 P3 _ _ _].
  cbn [with_state c_vars] in *. rewrite A in *. cbn [vd_user vd_mode] in *. split; [|auto]. intros w Hw. apply P1, B. eauto.
Qed.
Print Assumptions C13_misuse_rejected.

(** Otherwise it is accepted (unless a processor refuses): in particular a name
    that is not in use any more can be given again.  The name has to be below
    the number of variables seen. *)
Theorem C13_free_name_accepted : forall es c v u, reaches es c -> (forall w, user_names es w <> Some u) ->
  user_names es v = None -> var_modes es v <> Hide -> u < nvars (c_vars c) \/ u <= v ->
  exists c', self_check_step c (UserVarName v (Some u)) = ROk tt c' \/ self_check_step c (UserVarName v (Some u)) = RErr EProcessorError c'.
Proof.
  intros es c v u R F UN M L. destruct (reaches_names _ _ R) as [A B C]. unfold self_check_step. cbn [check_step]. set (c0 := with_state c _).
  assert (E0 : c_vars c0 = c_vars c) by reflexivity. clearbody c0. unfold add_user_mapping.
  pose proof (ctx_ensure_vsame c0 v) as K. destruct (exist_vd c0 v) as (d&E&ED&LT).
  assert (NV : nvars (c_vars c0) <= nvars (c_vars (ctx_ensure_var c0 v))).
  { unfold ctx_ensure_var, ensure_var, nvars. destruct (N.leb_spec (vlen (var_datas (c_vars c0))) v); cbn [with_vars with_clauses c_vars var_datas]; [rewrite vresize_len|]; lia. }
  set (c1 := ctx_ensure_var c0 v) in *. clearbody c1. destruct (vs_keep _ _ K) as [K1 K2].
  replace (vlen (var_datas (c_vars c1)) <=? u) with false by (symmetry; apply N.leb_gt; unfold nvars in *; rewrite E0 in *; lia). cbn [orb].
  destruct (existsb (N.eqb u) (used_user_vars (c_vars c1))) eqn:EX.
  { exfalso. apply existsb_exists in EX as (x&X1&X2). apply N.eqb_eq in X2. subst x. rewrite K2, E0 in X1. apply B in X1 as (w&Hw). apply (F w Hw). }
  rewrite E. rewrite E0, A in ED. subst d. cbn [vd_user vd_mode]. rewrite UN. destruct (mode_eqb (var_modes es v) Hide) eqn:MH.
  { exfalso. apply M. destruct (var_modes es v); try discriminate; reflexivity. }
  unfold process_step. destruct (_ && _); [eauto|]. destruct (has_transcripts _); [|eauto]. cbn [transcript_step].
  destruct (mode_eqb (var_modes es v) Witness); [destruct (trans_fail _ _); eauto|eauto].
Qed.
Print Assumptions C13_free_name_accepted.

(** Names are given up: after an accepted removal nobody has the name. *)
Theorem C13_removed_name_free : forall es c v c', reaches es c -> self_check_step c (UserVarName v None) = ROk tt c' ->
  exists u, user_names es v = Some u /\ (forall w, user_names (es ++ [Step (UserVarName v None)]) w <> Some u).
Proof.
  intros es c v c' R H. destruct (reaches_names _ _ R) as [A B C]. unfold self_check_step in H. cbn [check_step] in H.
  pose proof (remove_user_post (with_state c (with_step (c_state c) (s_step (c_state c) + 1))) v) as P. rewrite H in P. destruct P as [(u&U1&_) _].
  cbn [with_state c_vars] in *. rewrite A in U1. cbn [vd_user] in U1. exists u. split; [exact U1|]. intros w. unfold user_names. rewrite fold_left_app.
  cbn [fold_left user_after]. destruct (N.eqb_spec w v) as [->|NE]; [discriminate|]. intros X. apply NE. eapply C; eassumption.
Qed.
Print Assumptions C13_removed_name_free.

(** Hidden variables have no name. *)
Lemma hidden_no_name es c v : reaches es c -> var_modes es v = Hide -> user_names es v = None.
Proof.
  revert c. induction es as [|e es IH] using rev_ind; intros c (p&t&pf&tf&sh&S&F&R) H; [discriminate|].
  apply Forall_app in F as [F1 F2]. rewrite run_app in R. destruct (run _ es) as [[] c1| |] eqn:R1; try discriminate. cbn [bind run] in R.
  destruct (exec c1 e) as [[] c2| |] eqn:X; try discriminate.
  assert (RE : reaches es c1) by (exists p, t, pf, tf, sh; auto). specialize (IH _ RE).
  unfold var_modes, user_names in *. rewrite fold_left_app in *. cbn [fold_left] in *. fold (var_modes es) (user_names es) in *.
  destruct e as [|s]; [exact (IH H)|]. destruct s; cbn [user_after mode_after] in *; try exact (IH H).
  - destruct user as [u|].
    + destruct (N.eqb_spec v global) as [->|]; [|exact (IH H)]. destruct (C13_misuse_rejected _ _ _ _ _ RE X) as (_&_&M). congruence.
    + destruct (v =? global); [reflexivity|exact (IH H)].
  - destruct (v =? var); [discriminate|exact (IH H)].
  - destruct (v =? var); [destruct sample; discriminate|exact (IH H)].
Qed.

(** Every literal of a clause, model, assumption or failed assumption reported in
    a transcript stands for a variable that is not hidden: under its user name
    or, for a sampled variable without a user name, under its own index.  The
    items about a variable name the variable of the step. *)
Definition shown_as (es : list event) (v u : N) : Prop :=
  var_modes es v <> Hide /\ (user_names es v = Some u \/ (user_names es v = None /\ var_modes es v = Sample /\ u = v)).
Definition item_shown (es : list event) (e : event) (t : transcript_item) : Prop :=
  match t with
  | TAddClause l | TAssume l | TFailedAssumptions l | TModel l =>
      forall ul, In ul l -> exists v u b, ul = lit_from_var u b /\ shown_as es v u
  | TUnsat => True
  | THideVar u => exists v, e = Step (UserVarName v None) /\ user_names es v = Some u
  | TObserveInternalVar u => exists v, e = Step (UserVarName v (Some u))
  | TSampleVar u => exists v, e = Step (ChangeSamplingMode v true) /\ user_names es v = Some u
  | TWitnessVar u => exists v, e = Step (ChangeSamplingMode v false) /\ user_names es v = Some u
  end.

Theorem C13_transcript_names : forall es c e c', reaches es c -> exec c e = ROk tt c' ->
  exists ts, trans_log (c_proc c') = trans_log (c_proc c) ++ ts /\ forall t, In t ts -> item_shown es e t.
Proof.
  intros es c e c' R H. destruct (reaches_names _ _ R) as [A B C].
  assert (SH : forall t, item_ok (c_vars c) t -> item_shown es e t).
  { intros t. destruct t; cbn [item_ok item_shown]; try tauto; intros F ul Hul; rewrite Forall_forall in F; destruct (F ul Hul) as (l&u&E&N); exists (lit_var l), u, (is_positive l);
      (split; [exact E|]); unfold named_by in N; rewrite A in N; cbn [vd_user vd_mode] in N; (split; [|exact N]); intros HI; rewrite (hidden_no_name _ _ _ R HI) in N; destruct N as [N|(_&N&_)]; congruence. }
  destruct e as [cl|s]; cbn [exec] in H.
  - pose proof (add_vsame c cl) as P. rewrite H in P. destruct P as [[_ (ts&T1&T2)] _]. exists ts. split; [exact T1|]. intros t Ht. apply SH. rewrite Forall_forall in T2. auto.
  - unfold self_check_step in H. set (c0 := with_state c _) in *. assert (E0 : c_vars c0 = c_vars c) by reflexivity. assert (EP : c_proc c0 = c_proc c) by reflexivity. clearbody c0.
    destruct (name_event s) eqn:NE.
    2:{ pose proof (other_vsame c0 s NE) as P. rewrite H in P. destruct P as [_ (ts&T1&T2)]. rewrite E0, EP in *. exists ts. split; [exact T1|]. intros t Ht. apply SH. rewrite Forall_forall in T2. auto. }
    destruct s; try discriminate; cbn [check_step] in H.
    + destruct user as [x|].
      * pose proof (add_user_post c0 global x) as P. rewrite H in P. destruct (ad_items _ _ _ _ P) as (ts&T1&T2). rewrite EP in T1. exists ts. split; [exact T1|].
        intros t Ht. rewrite Forall_forall in T2. rewrite (T2 t Ht). cbn [item_shown]. eauto.
      * pose proof (remove_user_post c0 global) as P. rewrite H in P. destruct P as [(x&X1&_&(ts&T1&T2)) _]. rewrite E0, A in X1. rewrite EP in T1. exists ts. split; [exact T1|].
        intros t Ht. rewrite Forall_forall in T2. rewrite (T2 t Ht). cbn [item_shown]. eauto.
    + pose proof (delete_var_post c0 var) as P. rewrite H in P. exists []. split; [rewrite (fr_items _ _ _ P), EP, app_nil_r; reflexivity|intros t []].
    + pose proof (mode_post c0 var sample) as P. rewrite H in P. destruct (mo_items _ _ _ _ P) as (ts&T1&T2). rewrite EP in T1. exists ts. split; [exact T1|].
      intros t Ht. rewrite Forall_forall in T2. destruct (T2 t Ht) as (u&U1&->). rewrite E0, A in U1. destruct sample; cbn [item_shown]; eauto.
Qed.
Print Assumptions C13_transcript_names.

(** Clauses added (not ignored after a refutation, not tautological) and
    assumptions only use sampling variables. *)
Theorem C13_given_variables_sampled : forall es c l c', reaches es c ->
  (~ reports_unsat c /\ (forall x, In x l -> ~ In (opp x) l) /\ (exec c (Load l) = ROk tt c' \/ self_check_step c (AddClause l) = ROk tt c')) \/
  self_check_step c (Assumptions l) = ROk tt c' ->
  forall x, In x l -> var_modes es (lit_var x) = Sample.
Proof.
  intros es c l c' R H x Hx. destruct (reaches_names _ _ R) as [A B C].
  assert (G : Forall (fun l => vd_mode (vd (c_vars c) (lit_var l)) = Sample) l -> var_modes es (lit_var x) = Sample).
  { intros F. rewrite Forall_forall in F. specialize (F x Hx). rewrite A in F. exact F. }
  apply G. destruct H as [(NU&NT&H)|H].
  - assert (TA : taut l = false).
    { destruct (taut l) eqn:T; [|reflexivity]. apply canonical_taut in T as (y&Y1&Y2). rewrite lnot_val2 in Y2. exfalso. apply (NT y Y1 Y2). }
    assert (US : s_unsat (c_state c) = false).
    { destruct (s_unsat (c_state c)) eqn:E; [|reflexivity]. exfalso. apply NU. unfold reports_unsat. auto. }
    destruct H as [H|H].
    + pose proof (add_vsame c l) as P. cbn [exec] in H. rewrite H in P. destruct P as [_ P]. apply P; assumption.
    + unfold self_check_step in H. cbn [check_step] in H. pose proof (add_vsame (with_state c (with_step (c_state c) (s_step (c_state c) + 1))) l) as P. rewrite H in P. destruct P as [_ P]. apply P; assumption.
  - unfold self_check_step in H. cbn [check_step] in H. set (c0 := with_state c _) in *. pose proof (sampling_vsame l c0) as P.
    destruct (ensure_sampling_vars c0 l) as [[] c1| |]; try discriminate. apply (proj2 P).
Qed.
Print Assumptions C13_given_variables_sampled.

(** A session with renaming, hiding and re-use of a name. *)
Definition naming : list event :=
  [Step (UserVarName 0 (Some 0)); Step (UserVarName 1 (Some 1)); Load [0;2]; Step (UserVarName 0 None); Step (UserVarName 2 (Some 0)); Load [4;3];
   Step (ChangeSamplingMode 1 false)].
Example C13_ex : exists c, reaches naming c /\ user_names naming 2 = Some 0 /\ user_names naming 0 = None /\ var_modes naming 0 = Hide /\ var_modes naming 1 = Witness /\
  trans_log (c_proc c) = [TAddClause [0;2]; THideVar 0; TAddClause [3;0]; TWitnessVar 1].
Proof.
  eexists. split.
  { exists true, true, (fun _ => false), (fun _ => false), (fun _ l => l). split; [intros; apply Permutation_refl|]. split; [repeat constructor|vm_compute; reflexivity]. }
  repeat split.
Qed.

(** ** What fails *)
(** A sampling variable need not have a user name.  Such a variable is reported
    under its own index, which may be the user name of another variable. *)
Theorem C13_shared_transcript_name_refuted : exists es c, reaches es c /\ user_names es 1 = Some 0 /\ user_names es 0 = None /\
  exists c', exec c (Load [0;2]) = ROk tt c' /\ trans_log (c_proc c') = [TAddClause [0;0]].
Proof.
  exists [Step (UserVarName 1 (Some 0))]. eexists. split.
  { exists true, true, (fun _ => false), (fun _ => false), (fun _ l => l). split; [intros; apply Permutation_refl|]. split; [repeat constructor|vm_compute; reflexivity]. }
  split; [reflexivity|]. split; [reflexivity|]. eexists. split; [vm_compute; reflexivity|reflexivity].
Qed.
