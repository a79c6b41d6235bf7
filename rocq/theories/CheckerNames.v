(** How the hash width and the solver names evolve, and look-up by hash. *)
From Coq Require Import Arith ZArith ZifyBool ZifyNat ZifyN Permutation Sorted.
From Verif Require Import Spec Lit LitProofs Vec SortedLits SortedLitsProofs Hash HashProofs Vli BinFormat Checker CheckerStore CheckerInv CheckerOps CheckerRup CheckerSteps CheckerRun CheckerCount CheckerSafe.

(** * Partial correctness *)
Definition post {A} (r : res A) (Q : ctx -> Prop) : Prop := match r with ROk _ c => Q c | _ => True end.
Lemma post_bind {A B} (r : res A) (k : A -> ctx -> res B) Q : post r (fun c => forall x, post (k x c) Q) -> post (bind r k) Q.
Proof. destruct r; cbn; auto. Qed.
Lemma post_obind {A B} (r : option A) (k : A -> res B) Q : (forall x, r = Some x -> post (k x) Q) -> post (obind r k) Q.
Proof. destruct r; cbn; auto. Qed.
Lemma post_weaken {A} (r : res A) (Q R : ctx -> Prop) : (forall c, Q c -> R c) -> post r Q -> post r R.
Proof. destruct r; cbn; auto. Qed.
Lemma post_process c k (Q : ctx -> Prop) : (forall p, Q (with_proc c p)) -> post (process_step c k) Q.
Proof.
  intros H. unfold process_step. destruct (_ && _); [exact I|]. destruct (has_transcripts _); [|apply H].
  destruct (transcript_step _ _) as [[t|]|]; [destruct (trans_fail _ _); [exact I|]| |exact I]; apply H.
Qed.

(** * The names and the width *)

Definition eff (h : hasher) (v : N) : option N := apply_names (solver_names h) (buffered_names h) v.
Definition flag_ok (h : hasher) : Prop := rename_flag h = false -> Forall (fun p => snd p = None) (buffered_names h).
Lemma apply_names_other b : forall f v, ~ In v (map fst b) -> apply_names f b v = f v.
Proof.
  unfold apply_names. induction b as [|p b IH]; intros f v H; [reflexivity|]. cbn [fold_left map In] in *. rewrite IH by tauto. unfold fupd.
  destruct (N.eqb_spec v (fst p)); [exfalso; apply H; left; congruence|reflexivity].
Qed.

(** variables that never got a solver name *)
Definition unnamed (h : hasher) (v : N) : Prop := solver_names h v = None /\ ~ In v (map fst (buffered_names h)).
Definition hsame (h h' : hasher) : Prop :=
  hash_bits h' = hash_bits h /\ (forall v, eff h' v = eff h v) /\ (flag_ok h -> flag_ok h') /\ (forall v, unnamed h v -> unnamed h' v).
Lemma hsame_refl h : hsame h h. Proof. split; [reflexivity|]. auto. Qed.
Lemma hsame_trans a b c : hsame a b -> hsame b c -> hsame a c.
Proof. intros (A1&A2&A3&A4) (B1&B2&B3&B4). split; [congruence|]. split; [intros v; rewrite B2; apply A2|auto]. Qed.
Lemma hsame_eq h h' : h' = h -> hsame h h'. Proof. intros ->. apply hsame_refl. Qed.

Lemma rehash_hasher h cl h' cl' : rehash h cl = Some (h', cl') -> hsame h h' /\ flag_ok h' /\ buffered_names h' = [].
Proof.
  unfold rehash. destruct (rehash_insert _ _ _ _); [|discriminate]. intros H. inversion H; subst; clear H.
  split; [split; [reflexivity|split; [reflexivity|split]]|split; [|reflexivity]]; intros; try (intros _; constructor).
  destruct H as [A B]. unfold unnamed. cbn [solver_names buffered_names map In]. rewrite apply_names_other by exact B. auto.
Qed.

Definition keeps (c : ctx) (c' : ctx) : Prop := hsame (c_hasher c) (c_hasher c').

Lemma keeps_check c lits hashes : post (check_clause_with_hashes c lits hashes) (keeps c).
Proof.
  unfold check_clause_with_hashes. apply post_obind. intros [h cl] E.
  assert (HS : hsame (c_hasher c) h).
  { destruct (rename_flag (c_hasher c)); [apply (rehash_hasher _ _ _ _ E)|inversion E; apply hsame_refl]. }
  cbn [with_clauses with_hasher c_rup]. destruct (r_trail (c_rup c)); [|exact I]. destruct (ensure_vars _ _ _) as [cl2 vs2].
  apply post_obind. intros [id|] _; [exact HS|]. apply post_obind. intros r _. apply post_obind. intros [r2 res] _.
  destruct res; try exact I; apply post_obind; intros us _; [exact HS|exact I].
Qed.
Lemma ensure_hasher c v : c_hasher (ctx_ensure_var c v) = c_hasher c.
Proof. unfold ctx_ensure_var. destruct (ensure_var _ _ _). reflexivity. Qed.
Lemma keeps_sampling lits : forall c, post (ensure_sampling_vars c lits) (fun c' => c_hasher c' = c_hasher c).
Proof.
  induction lits as [|l lits IH]; intros c; cbn [ensure_sampling_vars]; [reflexivity|]. apply post_bind. unfold ensure_sampling_var.
  destruct (vget _ _); [|exact I]. destruct (mode_eqb _ _); [|exact I]. cbn [post]. intros _. eapply post_weaken; [|apply IH]. intros c' ->. apply ensure_hasher.
Qed.
Lemma keeps_store c lits red : post (ctx_store_clause c lits red) (fun c' => c_hasher c' = c_hasher c).
Proof. unfold ctx_store_clause. apply post_obind. intros [[[st cl] vs] x] _. reflexivity. Qed.

Lemma keeps_add c cl : post (add_clause c cl) (keeps c).
Proof.
  unfold add_clause. destruct (s_unsat _); [apply hsame_refl|]. destruct (copy_canonical cl) as [tmp taut]. destruct taut.
  - apply post_bind, post_process. intros p _. apply hsame_refl.
  - apply post_bind. eapply post_weaken; [|apply keeps_sampling]. intros c1 E1 _. apply post_bind. eapply post_weaken; [|apply keeps_store].
    intros c2 E2 [id added]. assert (K : keeps c c2) by (apply hsame_eq; congruence). destruct added.
    + apply post_process. intros p. exact K.
    + apply post_bind. cbn [post]. intros _. apply post_bind, post_process. intros p _. exact K.
    + apply post_bind, post_process. intros p _. apply post_bind, post_process. intros p2 _. exact K.
Qed.
Lemma keeps_units units : forall c, post (check_unit_clauses_step c units) (keeps c).
Proof.
  induction units as [|[l hash] units IH]; intros c; cbn [check_unit_clauses_step]; [apply hsame_refl|].
  apply post_bind. eapply post_weaken; [|apply keeps_check]. intros c1 K1 _. unfold keeps in K1. rewrite ensure_hasher in K1.
  apply post_obind. intros [[st cl] [id r]] _. apply post_bind.
  assert (G : forall c2, c_hasher c2 = c_hasher c1 -> post (check_unit_clauses_step c2 units) (keeps c)).
  { intros c2 E. eapply post_weaken; [|apply IH]. intros c' K. unfold keeps in *. rewrite E in K. eapply hsame_trans; eassumption. }
  destruct r; [apply post_process; intros p _; apply G; reflexivity|intros _; apply G; reflexivity|exact I].
Qed.

Lemma keeps_step c s : match s with SolverVarName _ _ | ChangeHashBits _ => True | _ => post (check_step c s) (keeps c) end.
Proof.
  destruct s; cbn [check_step]; try exact I.
  - destruct user.
    + unfold add_user_mapping. destruct (_ || _); [exact I|]. destruct (vget _ _); [|exact I]. destruct (mode_eqb _ _); [exact I|]. destruct (vd_user _); [exact I|].
      apply post_process. intros p. apply hsame_eq. apply ensure_hasher.
    + unfold remove_user_mapping. destruct (vget _ _); [|exact I]. destruct (vd_user _); [|exact I]. apply post_bind, post_process.
      intros p _. apply hsame_eq. apply ensure_hasher.
  - unfold check_delete_var_step. apply post_obind. intros d _. destruct (vd_user d); [exact I|]. apply post_obind. intros n0 _.
    destruct (0 <? n0); [exact I|]. apply post_obind. intros n1 _. destruct (0 <? n1); [exact I|]. apply post_obind. intros u _.
    apply post_bind. destruct u as [[[id| |] b]|]; cbn [uc_id]; try exact I.
    + apply post_bind, post_process. intros p _ _. apply hsame_eq. apply ensure_hasher.
    + cbn [post]. intros _. apply hsame_eq. apply ensure_hasher.
  - unfold check_change_sampling_mode. apply post_obind. intros d _. destruct (mode_eqb _ _); [apply hsame_eq, ensure_hasher|].
    destruct (vd_user d); [apply post_process; intros p; apply hsame_eq, ensure_hasher|]. destruct sample; [exact I|]. apply hsame_eq, ensure_hasher.
  - apply keeps_add.
  - unfold check_at_clause_step. destruct (copy_canonical clause) as [tmp taut]. destruct taut; [exact I|]. apply post_bind.
    eapply post_weaken; [|apply keeps_check]. intros c1 K1 _. apply post_bind. eapply post_weaken; [|apply keeps_store]. intros c2 E2 [id added].
    assert (K : keeps c (if redundant then c2 else with_state c2 (with_prev (c_state c2) (Some id) tmp))).
    { unfold keeps. replace (c_hasher (if redundant then c2 else _)) with (c_hasher c2) by (destruct redundant; reflexivity). rewrite E2. exact K1. }
    destruct added; [apply post_process; intros p; exact K|exact K|apply post_process; intros p; exact K].
  - apply keeps_units.
  - unfold check_delete_clause_step. destruct (copy_canonical clause) as [tmp taut]. destruct taut; [exact I|]. apply post_bind.
    assert (X : post (match proof with
      | DRedundant => ROk None c
      | DSatisfied => obind (satisfied_by (unit_clauses (c_clauses c)) tmp) (fun s => match s with Some id => ROk (Some id) c | None => failed c MNotSatisfied end)
      | DSimplified => if subsumed_by_previous_irred_clause (c_state c) tmp then ROk (s_prev_id (c_state c)) c else failed c MNotSubsumed
      end) (fun c' => c' = c)).
    { destruct proof; [reflexivity|destruct (subsumed_by_previous_irred_clause _ _); [reflexivity|exact I]|].
      apply post_obind. intros [id|] _; [reflexivity|exact I]. }
    eapply post_weaken; [|exact X]. intros c' -> s. apply post_obind. intros [[cl vs] r] _. destruct r as [[id del]|msg]; [|exact I].
    assert (K : forall p, keeps c (with_proc (with_vars (with_clauses (with_state c (with_prev (c_state c) None [])) cl) vs) p)) by (intros p; apply hsame_refl).
    destruct proof; destruct del; try exact I; try apply hsame_refl; try (destruct s; [|exact I]); apply post_process; intros p; apply hsame_refl.
  - unfold check_model_step. apply post_obind. intros [a|m] _; [|exact I]. destruct (negb _); [exact I|]. apply post_obind. intros [|] _; [|exact I].
    apply post_process. intros p. apply hsame_refl.
  - apply post_bind. eapply post_weaken; [|apply keeps_sampling]. intros c1 E1 _. apply post_process. intros p. apply hsame_eq. exact E1.
  - unfold check_failed_assumptions_step. destruct (copy_canonical failed_core) as [tmp d]. destruct (negb _); [exact I|]. apply post_bind.
    destruct d; [cbn [post]; intros _; apply post_process; intros p; apply hsame_refl|].
    eapply post_weaken; [|apply keeps_check]. intros c1 K1 _. apply post_process. intros p. exact K1.
  - apply hsame_refl.
Qed.

(** ** From the history *)
Definition bits_after (b : N) (e : event) : N := match e with Step (ChangeHashBits b') => b' | _ => b end.
Definition current_bits (es : list event) : N := fold_left bits_after es 64.
Definition names_after (f : N -> option N) (e : event) : N -> option N :=
  match e with Step (SolverVarName v x) => fun w => if w =? v then x else f w | _ => f end.
Definition current_names (es : list event) : N -> option N := fold_left names_after es (fun _ => None).

Definition never_named (es : list event) (v : N) : Prop := forall x, ~ In (Step (SolverVarName v x)) es.
Definition hash_inv (es : list event) (h : hasher) : Prop :=
  hash_bits h = current_bits es /\ (forall v, eff h v = current_names es v) /\ flag_ok h /\ (forall v, never_named es v -> unnamed h v).

Lemma apply_names_snoc f b p v : apply_names f (b ++ [p]) v = if v =? fst p then snd p else apply_names f b v.
Proof. unfold apply_names. rewrite fold_left_app. reflexivity. Qed.

Lemma apply_names_ext f g b v : (forall w, f w = g w) -> apply_names f b v = apply_names g b v.
Proof. revert f g. unfold apply_names. induction b as [|p b IH]; intros f g H; cbn [fold_left]; [apply H|]. apply IH. intros w. unfold fupd. rewrite H. reflexivity. Qed.

Lemma hash_step es c e c' u : hash_inv es (c_hasher c) -> exec c e = ROk u c' -> hash_inv (es ++ [e]) (c_hasher c').
Proof.
  intros (B&E&F&NN) H. unfold hash_inv, current_bits, current_names. rewrite !fold_left_app. fold (current_bits es) (current_names es). cbn [fold_left].
  assert (K : (forall v x, e <> Step (SolverVarName v x)) -> (forall b, e <> Step (ChangeHashBits b)) -> hsame (c_hasher c) (c_hasher c')).
  { intros N1 N2. destruct e as [cl|s]; cbn [exec] in H.
    - pose proof (keeps_add c cl) as P. rewrite H in P. exact P.
    - unfold self_check_step in H. pose proof (keeps_step (with_state c (with_step (c_state c) (s_step (c_state c) + 1))) s) as P.
      destruct s; try (rewrite H in P; exact P); [exfalso; eapply N1; reflexivity|exfalso; eapply N2; reflexivity]. }
  assert (KK : hsame (c_hasher c) (c_hasher c') -> hash_bits (c_hasher c') = current_bits es /\ (forall v, eff (c_hasher c') v = current_names es v) /\ flag_ok (c_hasher c') /\
      (forall v, never_named (es ++ [e]) v -> unnamed (c_hasher c') v)).
  { intros (K1&K2&K3&K4). split; [congruence|]. split; [intros v; rewrite K2; apply E|]. split; [auto|]. intros v Hv. apply K4, NN. intros x Hx. apply (Hv x), in_or_app. auto. }
  destruct e as [cl|s]; [apply KK, K; discriminate|]. destruct s; try (apply KK, K; discriminate); cbn [bits_after names_after].
  - cbn [exec] in H. unfold self_check_step in H. cbn [check_step] in H. inversion H; subst; clear H. cbn [with_hasher c_hasher with_state hash_bits].
    split; [exact B|]. split.
    + intros v. unfold eff. cbn [solver_names buffered_names]. rewrite apply_names_snoc. cbn [fst snd].
      destruct (v =? global); [reflexivity|apply E].
    + split; [intros HF; cbn [rename_flag buffered_names] in *; destruct solver; [discriminate|]; apply Forall_app; split; [apply F; exact HF|repeat constructor]|].
      intros v Hv. destruct (NN v) as [N1 N2]; [intros x Hx; apply (Hv x), in_or_app; auto|]. split; [exact N1|]. cbn [buffered_names]. rewrite map_app, in_app_iff.
      cbn [map fst In]. intros [X|[X|[]]]; [tauto|]. subst v. apply (Hv solver), in_or_app. right. left. reflexivity.
  - cbn [exec] in H. unfold self_check_step in H. cbn [check_step] in H. destruct (rehash _ _) as [[h cl]|] eqn:R; [|discriminate]. cbn [obind] in H.
    inversion H; subst; clear H. cbn [with_clauses with_hasher c_hasher]. destruct (rehash_hasher _ _ _ _ R) as ((R1&R2&_&R4)&R3&_). cbn [hash_bits] in R1.
    split; [exact R1|]. split; [intros v; rewrite R2; apply E|]. split; [exact R3|]. intros v Hv. apply R4. apply NN. intros x Hx. apply (Hv x), in_or_app. auto.
Qed.

Lemma hash_run es : forall c0 c u, hash_inv [] (c_hasher c0) -> run c0 es = ROk u c -> hash_inv es (c_hasher c).
Proof.
  induction es as [|e es IH] using rev_ind; intros c0 c u H0 R; [inversion R; subst; exact H0|].
  rewrite run_app in R. destruct (run c0 es) as [[] c1| |] eqn:R1; try discriminate. cbn [bind run] in R.
  destruct (exec c1 e) as [[] c2| |] eqn:X; try discriminate. inversion R; subst. eapply hash_step; [eapply IH; eassumption|exact X].
Qed.
Lemma new_hash p t pf tf sh : hash_inv [] (c_hasher (checker_new p t pf tf sh)).
Proof. split; [reflexivity|]. split; [reflexivity|]. split; [intros _; constructor|]. intros v _. split; [reflexivity|intros []]. Qed.

(** * A stored clause is found by its hash *)

Definition val (us : list (option unit_clause)) (v : N) : option bool :=
  match vget us v with Some (Some u) => Some (uc_value u) | _ => None end.
Definition false_lits (us : list (option unit_clause)) (lits : list N) : Prop := Forall (fun l => val us (lit_var l) = Some (is_negative l)) lits.

Lemma assign_val r l u r' : rup_assign r l u = Some r' -> forall v, val (rs_units r') v = if lit_var l =? v then Some (uc_value u) else val (rs_units r) v.
Proof.
  unfold rup_assign. destruct (vget (rs_units r) (lit_var l)) as [o|] eqn:E; [|discriminate]. intros H v. inversion H; subst. cbn [rs_units]. unfold val.
  rewrite vget_vset. destruct (N.eqb_spec (lit_var l) v); [|reflexivity]. cbn [andb].
  destruct (N.ltb_spec (lit_var l) (vlen (rs_units r))); [reflexivity|]. apply vget_some_lt in E. lia.
Qed.
Lemma falsify_val lits : forall r r', (forall l, In l lits -> ~ In (lnot l) lits) -> rup_falsify r lits = Some r' -> false_lits (rs_units r') lits /\
  (forall v, ~ In v (map lit_var lits) -> val (rs_units r') v = val (rs_units r) v).
Proof.
  induction lits as [|l lits IH]; intros r r' NT H; cbn [rup_falsify] in H; [inversion H; subst; split; [constructor|auto]|].
  destruct (rup_assign r l _) as [r1|] eqn:E; [|discriminate]. pose proof (assign_val _ _ _ _ E) as V. cbn [uc_value] in V.
  destruct (IH r1 r') as [A B]; [intros x Hx X; apply (NT x); right; assumption|exact H|]. split.
  - constructor; [|exact A]. destruct (in_dec N.eq_dec (lit_var l) (map lit_var lits)) as [X|X].
    + apply in_map_iff in X as (y&Y1&Y2). unfold false_lits in A. rewrite Forall_forall in A. specialize (A y Y2). rewrite Y1 in A. rewrite A. f_equal.
      destruct (Bool.bool_dec (is_negative y) (is_negative l)) as [EQ|NE]; [exact EQ|]. exfalso. apply (NT l); [left; reflexivity|]. right.
      replace (lnot l) with y; [exact Y2|]. apply lit_eq_split; [rewrite lnot_var; exact Y1|rewrite lnot_sign]. destruct (is_negative y), (is_negative l); cbn; congruence.
    + rewrite (B _ X), V, N.eqb_refl. reflexivity.
  - intros v Hv. cbn [map In] in Hv. rewrite B by tauto. rewrite V. destruct (N.eqb_spec (lit_var l) v); [exfalso; apply Hv; auto|reflexivity].
Qed.

Lemma rup_lits_val lits : forall r count un r' s count' un', rup_lits r lits count un = Some (r', s, count', un') ->
  (forall v, val (rs_units r') v = val (rs_units r) v) /\ (forall l, un' = Some l -> un = Some l \/ val (rs_units r) (lit_var l) = None).
Proof.
  induction lits as [|l lits IH]; intros r count un r' s count' un' H; cbn [rup_lits] in H; [inversion H; subst; auto|].
  rewrite lit_value_get in H. destruct (vget (rs_units r) (lit_var l)) as [[u|]|] eqn:V; [| |discriminate].
  - destruct (xorb (uc_value u) (is_negative l)) eqn:X; [inversion H; subst; auto|]. destruct (uc_id u) as [id| |]; [|apply (IH _ _ _ _ _ _ _ H)|apply (IH _ _ _ _ _ _ _ H)].
    destruct (rup_assign r l _) as [r1|] eqn:E; [|discriminate]. destruct (IH _ _ _ _ _ _ _ H) as [A B]. cbn [rup_trace rs_units] in *.
    assert (V1 : forall v, val (rs_units r1) v = val (rs_units r) v).
    { intros v. rewrite (assign_val _ _ _ _ E). destruct (N.eqb_spec (lit_var l) v) as [<-|]; [|reflexivity]. unfold val. rewrite V. cbn [uc_value].
      f_equal. destruct (uc_value u), (is_negative l); cbn in X; congruence. }
    split; [intros v; rewrite A; apply V1|]. intros y Hy. destruct (B y Hy) as [->|Z]; [auto|right; rewrite <- V1; exact Z].
  - destruct (IH _ _ _ _ _ _ _ H) as [A B]. split; [exact A|]. intros y Hy. destruct (B y Hy) as [Z|Z]; [|auto]. inversion Z; subst. right. unfold val. rewrite V. reflexivity.
Qed.
Lemma rup_lits_false lits : forall r count un r' s count' un', false_lits (rs_units r) lits ->
  rup_lits r lits count un = Some (r', s, count', un') -> s = false /\ un' = un.
Proof.
  induction lits as [|l lits IH]; intros r count un r' s count' un' F H; cbn [rup_lits] in H; [inversion H; subst; auto|].
  inversion F as [|? ? F1 F2]; subst. rewrite lit_value_get in H. unfold val in F1. destruct (vget (rs_units r) (lit_var l)) as [[u|]|] eqn:V; [| |discriminate].
  - inversion F1 as [X]. rewrite X, xorb_nilpotent in H. destruct (uc_id u) as [id| |]; [|apply (IH _ _ _ _ _ _ _ F2 H)|apply (IH _ _ _ _ _ _ _ F2 H)].
    destruct (rup_assign r l _) as [r1|] eqn:E; [|discriminate]. refine (IH _ _ _ _ _ _ _ _ H). cbn [rup_trace rs_units].
    unfold false_lits in *. eapply Forall_impl; [|exact F2]. intros y Hy. cbn beta in Hy. rewrite (assign_val _ _ _ _ E). destruct (N.eqb_spec (lit_var l) (lit_var y)) as [EQ|]; [|exact Hy].
    cbn [uc_value]. rewrite <- EQ in Hy. unfold val in Hy. rewrite V in Hy. congruence.
  - discriminate.
Qed.

Lemma rup_candidates_hit buf lits cs : forall r r' b c, false_lits (rs_units r) lits -> In c cs -> lits_of buf c = lits ->
  rup_candidates buf r cs = Some (r', b) -> b = true.
Proof.
  induction cs as [|d cs IH]; intros r r' b c F Hc LO H; [destruct Hc|]. cbn [rup_candidates] in H.
  destruct (slice (cc_lits d) buf) as [ls|] eqn:SL; [|discriminate].
  destruct (rup_lits r ls 0 None) as [[[[r1 s] n] un]|] eqn:RL; [|discriminate]. destruct (rup_lits_val _ _ _ _ _ _ _ _ RL) as [V1 V2].
  assert (F1 : false_lits (rs_units r1) lits) by (unfold false_lits in *; eapply Forall_impl; [|exact F]; intros y Hy; cbn beta in Hy; rewrite V1; exact Hy).
  destruct Hc as [->|Hc].
  - unfold lits_of in LO. rewrite SL in LO. subst ls. destruct (rup_lits_false _ _ _ _ _ _ _ _ F RL) as [-> ->]. inversion H; reflexivity.
  - destruct s; [apply (IH _ _ _ c F1 Hc LO H)|]. destruct un as [l|]; [|inversion H; reflexivity]. destruct (n =? 1); [|apply (IH _ _ _ c F1 Hc LO H)].
    destruct (rup_assign r1 l _) as [r2|] eqn:E; [|discriminate]. refine (IH _ _ _ c _ Hc LO H). cbn [rup_trace rs_units].
    unfold false_lits in *. eapply Forall_impl; [|exact F1]. intros y Hy. cbn beta in Hy. rewrite (assign_val _ _ _ _ E).
    destruct (N.eqb_spec (lit_var l) (lit_var y)) as [EQ|]; [|exact Hy]. exfalso. rewrite <- EQ, V1 in Hy. destruct (V2 l eq_refl) as [Z|Z]; congruence.
Qed.

(** The key of a clause: the exclusive or of the keys of its literals under the
    given names, of which the [bits] high bits are kept. *)
Definition lit_key (names : N -> option N) (l : N) : N :=
  match names (lit_var l) with
  | Some s => lit_hash (lit_from_var s (is_positive l))
  | None => lit_code_hash (l + 2 * max_count)
  end.
Definition clause_key (names : N -> option N) (bits : N) (lits : list N) : N :=
  N.shiftr (fold_left (fun k l => N.lxor k (lit_key names l)) lits 0) (64 - bits).

Lemma hasher_hash_key h names lits : bits_ok h -> (forall l, In l lits -> solver_names h (lit_var l) = names (lit_var l)) ->
  hasher_hash h lits = Some (clause_key names (hash_bits h) lits).
Proof.
  intros [A B] M. unfold hasher_hash. destruct (N.leb_spec 1 (hash_bits h)); [|lia]. destruct (N.leb_spec (hash_bits h) 64); [|lia]. cbn [andb]. f_equal.
  unfold clause_key. f_equal. generalize 0. revert M. induction lits as [|l lits IH]; intros M acc; [reflexivity|]. cbn [fold_left].
  replace (named_hash (solver_names h) l) with (lit_key names l).
  - apply IH. intros x Hx. apply M. right. exact Hx.
  - unfold named_hash, lit_key. rewrite (M l (or_introl eq_refl)), (N.mul_comm 2). reflexivity.
Qed.

Lemma plain_names h v s : flag_ok h -> rename_flag h = false -> eff h v = Some s -> solver_names h v = Some s.
Proof.
  intros F NF E. specialize (F NF). unfold eff, apply_names in E. revert E. revert F. generalize (solver_names h). induction (buffered_names h) as [|p b IH]; intros f F E; [exact E|].
  inversion F; subst. cbn [fold_left] in E. specialize (IH _ ltac:(assumption) E). unfold fupd in IH. destruct (v =? fst p); [congruence|exact IH].
Qed.

(** Checking a stored clause against its own hash succeeds. *)
Definition settled (h : hasher) (v : N) : Prop := eff h v <> None \/ (solver_names h v = None /\ ~ In v (map fst (buffered_names h))).

Lemma check_stored m c id lits irr red k : SI m c -> flag_ok (c_hasher c) -> In (AC id irr red lits) (aclauses (c_clauses c)) ->
  (forall l, In l lits -> settled (c_hasher c) (lit_var l)) -> k = clause_key (eff (c_hasher c)) (hash_bits (c_hasher c)) lits ->
  exists c', check_clause_with_hashes c lits [k] = ROk tt c'.
Proof.
  intros S FO ST NM ->. pose proof (check_clause_wp m c lits [clause_key (eff (c_hasher c)) (hash_bits (c_hasher c)) lits] S) as WP. destruct S as [I B Z].
  set (k := clause_key (eff (c_hasher c)) (hash_bits (c_hasher c)) lits) in *.
  assert (RH : exists h cl, (if rename_flag (c_hasher c) then rehash (c_hasher c) (c_clauses c) else Some (c_hasher c, c_clauses c)) = Some (h, cl) /\
      wf h cl (c_vars c) /\ In (AC id irr red lits) (aclauses cl) /\ hasher_hash h lits = Some k).
  { destruct (rename_flag (c_hasher c)) eqn:RF.
    - destruct (rehash_ok _ _ _ _ (inv_wf _ I) (inv_shuffle _ I) B) as (h&cl&E). exists h, cl. split; [exact E|].
      destruct (rehash_spec _ _ _ _ _ _ (inv_wf _ I) (inv_shuffle _ I) E) as (W&P&_&_&HB&_&HBN&HN). split; [exact W|].
      split; [apply (perm_in _ _ _ (Permutation_sym P)); exact ST|]. unfold k. rewrite <- HB. apply hasher_hash_key; [unfold bits_ok; rewrite HB; exact B|].
      intros l Hl. rewrite HN. reflexivity.
    - exists (c_hasher c), (c_clauses c). split; [reflexivity|]. split; [apply (inv_wf _ I)|]. split; [exact ST|]. apply hasher_hash_key; [exact B|].
      intros l Hl. destruct (NM l Hl) as [X|[X Y]].
      + destruct (eff (c_hasher c) (lit_var l)) as [s|] eqn:E; [|congruence]. apply (plain_names _ _ _ FO RF E).
      + rewrite X. symmetry. unfold eff. rewrite apply_names_other by exact Y. exact X. }
  destruct RH as (h&cl&E&W&IN&HK).
  assert (OUT : forall e c', check_clause_with_hashes c lits [k] <> RErr e c').
  { intros e c'. unfold check_clause_with_hashes. rewrite E. cbn [obind with_clauses with_hasher c_rup c_clauses c_vars]. rewrite (inv_trail _ I).
    pose proof (ensure_vars_spec h lits cl (c_vars c) W) as EV. destruct (ensure_vars cl (c_vars c) lits) as [cl2 vs2]. destruct EV as (W2&EX&FV).
    destruct (rup_true_lit _ _) as [[i|]|]; cbn [obind]; [discriminate| |discriminate].
    destruct (rup_falsify _ _) as [r1|] eqn:RF; cbn [obind]; [|discriminate].
    rewrite <- (ext_aclauses _ _ _ _ EX) in IN. pose proof (gc_lits _ _ _ (wf_clause _ _ _ W2 _ IN)) as GL. cbn [a_lits] in GL.
    destruct (falsify_val _ _ _ (good_nt _ GL) RF) as [FL _].
    unfold aclauses in IN. apply in_map_iff in IN as (d&D1&D2). inversion D1 as [[X1 X2 X3 LO]].
    destruct (stored_in_bucket h cl2 vs2 d W2 D2) as (k'&K1&K2). rewrite LO, HK in K1. inversion K1; subst k'.
    cbn [rup_hashes]. destruct (bucket (cmap cl2) k) as [|c0 cs] eqn:BK; [destruct K2|]. rewrite <- BK.
    destruct (rup_candidates (literal_buffer cl2) r1 (bucket (cmap cl2) k)) as [[r2 b]|] eqn:RC; cbn [obind]; [|discriminate].
    rewrite <- BK in K2. rewrite (rup_candidates_hit _ lits _ _ _ _ d FL K2 LO RC). cbn [obind]. destruct (rup_undo _ _); cbn [obind]; discriminate. }
  destruct (check_clause_with_hashes c lits [k]) as [[] c'|e c'|] eqn:CC; [eauto|exfalso; eapply OUT; reflexivity|destruct WP].
Qed.
