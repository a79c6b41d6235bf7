(** How user names and sampling modes evolve, and which names transcripts use. *)
From Coq Require Import Arith ZArith ZifyBool ZifyNat ZifyN Permutation Sorted.
From Verif Require Import Spec Lit LitProofs Vec SortedLits SortedLitsProofs Hash HashProofs Vli BinFormat Checker CheckerStore CheckerInv CheckerOps CheckerRup CheckerSteps CheckerRun CheckerCount CheckerSafe CheckerNames.

Definition vd (vs : variables) (v : N) : var_data := match vget (var_datas vs) v with Some d => d | None => vd_default end.

(** a literal of a transcript item stands for a variable with that user name, or
    for a sampled variable without a user name and with that index *)
Definition named_by (vs : variables) (v u : N) : Prop :=
  vd_user (vd vs v) = Some u \/ (vd_user (vd vs v) = None /\ vd_mode (vd vs v) = Sample /\ u = v).
Definition named_lit (vs : variables) (ul : N) : Prop := exists l u, ul = lit_from_var u (is_positive l) /\ named_by vs (lit_var l) u.
Definition item_ok (vs : variables) (t : transcript_item) : Prop :=
  match t with
  | TAddClause l | TAssume l | TFailedAssumptions l | TModel l => Forall (named_lit vs) l
  | TUnsat => True
  | _ => False
  end.

Definition vkeep (vs vs' : variables) : Prop := (forall v, vd vs' v = vd vs v) /\ used_user_vars vs' = used_user_vars vs.
Lemma vkeep_refl vs : vkeep vs vs. Proof. split; auto. Qed.
Lemma vkeep_trans a b c : vkeep a b -> vkeep b c -> vkeep a c.
Proof. intros [A1 A2] [B1 B2]. split; [intros v; rewrite B1; apply A1|congruence]. Qed.
Lemma vext_vkeep vs vs' : vext vs vs' -> vkeep vs vs'.
Proof.
  intros [a b d e]. split; [|exact a]. intros v. unfold vd. destruct (N.ltb_spec v (nvars vs)) as [L|L]; [rewrite d by exact L; reflexivity|].
  assert (E : vget (var_datas vs) v = None).
  { destruct (vget (var_datas vs) v) eqn:G; [|reflexivity]. apply vget_some_lt in G. unfold nvars in L. lia. }
  rewrite E. destruct (N.ltb_spec v (nvars vs')) as [L2|L2]; [rewrite e by assumption; reflexivity|].
  destruct (vget (var_datas vs') v) eqn:G; [|reflexivity]. apply vget_some_lt in G. unfold nvars in L2. lia.
Qed.
Lemma data_vkeep vs vs' : var_datas vs' = var_datas vs -> used_user_vars vs' = used_user_vars vs -> vkeep vs vs'.
Proof. intros A B. split; [|exact B]. intros v. unfold vd. rewrite A. reflexivity. Qed.

Lemma named_keep vs vs' l : vkeep vs vs' -> named_lit vs' l -> named_lit vs l.
Proof. intros [K _] (x&u&E&H). exists x, u. split; [exact E|]. unfold named_by in *. rewrite K in H. exact H. Qed.
Lemma item_keep vs vs' t : vkeep vs vs' -> item_ok vs' t -> item_ok vs t.
Proof. intros K. destruct t; cbn; auto; intros H; (eapply Forall_impl; [|exact H]); intros l; apply named_keep; exact K. Qed.

Record vsame (c c' : ctx) : Prop := {
  vs_keep : vkeep (c_vars c) (c_vars c');
  vs_items : exists ts, trans_log (c_proc c') = trans_log (c_proc c) ++ ts /\ Forall (item_ok (c_vars c)) ts;
}.
Lemma vsame_quiet c c' : vkeep (c_vars c) (c_vars c') -> c_proc c' = c_proc c -> vsame c c'.
Proof. intros K E. constructor; [exact K|]. exists []. rewrite E, app_nil_r. auto. Qed.
Lemma vsame_refl c : vsame c c. Proof. apply vsame_quiet; [apply vkeep_refl|reflexivity]. Qed.
Lemma vsame_trans a b c : vsame a b -> vsame b c -> vsame a c.
Proof.
  intros [A1 (t1&A2&A3)] [B1 (t2&B2&B3)]. constructor; [eapply vkeep_trans; eassumption|]. exists (t1 ++ t2). split; [rewrite B2, A2, app_assoc; reflexivity|].
  apply Forall_app. split; [exact A3|]. eapply Forall_impl; [|exact B3]. intros t. apply item_keep. exact A1.
Qed.

Lemma user_named vs v u : user_from_proof_var vs v = Some u -> named_by vs v u.
Proof.
  unfold user_from_proof_var, named_by, vd. destruct (vget _ _) as [d|]; [|discriminate]. destruct (vd_user d); [intros H; left; exact H|].
  destruct (vd_mode d); cbn [mode_eqb]; try discriminate. intros H. inversion H. right. auto.
Qed.
Lemma map_user_named vs lits : forall l, map_user vs lits = Some l -> Forall (named_lit vs) l.
Proof.
  induction lits as [|x lits IH]; intros l H; cbn [map_user] in H; [inversion H; constructor|].
  destruct (user_from_proof_var vs (lit_var x)) as [u|] eqn:E; [|discriminate]. destruct (map_user vs lits); [|discriminate]. inversion H; subst.
  constructor; [|apply IH; reflexivity]. exists x, u. split; [reflexivity|apply user_named; exact E].
Qed.
Lemma flat_map_named vs lits : Forall (named_lit vs) (flat_map_user vs lits).
Proof.
  induction lits as [|x lits IH]; [constructor|]. unfold flat_map_user. cbn [flat_map]. destruct (user_from_proof_var vs (lit_var x)) as [u|] eqn:E; [|exact IH].
  cbn [app]. constructor; [|exact IH]. exists x, u. split; [reflexivity|apply user_named; exact E].
Qed.
Lemma process_vsame c k : match k with KUserVar _ _ => True | _ => post (process_step c k) (vsame c) end.
Proof.
  assert (G : (forall t, transcript_step (c_vars c) k = Some (Some t) -> item_ok (c_vars c) t) -> post (process_step c k) (vsame c)).
  { intros H. unfold process_step. destruct (_ && _); [exact I|]. destruct (has_transcripts _).
    - destruct (transcript_step (c_vars c) k) as [[t|]|] eqn:E; [destruct (trans_fail _ _); [exact I|]| |exact I].
      + constructor; [apply vkeep_refl|]. exists [t]. split; [reflexivity|]. constructor; [apply H; reflexivity|constructor].
      + constructor; [apply vkeep_refl|]. exists []. split; [symmetry; apply app_nil_r|constructor].
    - constructor; [apply vkeep_refl|]. exists []. split; [symmetry; apply app_nil_r|constructor]. }
  destruct k; try exact I; apply G; cbn [transcript_step]; intros t H;
    try (destruct (map_user _ _) as [x|] eqn:M; [|discriminate]; inversion H; subst; exact (map_user_named _ _ _ M)); try discriminate.
  - match type of H with Some (match ?c with _ => _ end) = _ => destruct c; [|discriminate] end. inversion H. exact I.
  - inversion H. apply flat_map_named.
Qed.

Lemma ensure_vkeep cl vs v : vkeep vs (snd (ensure_var cl vs v)).
Proof.
  unfold ensure_var. destruct (N.leb_spec (vlen (var_datas vs)) v) as [L|L]; [|apply vkeep_refl]. split; [|reflexivity]. intros w. unfold vd. cbn [snd var_datas].
  rewrite vget_resize by lia. destruct (N.ltb_spec w (vlen (var_datas vs))) as [B|B]; [reflexivity|].
  destruct (vget (var_datas vs) w) eqn:G; [apply vget_some_lt in G; lia|]. destruct (w <? v + 1); reflexivity.
Qed.
Lemma ensures_vkeep lits : forall cl vs, vkeep vs (snd (ensure_vars cl vs lits)).
Proof.
  unfold ensure_vars. induction lits as [|l lits IH]; intros cl vs; cbn [fold_left]; [apply vkeep_refl|]. cbn [fst snd].
  pose proof (ensure_vkeep cl vs (lit_var l)) as K. destruct (ensure_var cl vs (lit_var l)) as [cl1 vs1]. eapply vkeep_trans; [exact K|apply IH].
Qed.
Lemma ctx_ensure_vsame c v : vsame c (ctx_ensure_var c v).
Proof.
  apply vsame_quiet; unfold ctx_ensure_var; pose proof (ensure_vkeep (c_clauses c) (c_vars c) v) as K; destruct (ensure_var _ _ _) as [cl vs]; [exact K|reflexivity].
Qed.

Lemma ctx_ensure_proc c v : c_proc (ctx_ensure_var c v) = c_proc c.
Proof. unfold ctx_ensure_var. destruct (ensure_var _ _ _). reflexivity. Qed.

Lemma check_vsame c lits hashes : post (check_clause_with_hashes c lits hashes) (vsame c).
Proof.
  unfold check_clause_with_hashes. apply post_obind. intros [h cl] E.
  cbn [with_clauses with_hasher c_rup c_clauses c_vars]. destruct (r_trail (c_rup c)); [|exact I].
  pose proof (ensures_vkeep lits cl (c_vars c)) as K. destruct (ensure_vars _ _ _) as [cl2 vs2]. cbn [snd] in K.
  apply post_obind. intros [id|] _; [apply vsame_quiet; [exact K|reflexivity]|]. apply post_obind. intros r _. apply post_obind. intros [r2 res] _.
  destruct res; try exact I; apply post_obind; intros us _; [apply vsame_quiet; [exact K|reflexivity]|exact I].
Qed.
Lemma sampling_vsame lits : forall c, post (ensure_sampling_vars c lits) (fun c' => vsame c c' /\ Forall (fun l => vd_mode (vd (c_vars c) (lit_var l)) = Sample) lits).
Proof.
  induction lits as [|l lits IH]; intros c; cbn [ensure_sampling_vars]; [split; [apply vsame_refl|constructor]|]. apply post_bind. unfold ensure_sampling_var.
  pose proof (ctx_ensure_vsame c (lit_var l)) as K. destruct (vget (var_datas (c_vars (ctx_ensure_var c (lit_var l)))) (lit_var l)) as [d|] eqn:E; [|exact I].
  destruct (mode_eqb (vd_mode d) Sample) eqn:M; [|exact I]. cbn [post]. intros _.
  eapply post_weaken; [|apply IH]. intros c' [A B]. split; [eapply vsame_trans; eassumption|]. destruct (vs_keep _ _ K) as [K1 _]. constructor.
  - rewrite <- K1. unfold vd. rewrite E. destruct (vd_mode d); try discriminate; reflexivity.
  - eapply Forall_impl; [|exact B]. intros x Hx. cbn beta in Hx. rewrite K1 in Hx. exact Hx.
Qed.
Lemma store_unit_vars c l : post (obind (store_unit_clause (c_state c) (c_clauses c) l) (fun '(st, cl, _) => ROk tt (with_clauses (with_state c st) cl))) (vsame c).
Proof. apply post_obind. intros [[st cl] x] _. apply vsame_quiet; [apply vkeep_refl|reflexivity]. Qed.
Lemma store_vsame c lits red : post (ctx_store_clause c lits red) (vsame c).
Proof.
  unfold ctx_store_clause. apply post_obind. intros [[[st cl] vs] x] E. apply vsame_quiet; [|reflexivity]. cbn [with_vars c_vars].
  unfold store_clause in E. pose proof (ensures_vkeep lits (c_clauses c) (c_vars c)) as K. destruct (ensure_vars _ _ _) as [cl2 vs2]. cbn [snd] in K.
  destruct lits as [|l [|l2 ls]].
  - inversion E; subst. exact K.
  - destruct (store_unit_clause _ _ _) as [[[? ?] ?]|]; [|discriminate]. inversion E; subst. exact K.
  - destruct (hasher_hash _ _) as [k|]; [|discriminate]. destruct (store_candidate _ _ _ _) as [[[cs y]|[]]|]; [|idtac|discriminate]; [inversion E; subst; exact K|].
    repeat match type of E with (match ?d with _ => _ end) = Some _ => destruct d; try discriminate end; inversion E; subst; eapply vkeep_trans; try exact K; try apply vkeep_refl; apply data_vkeep; reflexivity.
Qed.

Lemma add_vsame c cl : post (add_clause c cl) (fun c' => vsame c c' /\
  (s_unsat (c_state c) = false -> taut cl = false -> Forall (fun l => vd_mode (vd (c_vars c) (lit_var l)) = Sample) cl)).
Proof.
  unfold add_clause. destruct (s_unsat _); [split; [apply vsame_refl|discriminate]|]. rewrite canon_eq. destruct (taut cl) eqn:TA.
  - apply post_bind. eapply post_weaken; [|apply (process_vsame _ (KTautologicalClause _ _))]. intros c1 K _.
    split; [|discriminate]. eapply vsame_trans; [exact K|apply vsame_quiet; [apply vkeep_refl|reflexivity]].
  - apply post_bind. eapply post_weaken; [|apply sampling_vsame]. intros c1 [K1 SM] _. apply post_bind. eapply post_weaken; [|apply store_vsame].
    intros c2 K2 [id added]. pose proof (vsame_trans _ _ _ K1 K2) as K.
    assert (FIN : forall c', vsame c2 c' -> vsame c c' /\ (false = false -> false = false -> Forall (fun l => vd_mode (vd (c_vars c) (lit_var l)) = Sample) cl)).
    { intros c' X. split; [eapply vsame_trans; eassumption|]. intros _ _. apply canon_forall. exact SM. }
    assert (SK : forall c3 x, vsame c2 c3 -> vsame c2 (with_clauses c3 x)).
    { intros c3 x X. eapply vsame_trans; [exact X|]. apply vsame_quiet; [apply vkeep_refl|reflexivity]. }
    destruct added.
    + eapply post_weaken; [|apply (process_vsame c2 (KAddClause _ _))]. exact FIN.
    + apply post_bind. cbn [post]. intros _. apply post_bind. eapply post_weaken; [|apply (process_vsame c2 (KDuplicatedClause _ _ _))].
      intros c3 X _. apply FIN, SK, X.
    + apply post_bind. eapply post_weaken; [|apply (process_vsame c2 (KMakeIrredundant _ _))]. intros c3 X _. apply post_bind.
      eapply post_weaken; [|apply (process_vsame c3 (KDuplicatedClause _ _ _))]. intros c4 Y _. apply FIN, SK. eapply vsame_trans; eassumption.
Qed.
Lemma units_vsame units : forall c, post (check_unit_clauses_step c units) (vsame c).
Proof.
  induction units as [|[l hash] units IH]; intros c; cbn [check_unit_clauses_step]; [apply vsame_refl|].
  apply post_bind. eapply post_weaken; [|apply check_vsame]. intros c1 K1 _. pose proof (vsame_trans _ _ _ (ctx_ensure_vsame c (lit_var l)) K1) as K. clear K1.
  apply post_obind. intros [[st cl] [id r]] _. apply post_bind.
  assert (S1 : vsame c (with_clauses (with_state c1 st) cl)) by (eapply vsame_trans; [exact K|]; apply vsame_quiet; [apply vkeep_refl|reflexivity]).
  assert (G : forall c2, vsame c c2 -> post (check_unit_clauses_step c2 units) (vsame c)).
  { intros c2 E. eapply post_weaken; [|apply IH]. intros c' X. eapply vsame_trans; eassumption. }
  destruct r; [|cbn [post]; intros _; apply G; exact S1|exact I].
  eapply post_weaken; [|apply (process_vsame _ (KAtClause _ _ _ _))]. intros c2 X _. apply G. eapply vsame_trans; eassumption.
Qed.
Lemma delete_vkeep h cl vs lits red cl' vs' r : delete_clause h cl vs lits red = Some (cl', vs', r) -> vkeep vs vs'.
Proof.
  unfold delete_clause. intros E. destruct (Nat.ltb _ _); [inversion E; subst; apply vkeep_refl|]. destruct (hasher_hash _ _); [|discriminate].
  destruct (delete_candidate _ _ _ _) as [[[[cs f] x] g]|]; [|discriminate]. destruct x as [[id d]|]; [|inversion E; subst; apply vkeep_refl].
  destruct (match d with DRemoved => _ | _ => _ end); [|discriminate]. destruct (collect_garbage _); [|discriminate]. inversion E; subst. apply data_vkeep; reflexivity.
Qed.

Definition name_event (s : proof_step) : bool := match s with UserVarName _ _ | DeleteVar _ | ChangeSamplingMode _ _ => true | _ => false end.
Lemma other_vsame c s : name_event s = false -> post (check_step c s) (vsame c).
Proof.
  destruct s; intros NE; try discriminate; clear NE; cbn [check_step].
  - apply vsame_quiet; [apply vkeep_refl|reflexivity].
  - eapply post_weaken; [|apply add_vsame]. intros c' [K _]. exact K.
  - unfold check_at_clause_step. destruct (copy_canonical clause) as [tmp ta]. destruct ta; [exact I|]. apply post_bind.
    eapply post_weaken; [|apply check_vsame]. intros c1 K1 _. apply post_bind. eapply post_weaken; [|apply store_vsame]. intros c2 K2 [id added].
    set (c3 := if redundant then c2 else with_state c2 (with_prev (c_state c2) (Some id) tmp)).
    assert (K : vsame c c3).
    { eapply vsame_trans; [exact K1|]. eapply vsame_trans; [exact K2|]. apply vsame_quiet; unfold c3; destruct redundant; try apply vkeep_refl; reflexivity. }
    destruct added; [|exact K|].
    + eapply post_weaken; [|apply (process_vsame c3 (KAtClause _ _ _ _))]. intros c' X. eapply vsame_trans; eassumption.
    + eapply post_weaken; [|apply (process_vsame c3 (KMakeIrredundant _ _))]. intros c' X. eapply vsame_trans; eassumption.
  - apply units_vsame.
  - unfold check_delete_clause_step. destruct (copy_canonical clause) as [tmp ta]. destruct ta; [exact I|]. apply post_bind.
    assert (X : post (match proof with
      | DRedundant => ROk None c
      | DSatisfied => obind (satisfied_by (unit_clauses (c_clauses c)) tmp) (fun s => match s with Some id => ROk (Some id) c | None => failed c MNotSatisfied end)
      | DSimplified => if subsumed_by_previous_irred_clause (c_state c) tmp then ROk (s_prev_id (c_state c)) c else failed c MNotSubsumed
      end) (fun c' => c' = c)).
    { destruct proof; [reflexivity|destruct (subsumed_by_previous_irred_clause _ _); [reflexivity|exact I]|].
      apply post_obind. intros [id|] _; [reflexivity|exact I]. }
    eapply post_weaken; [|exact X]. intros c' -> s. apply post_obind. intros [[cl vs] r] D. apply delete_vkeep in D. cbn [with_state c_vars] in D.
    destruct r as [[id del]|msg]; [|exact I].
    set (c1 := with_vars (with_clauses (with_state c (with_prev (c_state c) None [])) cl) vs).
    assert (K : vsame c c1) by (apply vsame_quiet; [exact D|reflexivity]).
    destruct proof; destruct del; try exact I; try exact K; try (destruct s; [|exact I]);
      try (eapply post_weaken; [|apply (process_vsame c1 (KDeleteClause _ _))]; intros c' Y; eapply vsame_trans; eassumption);
      (eapply post_weaken; [|apply (process_vsame c1 (KDeleteAtClause _ _ _ _))]; intros c' Y; eapply vsame_trans; eassumption).
  - apply post_obind. intros [h cl] _. apply vsame_quiet; [apply vkeep_refl|reflexivity].
  - unfold check_model_step. apply post_obind. intros [a|m] _; [|exact I]. destruct (negb _); [exact I|]. apply post_obind. intros [|] _; [|exact I].
    apply (process_vsame c (KModel _)).
  - apply post_bind. eapply post_weaken; [|apply sampling_vsame]. intros c1 [E1 _] _.
    set (c2 := with_state c1 _). assert (K : vsame c c2) by (eapply vsame_trans; [exact E1|]; apply vsame_quiet; [apply vkeep_refl|reflexivity]).
    eapply post_weaken; [|apply (process_vsame c2 (KAssumptions _))]. intros c' Y. eapply vsame_trans; eassumption.
  - unfold check_failed_assumptions_step. destruct (copy_canonical failed_core) as [tmp d]. destruct (negb _); [exact I|]. apply post_bind.
    destruct d.
    + cbn [post]. intros _. eapply post_weaken; [|apply (process_vsame _ (KFailedAssumptions _ _))]. intros c' Y. eapply vsame_trans; [|exact Y].
      apply vsame_quiet; [apply vkeep_refl|reflexivity].
    + eapply post_weaken; [|apply check_vsame]. intros c1 K1 _. eapply post_weaken; [|apply (process_vsame c1 (KFailedAssumptions _ _))]. intros c' Y. eapply vsame_trans; eassumption.
  - apply vsame_quiet; [apply vkeep_refl|reflexivity].
Qed.

(** ** The steps on names *)
Lemma vd_set vs v d w lc us : v < nvars vs -> vd (Variables lc (vset (var_datas vs) v d) us) w = if w =? v then d else vd vs w.
Proof.
  intros L. unfold vd. cbn [var_datas]. rewrite vget_vset. destruct (N.eqb_spec v w) as [<-|NE]; cbn [andb].
  - unfold nvars in L. destruct (N.ltb_spec v (vlen (var_datas vs))); [|lia]. rewrite N.eqb_refl. reflexivity.
  - destruct (N.eqb_spec w v); [congruence|reflexivity].
Qed.
Lemma process_items c k : post (process_step c k) (fun c' => c_vars c' = c_vars c /\
  exists ts, trans_log (c_proc c') = trans_log (c_proc c) ++ ts /\ forall t, In t ts -> transcript_step (c_vars c) k = Some (Some t)).
Proof.
  unfold process_step. destruct (_ && _); [exact I|]. destruct (has_transcripts _).
  - destruct (transcript_step (c_vars c) k) as [[t|]|] eqn:E; [destruct (trans_fail _ _); [exact I|]| |exact I].
    + split; [reflexivity|]. exists [t]. split; [reflexivity|]. intros t' [<-|[]]. reflexivity.
    + split; [reflexivity|]. exists []. split; [symmetry; apply app_nil_r|intros t []].
  - split; [reflexivity|]. exists []. split; [symmetry; apply app_nil_r|intros t []].
Qed.

(** items that report a change of a name *)
Definition name_items (c c' : ctx) (P : transcript_item -> Prop) : Prop := exists ts, trans_log (c_proc c') = trans_log (c_proc c) ++ ts /\ Forall P ts.

Record adds (c : ctx) (v u : N) (c' : ctx) : Prop := {
  ad_free : ~ In u (used_user_vars (c_vars c));
  ad_none : vd_user (vd (c_vars c) v) = None;
  ad_shown : vd_mode (vd (c_vars c) v) <> Hide;
  ad_data : forall w, vd (c_vars c') w = if w =? v then VD (Some u) (vd_mode (vd (c_vars c) v)) else vd (c_vars c) w;
  ad_used : used_user_vars (c_vars c') = u :: used_user_vars (c_vars c);
  ad_items : name_items c c' (fun t => t = TObserveInternalVar u);
}.
Lemma exist_vd c v : exists d, vget (var_datas (c_vars (ctx_ensure_var c v))) v = Some d /\ vd (c_vars c) v = d /\ v < nvars (c_vars (ctx_ensure_var c v)).
Proof.
  assert (L : v < nvars (c_vars (ctx_ensure_var c v))).
  { unfold ctx_ensure_var, ensure_var, nvars. destruct (N.leb_spec (vlen (var_datas (c_vars c))) v); cbn [with_vars with_clauses c_vars var_datas]; [|assumption].
    rewrite vresize_len. lia. }
  destruct (vs_keep _ _ (ctx_ensure_vsame c v)) as [K _]. specialize (K v). unfold vd in K at 1.
  destruct (vget (var_datas (c_vars (ctx_ensure_var c v))) v) as [d|] eqn:G; [eauto|].
  apply vget_none in G. unfold nvars in L. lia.
Qed.
Lemma add_user_post c v u : post (add_user_mapping c v u) (adds c v u).
Proof.
  unfold add_user_mapping. pose proof (ctx_ensure_vsame c v) as K. pose proof (ctx_ensure_proc c v) as KP. destruct (exist_vd c v) as (d&E&ED&L).
  set (c0 := ctx_ensure_var c v) in *. clearbody c0.
  destruct ((vlen (var_datas (c_vars c0)) <=? u) || existsb (N.eqb u) (used_user_vars (c_vars c0))) eqn:EX; [exact I|]. rewrite E.
  apply orb_false_iff in EX as [_ EX].
  destruct (mode_eqb (vd_mode d) Hide) eqn:M; [exact I|]. destruct (vd_user d) eqn:U; [exact I|]. destruct (vs_keep _ _ K) as [K1 K2].
  eapply post_weaken; [|apply process_items]. intros c' (V&ts&T1&T2). cbn [with_vars c_vars c_proc] in *. constructor.
  - intros X. rewrite <- K2 in X. assert (existsb (N.eqb u) (used_user_vars (c_vars c0)) = true) by (apply existsb_exists; exists u; split; [exact X|apply N.eqb_refl]). congruence.
  - rewrite ED. exact U.
  - rewrite ED. intros X. rewrite X in M. discriminate.
  - intros w. rewrite V, vd_set by exact L. rewrite ED. destruct (w =? v); [reflexivity|apply K1].
  - rewrite V. cbn [used_user_vars]. rewrite K2. reflexivity.
  - exists ts. split; [rewrite T1, KP; reflexivity|]. apply Forall_forall. intros t Ht. specialize (T2 t Ht). cbn [transcript_step] in T2.
    destruct (mode_eqb (vd_mode d) Witness); inversion T2; reflexivity.
Qed.

Record removes (c : ctx) (v : N) (c' : ctx) : Prop := {
  rm_user : exists u, vd_user (vd (c_vars c) v) = Some u /\ (forall x, In x (used_user_vars (c_vars c')) <-> In x (used_user_vars (c_vars c)) /\ x <> u) /\
      name_items c c' (fun t => t = THideVar u);
  rm_data : forall w, vd (c_vars c') w = if w =? v then VD None Hide else vd (c_vars c) w;
}.
Lemma remove_user_post c v : post (remove_user_mapping c v) (removes c v).
Proof.
  unfold remove_user_mapping. pose proof (ctx_ensure_vsame c v) as K. pose proof (ctx_ensure_proc c v) as KP. destruct (exist_vd c v) as (d&E&ED&L).
  set (c0 := ctx_ensure_var c v) in *. clearbody c0. rewrite E. destruct (vd_user d) as [u|] eqn:U; [|exact I]. destruct (vs_keep _ _ K) as [K1 K2].
  apply post_bind. eapply post_weaken; [|apply process_items]. intros c1 (V&ts&T1&T2) _. cbn [post]. constructor.
  - exists u. split; [rewrite ED; exact U|]. split.
    + intros x. cbn [with_vars c_vars used_user_vars]. rewrite V, filter_In, K2. destruct (N.eqb_spec u x) as [->|NE]; cbn [negb]; split; intros [A B]; split; auto; congruence.
    + exists ts. cbn [with_vars c_proc]. split; [rewrite T1, KP; reflexivity|]. apply Forall_forall. intros t Ht. specialize (T2 t Ht). cbn [transcript_step] in T2.
      unfold user_from_proof_var in T2. rewrite E, U in T2. inversion T2; reflexivity.
  - intros w. cbn [with_vars c_vars]. rewrite V, vd_set by exact L. destruct (w =? v); [reflexivity|apply K1].
Qed.

Record frees (c : ctx) (v : N) (c' : ctx) : Prop := {
  fr_none : vd_user (vd (c_vars c) v) = None;
  fr_data : forall w, vd (c_vars c') w = if w =? v then vd_default else vd (c_vars c) w;
  fr_used : used_user_vars (c_vars c') = used_user_vars (c_vars c);
  fr_items : trans_log (c_proc c') = trans_log (c_proc c);
}.
Lemma delete_var_post c v : post (check_delete_var_step c v) (frees c v).
Proof.
  unfold check_delete_var_step. pose proof (ctx_ensure_vsame c v) as K. pose proof (ctx_ensure_proc c v) as KP. destruct (exist_vd c v) as (d&E&ED&L).
  set (c0 := ctx_ensure_var c v) in *. clearbody c0. rewrite E. cbn [obind]. destruct (vd_user d) as [u|] eqn:U; [exact I|]. destruct (vs_keep _ _ K) as [K1 K2].
  apply post_obind. intros n0 _. destruct (0 <? n0); [exact I|]. apply post_obind. intros n1 _. destruct (0 <? n1); [exact I|]. apply post_obind. intros uc _.
  assert (FIN : forall c1, c_vars c1 = c_vars c0 -> trans_log (c_proc c1) = trans_log (c_proc c0) ->
    frees c v (with_vars c1 (Variables (lit_count (c_vars c1)) (vset (var_datas (c_vars c1)) v vd_default) (used_user_vars (c_vars c1))))).
  { intros c1 V P. constructor.
    - rewrite ED. exact U.
    - intros w. cbn [with_vars c_vars]. rewrite V, vd_set by exact L. destruct (w =? v); [reflexivity|apply K1].
    - cbn [with_vars c_vars used_user_vars]. rewrite V. exact K2.
    - cbn [with_vars c_proc]. rewrite P, KP. reflexivity. }
  apply post_bind. destruct uc as [[[id| |] b]|]; cbn [uc_id]; try exact I; [|cbn [post]; intros _; apply FIN; reflexivity].
  apply post_bind. eapply post_weaken; [|apply process_items]. intros c1 (V&ts&T1&T2) _. cbn [post]. intros _. apply FIN; [exact V|].
  cbn [with_clauses c_proc]. destruct ts as [|t ts]; [rewrite T1; apply app_nil_r|]. specialize (T2 t (or_introl eq_refl)). discriminate.
Qed.

Record modes (c : ctx) (v : N) (sample : bool) (c' : ctx) : Prop := {
  mo_data : forall w, vd (c_vars c') w = if w =? v then VD (vd_user (vd (c_vars c) v)) (if sample then Sample else Witness) else vd (c_vars c) w;
  mo_used : used_user_vars (c_vars c') = used_user_vars (c_vars c);
  mo_items : name_items c c' (fun t => exists u, vd_user (vd (c_vars c) v) = Some u /\ t = if sample then TSampleVar u else TWitnessVar u);
  mo_sample : sample = true -> vd_user (vd (c_vars c) v) = None -> vd_mode (vd (c_vars c) v) = Sample;
}.
Lemma mode_post c v sample : post (check_change_sampling_mode c v sample) (modes c v sample).
Proof.
  unfold check_change_sampling_mode. pose proof (ctx_ensure_vsame c v) as K. pose proof (ctx_ensure_proc c v) as KP. destruct (exist_vd c v) as (d&E&ED&L).
  set (c0 := ctx_ensure_var c v) in *. clearbody c0. rewrite E. cbn [obind]. destruct (vs_keep _ _ K) as [K1 K2].
  set (mode := if sample then Sample else Witness). destruct (mode_eqb (vd_mode d) mode) eqn:M.
  - assert (M' : vd_mode d = mode) by (destruct (vd_mode d), mode; congruence || discriminate). constructor.
    + intros w. rewrite K1, ED. destruct (N.eqb_spec w v) as [->|]; [|reflexivity]. rewrite ED. fold mode. rewrite <- M'. destruct d; reflexivity.
    + exact K2.
    + exists []. split; [rewrite KP; symmetry; apply app_nil_r|constructor].
    + intros -> _. rewrite ED. exact M'.
  - assert (FIN : forall c1 ts, c_vars c1 = Variables (lit_count (c_vars c0)) (vset (var_datas (c_vars c0)) v (VD (vd_user d) mode)) (used_user_vars (c_vars c0)) ->
      trans_log (c_proc c1) = trans_log (c_proc c0) ++ ts -> (forall t, In t ts -> exists u, vd_user d = Some u /\ t = if sample then TSampleVar u else TWitnessVar u) ->
      (sample = true -> vd_user d <> None) -> modes c v sample c1).
    { intros c1 ts V T1 T2 S. constructor.
      - intros w. rewrite V, vd_set by exact L. rewrite ED. fold mode. destruct (w =? v); [reflexivity|apply K1].
      - rewrite V. exact K2.
      - exists ts. rewrite T1, KP. split; [reflexivity|]. rewrite ED. apply Forall_forall. exact T2.
      - rewrite ED. intros A B. exfalso. apply (S A B). }
    destruct (vd_user d) as [u|] eqn:U.
    + eapply post_weaken; [|apply process_items]. intros c1 (V&ts&T1&T2). apply (FIN c1 ts V T1); [|discriminate]. intros t Ht. specialize (T2 t Ht). cbn [transcript_step] in T2.
      exists u. split; [reflexivity|]. destruct sample; inversion T2; reflexivity.
    + destruct sample; [exact I|]. apply (FIN _ []); [reflexivity|symmetry; apply app_nil_r|intros t []|discriminate].
Qed.

(** * From the history *)
Definition user_after (f : N -> option N) (e : event) : N -> option N :=
  match e with Step (UserVarName v x) => fun w => if w =? v then x else f w | _ => f end.
Definition user_names (es : list event) : N -> option N := fold_left user_after es (fun _ => None).
Definition mode_after (f : N -> sampling_mode) (e : event) : N -> sampling_mode :=
  match e with
  | Step (UserVarName v None) => fun w => if w =? v then Hide else f w
  | Step (DeleteVar v) => fun w => if w =? v then Sample else f w
  | Step (ChangeSamplingMode v b) => fun w => if w =? v then (if b then Sample else Witness) else f w
  | _ => f
  end.
Definition var_modes (es : list event) : N -> sampling_mode := fold_left mode_after es (fun _ => Sample).

Record names_inv (es : list event) (c : ctx) : Prop := {
  ni_data : forall v, vd (c_vars c) v = VD (user_names es v) (var_modes es v);
  ni_used : forall u, In u (used_user_vars (c_vars c)) <-> exists v, user_names es v = Some u;
  ni_inj : forall v w u, user_names es v = Some u -> user_names es w = Some u -> v = w;
}.

Lemma names_other es e c c' : names_inv es c -> user_names (es ++ [e]) = user_names es -> var_modes (es ++ [e]) = var_modes es ->
  vkeep (c_vars c) (c_vars c') -> names_inv (es ++ [e]) c'.
Proof. intros [A B C] E1 E2 [K1 K2]. constructor; rewrite ?E1, ?E2, ?K2; auto. intros v. rewrite K1. apply A. Qed.

Lemma names_step es c e c' u : names_inv es c -> exec c e = ROk u c' -> names_inv (es ++ [e]) c'.
Proof.
  intros N H. destruct (match e with Step s => name_event s | _ => false end) eqn:NE.
  2:{ apply (names_other es e c); auto.
      - unfold user_names. rewrite fold_left_app. destruct e as [|s]; [reflexivity|destruct s; try reflexivity; discriminate].
      - unfold var_modes. rewrite fold_left_app. destruct e as [|s]; [reflexivity|destruct s; try reflexivity; discriminate].
      - destruct e as [cl|s]; cbn [exec] in H.
        + pose proof (add_vsame c cl) as P. rewrite H in P. apply (proj1 P).
        + unfold self_check_step in H. pose proof (other_vsame (with_state c (with_step (c_state c) (s_step (c_state c) + 1))) s NE) as P. rewrite H in P. apply (vs_keep _ _ P). }
  destruct N as [A B C]. destruct e as [|s]; [discriminate|]. cbn [exec] in H. unfold self_check_step in H. set (c0 := with_state c _) in *.
  assert (E0 : c_vars c0 = c_vars c) by reflexivity. clearbody c0.
  assert (UN : forall e, user_names (es ++ [e]) = user_after (user_names es) e) by (intros; unfold user_names; rewrite fold_left_app; reflexivity).
  assert (VM : forall e, var_modes (es ++ [e]) = mode_after (var_modes es) e) by (intros; unfold var_modes; rewrite fold_left_app; reflexivity).
  destruct s; try discriminate; cbn [check_step] in H.
  - rename global into v. destruct user as [x|].
    + pose proof (add_user_post c0 v x) as P. rewrite H in P. destruct P as [P1 P2 P3 P4 P5 _]. rewrite E0, A in *. cbn [vd_user vd_mode] in *. constructor; rewrite ?UN, ?VM; cbn [user_after mode_after].
      * intros w. rewrite P4. destruct (N.eqb_spec w v) as [->|]; [reflexivity|apply A].
      * intros y. rewrite P5. cbn [In]. rewrite B. split.
        -- intros [<-|(w&Hw)]; [exists v; rewrite N.eqb_refl; reflexivity|]. exists w. destruct (N.eqb_spec w v) as [->|]; [congruence|exact Hw].
        -- intros (w&Hw). destruct (w =? v); [inversion Hw; auto|right; exists w; exact Hw].
      * intros a b y Ha Hb. destruct (N.eqb_spec a v), (N.eqb_spec b v); try congruence; [| |eapply C; eassumption]; exfalso; apply P1, B; [inversion Ha; subst; eauto|inversion Hb; subst; eauto].
    + pose proof (remove_user_post c0 v) as P. rewrite H in P. destruct P as [(x&X1&X2&_) P4]. rewrite E0, A in *. cbn [vd_user vd_mode] in *. constructor; rewrite ?UN, ?VM; cbn [user_after mode_after].
      * intros w. rewrite P4. destruct (N.eqb_spec w v) as [->|]; [reflexivity|apply A].
      * intros y. rewrite X2, B. split.
        -- intros ((w&Hw)&NE2). exists w. destruct (N.eqb_spec w v) as [->|]; [congruence|exact Hw].
        -- intros (w&Hw). revert Hw. destruct (N.eqb_spec w v) as [EW|NW]; intros Hw; [discriminate|]. split; [eauto|]. intros ->. apply NW. eapply C; eassumption.
      * intros a b y Ha Hb. destruct (N.eqb_spec a v), (N.eqb_spec b v); try congruence. eapply C; eassumption.
  - rename var into v. pose proof (delete_var_post c0 v) as P. rewrite H in P. destruct P as [P1 P2 P3 _]. rewrite E0, A in *. cbn [vd_user vd_mode] in *. constructor; rewrite ?UN, ?VM; cbn [user_after mode_after].
    + intros w. rewrite P2. destruct (N.eqb_spec w v) as [->|]; [rewrite P1; reflexivity|apply A].
    + intros y. rewrite P3. apply B.
    + exact C.
  - rename var into v. pose proof (mode_post c0 v sample) as P. rewrite H in P. destruct P as [P2 P3 _ _]. rewrite E0, A in *. cbn [vd_user vd_mode] in *. constructor; rewrite ?UN, ?VM; cbn [user_after mode_after].
    + intros w. rewrite P2. destruct (N.eqb_spec w v) as [->|]; [reflexivity|apply A].
    + intros y. rewrite P3. apply B.
    + exact C.
Qed.

Lemma names_run es : forall c0 c u, names_inv [] c0 -> run c0 es = ROk u c -> names_inv es c.
Proof.
  induction es as [|e es IH] using rev_ind; intros c0 c u H0 R; [inversion R; subst; exact H0|].
  rewrite run_app in R. destruct (run c0 es) as [[] c1| |] eqn:R1; try discriminate. cbn [bind run] in R.
  destruct (exec c1 e) as [[] c2| |] eqn:X; try discriminate. inversion R; subst. eapply names_step; [eapply IH; eassumption|exact X].
Qed.
Lemma new_names p t pf tf sh : names_inv [] (checker_new p t pf tf sh).
Proof.
  constructor; [|intros u; split; [intros []|intros (v&H); discriminate]|discriminate]. intros v. unfold vd. cbn [checker_new c_vars var_datas]. rewrite vget_nil. reflexivity.
Qed.
