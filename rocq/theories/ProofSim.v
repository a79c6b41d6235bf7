(** The solver and the checker in step: what the log tells the checker matches the variables, the
    clauses, the units and the assumptions of the solver. *)
From Coq Require Import Lia Arith PeanoNat Permutation Sorted ZArith ZifyBool ZifyNat ZifyN.
From Verif Require Import Spec Lit LitProofs BinFormat Hash HashProofs SortedLits F32 Vsids VsidsProofs VsidsWf Luby Config Search SearchBase
  Propagate P_Search ClauseDb DbProofs Analyze AnalyzeProofs SolverCtx CtxFrame VarsProofs Solver SolverInv SolverSimplify SolverAdd
  SolverLoad CtxEvents P_Proof ProofLog.
From Verif Require SortedLitsProofs Checker CheckerSteps CheckerRun CheckerSafe CheckerNames CheckerUsers CheckerCount CheckerValid.
Local Open Scope N_scope.

Notation canon := CheckerSteps.canon.
Notation Step := CheckerRun.Step.
Notation Load := CheckerRun.Load.
Notation db_cls := CheckerValid.db_cls.
Notation db_units := CheckerValid.db_units.
Notation db_unsat := CheckerValid.db_unsat.
Notation announced := CheckerValid.announced.

(** * The variables *)

Definition mode_of (d : vdata) : Checker.sampling_mode :=
  if vd_deleted d then Checker.Sample
  else match vd_mode d with Sample => Checker.Sample | Witness => Checker.Witness | Hide => Checker.Hide end.
(** Only hidden variables are deleted. *)
Definition deletes_hidden (es : list event) : Prop :=
  forall es1 g es2, es = es1 ++ Step (DeleteVar g) :: es2 -> CheckerUsers.var_modes es1 g = Checker.Hide.
Lemma del_ev es e : deletes_hidden es -> (forall g, e = Step (DeleteVar g) -> CheckerUsers.var_modes es g = Checker.Hide) -> deletes_hidden (es ++ [e]).
Proof.
  intros H K es1 g es2 E. destruct (exists_last (l := Step (DeleteVar g) :: es2) ltac:(discriminate)) as (l&x&X). rewrite X, app_assoc in E.
  apply app_inj_tail in E as [-> <-]. destruct l as [|y l]; cbn [app] in X; injection X as X1 X2.
  - rewrite app_nil_r in *. auto.
  - subst y. apply (H es1 g l). reflexivity.
Qed.
Record names_rel (v : vars) (es : list event) : Prop := {
  nr_sg : forall g, CheckerNames.current_names es g = v_sg v g;
  nr_bits : CheckerNames.current_bits es = 64;
  nr_ug : forall g, CheckerUsers.user_names es g = v_ug v g;
  nr_mode : forall g, CheckerUsers.var_modes es g = mode_of (v_data v g);
  nr_ann : forall g, g < v_glen v -> announced es g;
  nr_len : v_ulen v <= v_glen v;
  nr_del : deletes_hidden es }.

Lemma names_ev es e : CheckerNames.current_names (es ++ [e]) = CheckerNames.names_after (CheckerNames.current_names es) e.
Proof. unfold CheckerNames.current_names. rewrite fold_left_app. reflexivity. Qed.
Lemma bits_ev es e : CheckerNames.current_bits (es ++ [e]) = CheckerNames.bits_after (CheckerNames.current_bits es) e.
Proof. unfold CheckerNames.current_bits. rewrite fold_left_app. reflexivity. Qed.
Lemma user_ev es e : CheckerUsers.user_names (es ++ [e]) = CheckerUsers.user_after (CheckerUsers.user_names es) e.
Proof. unfold CheckerUsers.user_names. rewrite fold_left_app. reflexivity. Qed.
Lemma mode_ev es e : CheckerUsers.var_modes (es ++ [e]) = CheckerUsers.mode_after (CheckerUsers.var_modes es) e.
Proof. unfold CheckerUsers.var_modes. rewrite fold_left_app. reflexivity. Qed.
Lemma db_ev es e : db_after (es ++ [e]) = CheckerValid.db_event (db_after es) e.
Proof. unfold db_after. rewrite fold_left_app. reflexivity. Qed.
Lemma as_ev es e : CheckerRun.assumed (es ++ [e]) = CheckerRun.assume_event (CheckerRun.assumed es) e.
Proof. unfold CheckerRun.assumed. rewrite fold_left_app. reflexivity. Qed.
Lemma ann_ev es e g : announced es g -> announced (es ++ [e]) g.
Proof. intros (w&x&I&L). exists w, x. split; [apply in_or_app; left; exact I|exact L]. Qed.
Lemma ann_new es g x h : h <= g -> announced (es ++ [Step (UserVarName g x)]) h.
Proof. intros L. exists g, x. split; [apply in_or_app; right; left; reflexivity|exact L]. Qed.

(** Steps that say nothing about variables *)
Definition plain (e : event) : Prop :=
  match e with
  | Step (SolverVarName _ _) | Step (UserVarName _ _) | Step (DeleteVar _) | Step (ChangeSamplingMode _ _) | Step (ChangeHashBits _) => False
  | _ => True
  end.
Lemma names_plain v es e : plain e -> names_rel v es -> names_rel v (es ++ [e]).
Proof.
  intros P [A B C D E F G].
  assert (Q : CheckerNames.names_after (CheckerNames.current_names es) e = CheckerNames.current_names es /\
    CheckerNames.bits_after (CheckerNames.current_bits es) e = CheckerNames.current_bits es /\
    CheckerUsers.user_after (CheckerUsers.user_names es) e = CheckerUsers.user_names es /\
    CheckerUsers.mode_after (CheckerUsers.var_modes es) e = CheckerUsers.var_modes es).
  { destruct e as [cl|s]; [repeat split|]. destruct s; try destruct P; repeat split. }
  destruct Q as (Q1&Q2&Q3&Q4). constructor; auto.
  - intros g. rewrite names_ev, Q1. apply A.
  - rewrite bits_ev, Q2. exact B.
  - intros g. rewrite user_ev, Q3. apply C.
  - intros g. rewrite mode_ev, Q4. apply D.
  - intros g L. apply ann_ev. auto.
  - apply del_ev; [exact G|]. intros g ->. destruct P.
Qed.
(** Changes of the data that do not matter here *)
Lemma names_data v v' es : v_sg v' = v_sg v -> v_ug v' = v_ug v -> v_glen v' = v_glen v -> v_ulen v' = v_ulen v ->
  (forall g, mode_of (v_data v' g) = mode_of (v_data v g)) -> names_rel v es -> names_rel v' es.
Proof. intros E1 E2 E3 E4 E5 [A B C D E F G]. constructor; rewrite ?E1, ?E2, ?E3, ?E4; auto. intros g. rewrite E5. apply D. Qed.

(** * The database *)

(** Pairs of literals that are binary clauses, each once *)
Definition bin_pairs (n : N) (bin : N -> list N) : list (N * N) :=
  flat_map (fun l => map (fun o => (lnot l, o)) (filter (fun o => lnot l <? o) (bin l))) (codes (N.to_nat (2 * n)) 0).
Definition long_entry (v : vars) (s : search) (d : cdb) (x : N) : list N * bool :=
  (canon (gls v (s_lits s x)), negb (tier_eqb (htier d x) Irred)).
Definition bin_entry (v : vars) (p : N * N) : list N * bool := (canon (gls v [fst p; snd p]), false).
Definition entries (v : vars) (s : search) (d : cdb) (bin : N -> list N) : list (list N * bool) :=
  map (long_entry v s d) (ClauseDb.live d) ++ map (bin_entry v) (bin_pairs (v_slen v) bin).
(** Literals, with global names, that the solver has fixed *)
Definition gfix (v : vars) (s : search) (l : N) : Prop :=
  match v_sg v (lit_var l) with
  | Some x => fixv s x (is_positive l)
  | None => vd_deleted (v_data v (lit_var l)) = false /\ vd_unit (v_data v (lit_var l)) = Some (is_positive l)
  end.

Record db_rel (cls : list (list N * bool)) (un : N -> Prop) (A : list N) (es : list event) : Prop := {
  dr_cls : Permutation (db_cls (db_after es)) cls;
  dr_units : forall l, In l (db_units (db_after es)) <-> un l;
  dr_unsat : db_unsat (db_after es) = false;
  dr_as : forall l, In l (CheckerRun.assumed es) <-> In l A }.
Record dead_rel (v : vars) (es : list event) : Prop := {
  dd_unsat : db_unsat (db_after es) = true;
  dd_named : forall D red l, In (D, red) (db_cls (db_after es)) -> In l D -> v_sg v (lit_var l) <> None }.
Definition srel (v : vars) (s : search) (d : cdb) (bin : N -> list N) (A : list N) (sat : sstate) (es : list event) : Prop :=
  names_rel v es /\
  match sat with Unsat => dead_rel v es | _ => db_rel (entries v s d bin) (gfix v s) A es end.
Definition rel (A : list N) (c : ctx) (es : list event) : Prop :=
  srel (c_v c) (c_s c) (c_d c) (c_bin c) A (st_sat (c_st c)) es.

(** Steps that change neither the clauses nor the assumptions *)
Definition silent (e : event) : Prop :=
  match e with
  | Step (SolverVarName _ _) | Step (UserVarName _ _) | Step (ChangeSamplingMode _ _) | Step (ChangeHashBits _) | Step (Model _) | Step (FailedAssumptions _ _) | Step End => True
  | _ => False
  end.
Lemma silent_db es e : silent e -> db_after (es ++ [e]) = db_after es /\ CheckerRun.assumed (es ++ [e]) = CheckerRun.assumed es.
Proof. intros H. rewrite db_ev, as_ev. destruct e as [|s]; [destruct H|]. destruct s; try destruct H; auto. Qed.
Lemma db_silent cls un A es e : silent e -> db_rel cls un A es -> db_rel cls un A (es ++ [e]).
Proof. intros H [P Q R S]. destruct (silent_db es e H) as [E1 E2]. constructor; rewrite ?E1, ?E2; assumption. Qed.
Lemma dead_silent v es e : silent e -> dead_rel v es -> dead_rel v (es ++ [e]).
Proof. intros H [P Q]. destruct (silent_db es e H) as [E1 _]. constructor; rewrite ?E1; assumption. Qed.
Lemma db_ext cls cls' un un' A A' es : Permutation cls cls' -> (forall l, un l <-> un' l) -> (forall l, In l A <-> In l A') ->
  db_rel cls un A es -> db_rel cls' un' A' es.
Proof.
  intros E U S [P Q R T]. constructor; auto; [eapply Permutation_trans; eassumption| |].
  - intros l. rewrite Q. apply U.
  - intros l. rewrite T. apply S.
Qed.

(** ** Names in clauses *)
Lemma canon_in l y : In y (canon l) <-> In y l.
Proof. apply SortedLitsProofs.canonical_in. Qed.
Lemma gls_ext v v' cl : (forall l, In l cl -> v_gs v' (lit_var l) = v_gs v (lit_var l)) -> gls v' cl = gls v cl.
Proof. intros H. apply map_ext_in. intros l I. unfold gl. rewrite (H l I). reflexivity. Qed.

(** The clauses and the trail have names *)
Record tidy (c : ctx) : Prop := {
  td_base : base0 c;
  td_long : st_sat (c_st c) <> Unsat -> forall x l, In x (ClauseDb.live (c_d c)) -> In l (s_lits (c_s c) x) -> v_gs (c_v c) (lit_var l) <> None;
  td_bin : st_sat (c_st c) <> Unsat -> forall l o, In o (c_bin c l) -> v_gs (c_v c) (lit_var l) <> None /\ v_gs (c_v c) (lit_var o) <> None;
  td_trail : st_sat (c_st c) <> Unsat -> forall l, In l (s_trail (c_s c)) -> v_gs (c_v c) (lit_var l) <> None }.
Lemma codes_app a : forall b i, codes (a + b) i = codes a i ++ codes b (i + N.of_nat a).
Proof.
  induction a as [|a IH]; intros b i; [cbn [codes Nat.add app]; f_equal; lia|]. cbn [Nat.add codes app]. rewrite IH. do 3 f_equal. lia.
Qed.
Lemma flat_map_nil {A B} (f : A -> list B) l : (forall x, In x l -> f x = []) -> flat_map f l = [].
Proof. induction l as [|x l IH]; intros H; [reflexivity|]. cbn [flat_map]. rewrite (H x) by (left; reflexivity). apply IH. intros y I. apply H. right. exact I. Qed.
Lemma bin_pairs_grow n m bin : n <= m -> (forall l o, In o (bin l) -> lit_var l < n) -> bin_pairs m bin = bin_pairs n bin.
Proof.
  intros L H. unfold bin_pairs. replace (N.to_nat (2 * m)) with (N.to_nat (2 * n) + N.to_nat (2 * (m - n)))%nat by lia.
  rewrite codes_app, flat_map_app. rewrite (flat_map_nil _ (codes (N.to_nat (2 * (m - n))) _)); [apply app_nil_r|].
  intros l I. apply codes_in in I. destruct (bin l) as [|o r] eqn:E; [reflexivity|]. specialize (H l o). rewrite E in H. specialize (H (or_introl eq_refl)).
  rewrite lit_var_div in H. lia.
Qed.
Lemma bin_pairs_in n bin a b : In (a, b) (bin_pairs n bin) -> exists l, a = lnot l /\ In b (bin l) /\ lnot l < b.
Proof.
  unfold bin_pairs. rewrite in_flat_map. intros (l&_&I). apply in_map_iff in I. destruct I as (o&E&I). injection E as <- <-. apply filter_In in I.
  exists l. split; [reflexivity|]. split; [apply I|]. lia.
Qed.
Lemma entries_gs v v' s s' d bin : s_lits s' = s_lits s -> v_slen v <= v_slen v' ->
  (forall x, v_gs v x <> None -> v_gs v' x = v_gs v x) ->
  (forall x l, In x (ClauseDb.live d) -> In l (s_lits s x) -> v_gs v (lit_var l) <> None) ->
  (forall l o, In o (bin l) -> v_gs v (lit_var l) <> None /\ v_gs v (lit_var o) <> None) ->
  (forall x g, v_gs v x = Some g -> x < v_slen v) ->
  entries v' s' d bin = entries v s d bin.
Proof.
  intros ES LE G HL HB X. unfold entries. f_equal.
  - apply map_ext_in. intros x I. unfold long_entry. rewrite ES. f_equal. f_equal. apply gls_ext. intros l IL. apply G. apply (HL x l I IL).
  - rewrite (bin_pairs_grow (v_slen v) (v_slen v') bin LE).
    2:{ intros l o I. destruct (HB l o I) as [N1 _]. destruct (v_gs v (lit_var l)) eqn:E; [|congruence]. apply (X _ _ E). }
    apply map_ext_in. intros [a b] I. destruct (bin_pairs_in _ _ _ _ I) as (l&->&IB&_). unfold bin_entry. cbn [fst snd]. f_equal. f_equal. apply gls_ext.
    destruct (HB l b IB) as [N1 N2]. intros y [<-|[<-|[]]]; rewrite ?lnot_var; apply G; assumption.
Qed.

(** * Changing variables *)

Lemma srel_step v v' s s' d d' bin bin' A A' sat es es' : srel v s d bin A sat es -> names_rel v' es' ->
  (sat = Unsat -> dead_rel v es -> dead_rel v' es') ->
  (sat <> Unsat -> db_rel (entries v s d bin) (gfix v s) A es -> db_rel (entries v' s' d' bin') (gfix v' s') A' es') ->
  srel v' s' d' bin' A' sat es'.
Proof. intros [N1 D1] N2 U S. split; [exact N2|]. destruct sat; auto; apply S; auto; discriminate. Qed.

(** ** A new variable *)
Lemma gfix_add v s u g l : vars_ok v -> can_add v u g -> (gfix (v_add v u g) s l <-> gfix v s l).
Proof.
  intros OK C. destruct (can_add_new v u g OK C) as (_&SG&_). destruct C as (_&_&DE).
  unfold gfix. cbn [v_add v_sg v_data]. destruct (v_sg v (lit_var l)) as [x|] eqn:E; [reflexivity|].
  unfold upd. destruct (N.eqb_spec (lit_var l) g) as [->|NE]; [|reflexivity].
  rewrite DE. cbn [vdata_user vd_deleted vd_unit]. split; intros [X Y]; discriminate.
Qed.
Lemma names_add v u g es : vars_ok v -> can_add v u g -> u < v_glen v \/ g = u -> names_rel v es ->
  valid es (Step (UserVarName g (Some u))) /\ names_rel (v_add v u g) (es ++ [Step (UserVarName g (Some u))]).
Proof.
  intros OK C W [A B C1 D E F G]. destruct (can_add_new v u g OK C) as (UG&SG&_). destruct C as (GU&LE&DE). split.
  - cbn [valid]. rewrite C1, D. unfold mode_of. rewrite DE. split; [exact UG|]. split; [discriminate|]. split.
    + intros w H. rewrite C1 in H. apply (vo_ug _ OK) in H. congruence.
    + destruct W as [W| ->]; [right; auto|left; lia].
  - constructor; cbn [v_add v_sg v_ug v_data v_glen v_ulen].
    + intros h. rewrite names_ev. cbn [CheckerNames.names_after]. apply A.
    + rewrite bits_ev. exact B.
    + intros h. rewrite user_ev. cbn [CheckerUsers.user_after]. unfold upd. destruct (h =? g); [reflexivity|apply C1].
    + intros h. rewrite mode_ev. cbn [CheckerUsers.mode_after]. unfold upd. destruct (N.eqb_spec h g) as [->|NE]; [|apply D].
      rewrite D. unfold mode_of. rewrite DE. reflexivity.
    + intros h L. destruct (N.lt_ge_cases h (v_glen v)) as [L1|L1]; [apply ann_ev; auto|apply ann_new; lia].
    + destruct W as [W| ->]; lia.
    + apply del_ev; [exact G|discriminate].
Qed.
Lemma srel_add v s d bin A sat u g es : vars_ok v -> can_add v u g -> u < v_glen v \/ g = u -> srel v s d bin A sat es ->
  valid es (Step (UserVarName g (Some u))) /\ srel (v_add v u g) s d bin A sat (es ++ [Step (UserVarName g (Some u))]).
Proof.
  intros OK C W S. destruct (names_add v u g es OK C W (proj1 S)) as [V N]. split; [exact V|].
  apply (srel_step _ _ _ _ _ _ _ _ _ _ _ _ _ S N).
  - intros _ [P Q]. apply (dead_silent (v_add v u g) es); [exact Logic.I|]. constructor; [exact P|exact Q].
  - intros _ D. apply db_silent; [exact Logic.I|]. apply (db_ext (entries v s d bin) _ (gfix v s) _ A A); [apply Permutation_refl|intros l; symmetry; apply gfix_add; assumption|reflexivity|exact D].
Qed.
Lemma tidy_ext c c' : base0 c' -> st_sat (c_st c') = st_sat (c_st c) -> (forall x, v_gs (c_v c) x <> None -> v_gs (c_v c') x <> None) ->
  ClauseDb.live (c_d c') = ClauseDb.live (c_d c) -> s_lits (c_s c') = s_lits (c_s c) -> c_bin c' = c_bin c -> s_trail (c_s c') = s_trail (c_s c) -> tidy c -> tidy c'.
Proof.
  intros B ES G E1 E2 E3 E4 [T1 T2 T3 T4]. constructor; [exact B| | |]; rewrite ES, ?E1, ?E2, ?E3, ?E4.
  - intros U x l I J. apply G. eauto.
  - intros U l o I. destruct (T3 U l o I). auto.
  - intros U l I. apply G. auto.
Qed.
Lemma tidy_frame c c' : frame c c' -> tidy c -> tidy c'.
Proof. intros F T. apply (tidy_ext c c'); destruct F as (e&p&->); auto. destruct (td_base _ T). constructor; assumption. Qed.
Lemma tidy_steps c c' : vsteps c c' -> tidy c -> tidy c'.
Proof.
  intros S. induction S as [c|c c1 c' S1 _ IH]; intros T; [exact T|]. apply IH. clear IH c'.
  pose proof (td_base _ T) as B. pose proof (vstep1_base0 _ _ S1 B) as B1. pose proof (vstep1_keep _ _ S1) as K.
  apply (tidy_ext c c1 B1 (vk_sat _ _ K)); [|rewrite (vk_d _ _ K); reflexivity| |apply (vk_bin _ _ K)|apply (vk_trail _ _ K)|exact T].
  - intros x H. destruct (v_gs (c_v c) x) as [g|] eqn:E; [|congruence]. rewrite (vstep1_gs _ _ _ _ S1 B E). discriminate.
  - destruct S1 as [? ? (e&p&->)|?|?]; [reflexivity|reflexivity|]. cbn [use_var cw_vs cw_s c_s]. apply (init_s_parts _ _ _).
Qed.

(** What holds for a context and its log *)
Definition kept_rel (A : list N) (c : ctx) : Prop := tidy c /\ live c (rel A c).
Lemma rel_frame A c c' : frame c c' -> rel A c = rel A c'.
Proof. intros (e&p&->). reflexivity. Qed.

Lemma gfu1_sim A user rs c : kept_rel A c -> user <= v_ulen (c_v c) ->
  csim (global_from_user1 user rs c) (fun '(c', g) => kept_rel A c' /\ vadds c c' /\ v_gu (c_v c') user = Some g /\ v_ulen (c_v c') = N.max (v_ulen (c_v c)) (user + 1)).
Proof.
  intros [T L] LE. pose proof (td_base _ T) as B. pose proof (z_vars _ B) as OK. unfold global_from_user1. cbv zeta.
  destruct (v_gu (c_v c) user) as [g|] eqn:E.
  { destruct (rs && negb (smode_eqb (vd_mode (v_data (c_v c) g)) Sample)); [cbn; congruence|]. cbn [csim]. split; [split; assumption|]. split; [constructor|]. split; [exact E|]. pose proof (vo_u _ OK _ _ E). lia. }
  fold (fresh_global (c_v c) user). set (g := fresh_global (c_v c) user).
  assert (CA : can_add (c_v c) user g) by (split; [exact E|split; [exact LE|apply fresh_global_deleted; exact OK]]).
  assert (W : user < v_glen (c_v c) \/ g = user).
  { unfold g, fresh_global. destruct (N.ltb_spec user (v_glen (c_v c))); [left; lia|right; reflexivity]. }
  eapply csim_bind.
  { apply (step_live false (UserVarName g (Some user)) _ (rel A c) (rel A (add_var c user g))); [exact L|].
    intros es PE s' F. apply (srel_add _ _ _ _ _ _ _ _ _ OK CA W PE). }
  intros c1 [F1 L1]. cbn [csim]. split; [split|].
  - apply (tidy_frame (add_var c user g) c1); [exact F1|]. apply (tidy_steps c); [|exact T]. apply vsteps_one. apply vs_add. exact CA.
  - rewrite <- (rel_frame A _ _ F1). exact L1.
  - split; [eapply va_add; [exact CA|]; eapply va_frame; [exact F1|constructor]|]. rewrite (frame_v _ _ F1). cbn [cw_v c_v v_gu v_ulen bind_user]. split; [apply upd_eq|reflexivity].
Qed.
Lemma fill_sim A n : forall c, kept_rel A c -> csim (fill_users n c) (fun c' => kept_rel A c' /\ vadds c c' /\ v_ulen (c_v c') = v_ulen (c_v c) + N.of_nat n).
Proof.
  induction n as [|n IH]; intros c K; cbn [fill_users]; [cbn [csim]; split; [exact K|]; split; [constructor|lia]|].
  eapply csim_bind; [apply (gfu1_sim A _ false c K); lia|]. intros [c1 g] (K1&A1&_&E1). eapply csim_weaken; [apply (IH c1 K1)|].
  intros c2 (K2&A2&E2). split; [exact K2|]. split; [eapply vadds_trans; eassumption|]. lia.
Qed.
Lemma gfu_sim A u rs c : kept_rel A c -> csim (global_from_user u rs c) (fun '(c', g) => kept_rel A c' /\ vadds c c' /\ v_gu (c_v c') u = Some g).
Proof.
  intros K. unfold global_from_user. eapply csim_bind; [apply (fill_sim A _ c K)|]. intros c1 (K1&A1&E1).
  eapply csim_weaken; [apply (gfu1_sim A u rs c1 K1); lia|]. intros [c2 g] (K2&A2&E2&_). split; [exact K2|]. split; [eapply vadds_trans; eassumption|exact E2].
Qed.

(** ** A variable of the solver *)
Lemma srel_use c A g es : tidy c -> v_sg (c_v c) g = None -> vd_deleted (v_data (c_v c) g) = false -> rel A c es ->
  rel A (use_var c g) (es ++ [Step (SolverVarName g (Some (next_solver (c_v c))))]).
Proof.
  intros T SG DE S. pose proof (z_vars _ (td_base _ T)) as OK. destruct (next_solver_free _ OK) as [FR FL]. pose proof (proj1 S) as [A0 B C D E F G].
  pose proof (init_s_parts (c_s c) (next_solver (c_v c)) (vd_unit (v_data (c_v c) g))) as (P1&P2&P3&P4&P5&P6&P7&P8&_).
  unfold rel. cbn [use_var cw_vs cw_s cw_v c_v c_s c_d c_bin c_st].
  set (x := next_solver (c_v c)) in *. apply (srel_step _ _ _ _ _ _ _ _ _ _ _ _ _ S).
  - constructor; cbn [v_use v_sg v_ug v_data v_glen v_ulen]; auto.
    + intros h. rewrite names_ev. cbn [CheckerNames.names_after]. unfold upd. destruct (h =? g); [reflexivity|apply A0].
    + rewrite bits_ev. exact B.
    + intros h. rewrite user_ev. apply C.
    + intros h. rewrite mode_ev. apply D.
    + intros h L. apply ann_ev. auto.
    + apply del_ev; [exact G|discriminate].
  - intros _ [P Q]. apply (dead_silent _ es); [exact Logic.I|]. constructor; [exact P|]. intros D0 red l I J. cbn [v_use v_sg]. unfold upd. destruct (N.eqb_spec (lit_var l) g); [discriminate|]. apply (Q D0 red l I J).
  - intros NU R. apply db_silent; [exact Logic.I|]. eapply db_ext; [| |reflexivity|exact R].
    + rewrite (entries_gs (c_v c) (v_use (c_v c) g x) (c_s c)); [apply Permutation_refl|exact P4|cbn [v_use v_slen]; lia| |apply (td_long _ T NU)|apply (td_bin _ T NU)|apply (vo_x _ OK)].
      intros y H. cbn [v_use v_gs]. unfold upd. destruct (N.eqb_spec y x) as [E'|NE]; [|reflexivity]. subst y. congruence.
    + intros l. unfold gfix. cbn [v_use v_sg v_data]. unfold upd. destruct (N.eqb_spec (lit_var l) g) as [E'|NE].
      * rewrite E', SG. unfold fixv. rewrite P8, P2. unfold upd. rewrite N.eqb_refl. rewrite DE. split; [intros [_ X]; split; [exact X|]|intros [X _]; auto].
        left. intros I. apply in_map_iff in I. destruct I as (y&EY&IY). apply (td_trail _ T NU y) in IY. rewrite EY in IY. congruence.
      * destruct (v_sg (c_v c) (lit_var l)) as [y|] eqn:EY; [|reflexivity]. unfold fixv. rewrite P8, P2, P7. unfold upd.
        destruct (N.eqb_spec y x) as [E'|NE']; [|reflexivity]. subst y. apply (vo_sg _ OK) in EY. congruence.
Qed.
Lemma sfg_sim A g c : kept_rel A c -> vd_deleted (v_data (c_v c) g) = false ->
  csim (solver_from_global g c) (fun '(c', x) => kept_rel A c' /\ vsteps c c').
Proof.
  intros [T L] DE. unfold solver_from_global. cbv zeta. destruct (v_sg (c_v c) g) as [x|] eqn:SG; [cbn [csim]; split; [split; assumption|constructor]|].
  pose proof (td_base _ T) as B. pose proof (free_not_heap _ B) as NI.
  assert (P : vs_pos (c_vs c) (next_solver (c_v c)) = None).
  { destruct (vs_pos (c_vs c) (next_solver (c_v c))) eqn:E; [|reflexivity]. exfalso. apply NI. apply in_heap; [apply B|congruence]. }
  unfold initialize_solver_var. cbn [cw_v c_v c_s c_vs v_data]. unfold vsids_reset. rewrite P. cbv zeta. cbn [bind].
  match goal with |- csim (bind (add_step false ?st ?cc) _) _ => assert (Ec : cc = use_var c g) by reflexivity; rewrite Ec; clear Ec end.
  eapply csim_bind.
  { apply (step_live false (SolverVarName g (Some (next_solver (c_v c)))) (use_var c g) (rel A c) (rel A (use_var c g))); [exact L|].
    intros es PE s' F. split; [exact Logic.I|]. apply (srel_use c A g es T SG DE PE). }
  intros c2 [F2 L2]. cbn [csim]. split; [split|].
  - apply (tidy_frame _ _ F2). apply (tidy_steps c); [|exact T]. apply vsteps_one. apply vs_use; assumption.
  - rewrite <- (rel_frame A _ _ F2). exact L2.
  - eapply vss_step; [apply vs_use; eassumption|]. apply vsteps_one. apply vs_frame. exact F2.
Qed.
Lemma sful_sim A rs : forall l c, kept_rel A c ->
  csim (solver_from_user_lits l rs c) (fun '(c', r) => kept_rel A c' /\ vsteps c c').
Proof.
  induction l as [|u l IH]; intros c K; cbn [solver_from_user_lits]; [split; [exact K|constructor]|].
  eapply csim_bind with (P := fun '(c', x) => kept_rel A c' /\ vsteps c c').
  { unfold solver_from_user. eapply csim_bind; [apply (gfu_sim A _ rs c K)|]. intros [c1 g] (K1&V1&E1).
    eapply csim_weaken; [apply (sfg_sim A g c1 K1)|].
    - apply (gu_alive (c_v c1) (lit_var u)); [apply (td_base _ (proj1 K1))|exact E1].
    - intros [c2 x] [K2 V2]. split; [exact K2|]. eapply vsteps_trans; [apply vadds_steps; exact V1|exact V2]. }
  intros [c1 x] [K1 V1]. eapply csim_bind; [apply (IH c1 K1)|]. intros [c2 r] [K2 V2]. cbn [csim]. split; [exact K2|]. eapply vsteps_trans; eassumption.
Qed.

(** ** Names of the user *)
Lemma codes_len n : forall i, length (codes n i) = n.
Proof. induction n as [|n IH]; intros i; cbn [codes length]; [reflexivity|rewrite IH; reflexivity]. Qed.
Lemma codes_nodup n : forall i, NoDup (codes n i).
Proof. induction n as [|n IH]; intros i; cbn [codes]; constructor; auto. intros H. apply codes_in in H. lia. Qed.
(** If a variable has no name then there are more variables than names. *)
Lemma show_room v g : vars_ok v -> vd_deleted (v_data v g) = false -> v_ug v g = None -> v_ulen v <= v_glen v -> next_user v < v_glen v.
Proof.
  intros OK DE UG LE. unfold next_user. destruct (pick v (v_ufree v)) as [u|] eqn:P.
  - apply pick_in in P. apply (vo_ufree _ OK) in P. lia.
  - apply pick_none in P. destruct (N.lt_ge_cases (v_ulen v) (v_glen v)) as [L|L]; [exact L|]. exfalso.
    set (f := fun u => match v_gu v u with Some h => h | None => 0 end).
    assert (G : forall u, u < v_ulen v -> exists h, v_gu v u = Some h).
    { intros u LU. destruct (v_gu v u) as [h|] eqn:E; [eauto|]. exfalso. assert (I : In u (v_ufree v)) by (apply (vo_ufree _ OK); auto). rewrite P in I. destruct I. }
    assert (ND : NoDup (g :: map f (codes (N.to_nat (v_ulen v)) 0))).
    { constructor.
      - intros I. apply in_map_iff in I. destruct I as (u&EU&IU). apply codes_in in IU. destruct (G u) as (h&EH); [lia|]. unfold f in EU. rewrite EH in EU. subst h.
        apply (vo_ug _ OK) in EH. congruence.
      - apply NoDup_map_inj; [|apply codes_nodup].
        intros a b IA IB EQ. apply codes_in in IA. apply codes_in in IB. destruct (G a) as (x&EX); [lia|]. destruct (G b) as (y&EY); [lia|].
        unfold f in EQ. rewrite EX, EY in EQ. subst y. apply (vo_ug _ OK) in EX. apply (vo_ug _ OK) in EY. congruence. }
    assert (IN : incl (g :: map f (codes (N.to_nat (v_ulen v)) 0)) (codes (N.to_nat (v_glen v)) 0)).
    { intros h [<-|I]; apply codes_in.
      - pose proof (vo_g _ OK _ DE). lia.
      - apply in_map_iff in I. destruct I as (u&EU&IU). apply codes_in in IU. destruct (G u) as (x&EX); [lia|]. unfold f in EU. rewrite EX in EU. subst x.
        apply (vo_ug _ OK) in EX. pose proof (vo_g _ OK _ (vo_named _ OK _ _ EX)). lia. }
    pose proof (NoDup_incl_length ND IN) as LL. cbn [length] in LL. rewrite map_length, !codes_len in LL. lia.
Qed.

Lemma gfix_data v v' s l : v_sg v' = v_sg v -> vd_deleted (v_data v' (lit_var l)) = vd_deleted (v_data v (lit_var l)) ->
  vd_unit (v_data v' (lit_var l)) = vd_unit (v_data v (lit_var l)) -> (gfix v' s l <-> gfix v s l).
Proof. intros E1 E2 E3. unfold gfix. rewrite E1, E2, E3. reflexivity. Qed.
(** Steps about names that change neither the units nor the clauses *)
Lemma srel_names v v' s d bin A sat es e : silent e -> v_gs v' = v_gs v -> v_sg v' = v_sg v -> v_slen v' = v_slen v ->
  (forall g, vd_deleted (v_data v' g) = vd_deleted (v_data v g) /\ vd_unit (v_data v' g) = vd_unit (v_data v g)) ->
  srel v s d bin A sat es -> names_rel v' (es ++ [e]) -> srel v' s d bin A sat (es ++ [e]).
Proof.
  intros SI E1 E2 E3 DA S N. apply (srel_step _ _ _ _ _ _ _ _ _ _ _ _ _ S N).
  - intros _ [P Q]. apply (dead_silent _ es); [exact SI|]. constructor; [exact P|]. rewrite E2. exact Q.
  - intros _ D. apply db_silent; [exact SI|]. eapply db_ext; [| |reflexivity|exact D].
    + unfold entries. rewrite E3.
      assert (G : forall cl, gls v' cl = gls v cl) by (intros cl; apply gls_ext; intros; rewrite E1; reflexivity).
      apply Permutation_app; [|unfold bin_entry]; erewrite map_ext; try apply Permutation_refl; intros x; unfold long_entry; rewrite G; reflexivity.
    + intros l. symmetry. apply gfix_data; [exact E2|apply DA|apply DA].
Qed.
Lemma srel_data v v' s d bin A sat es : v_gs v' = v_gs v -> v_sg v' = v_sg v -> v_slen v' = v_slen v -> v_ug v' = v_ug v -> v_glen v' = v_glen v -> v_ulen v' = v_ulen v ->
  (forall g, vd_deleted (v_data v' g) = vd_deleted (v_data v g) /\ vd_unit (v_data v' g) = vd_unit (v_data v g) /\ vd_mode (v_data v' g) = vd_mode (v_data v g)) ->
  srel v s d bin A sat es -> srel v' s d bin A sat es.
Proof.
  intros E1 E2 E3 E4 E5 E6 DA S. apply (srel_step _ _ _ _ _ _ _ _ _ _ _ _ _ S).
  - apply (names_data v); auto; [|apply S]. intros g. destruct (DA g) as (X&_&Y). unfold mode_of. rewrite X, Y. reflexivity.
  - intros _ [P Q]. constructor; [exact P|]. rewrite E2. exact Q.
  - intros _ D. eapply db_ext; [| |reflexivity|exact D].
    + unfold entries. rewrite E3.
      assert (G : forall cl, gls v' cl = gls v cl) by (intros cl; apply gls_ext; intros; rewrite E1; reflexivity).
      apply Permutation_app; [|unfold bin_entry]; erewrite map_ext; try apply Permutation_refl; intros x; unfold long_entry; rewrite G; reflexivity.
    + intros l. symmetry. apply gfix_data; [exact E2|apply DA|apply DA].
Qed.
Lemma mode_srel v s d bin A sat g m es : vd_deleted (v_data v g) = false -> m <> Hide -> v_ug v g <> None \/ m = Witness -> srel v s d bin A sat es ->
  valid es (Step (ChangeSamplingMode g (smode_eqb m Sample))) /\
  srel (v_put v g (vd_set_mode (v_data v g) m)) s d bin A sat (es ++ [Step (ChangeSamplingMode g (smode_eqb m Sample))]).
Proof.
  intros DE MH W S. pose proof (proj1 S) as [A0 B C D E F G]. split.
  - cbn [valid]. rewrite C. destruct W as [W| ->]; [right; right; exact W|left; reflexivity].
  - apply (srel_names v); try reflexivity; [|exact S|].
    + intros h. cbn [v_put set_data v_data]. unfold upd. destruct (N.eqb_spec h g) as [->|NE]; split; reflexivity.
    + constructor; cbn [v_put set_data v_sg v_ug v_data v_glen v_ulen].
      * intros h. rewrite names_ev. apply A0.
      * rewrite bits_ev. exact B.
      * intros h. rewrite user_ev. apply C.
      * intros h. rewrite mode_ev. cbn [CheckerUsers.mode_after]. unfold upd. destruct (N.eqb_spec h g) as [->|NE]; [|apply D].
        unfold mode_of. cbn [vd_set_mode vd_deleted vd_mode]. rewrite DE. destruct m; [reflexivity|reflexivity|congruence].
      * intros h L. apply ann_ev. auto.
      * exact F.
      * apply del_ev; [exact G|discriminate].
Qed.
Lemma bind_srel v s d bin A sat u g es : v_ug v g = None -> (forall h, v_ug v h <> Some u) -> mode_of (v_data v g) <> Checker.Hide -> u < v_glen v -> srel v s d bin A sat es ->
  valid es (Step (UserVarName g (Some u))) /\ srel (bind_user v u g) s d bin A sat (es ++ [Step (UserVarName g (Some u))]).
Proof.
  intros UG NU MH LU S. pose proof (proj1 S) as [A0 B C D E F G]. split.
  - cbn [valid]. rewrite C, D. split; [exact UG|]. split; [exact MH|]. split; [intros w; rewrite C; apply NU|]. right. auto.
  - apply (srel_names v); try reflexivity; [|exact S|].
    + intros h. split; reflexivity.
    + constructor; cbn [bind_user v_sg v_ug v_data v_glen v_ulen].
      * intros h. rewrite names_ev. apply A0.
      * rewrite bits_ev. exact B.
      * intros h. rewrite user_ev. cbn [CheckerUsers.user_after]. unfold upd. destruct (h =? g); [reflexivity|apply C].
      * intros h. rewrite mode_ev. apply D.
      * intros h L. apply ann_ev. auto.
      * lia.
      * apply del_ev; [exact G|discriminate].
Qed.
Lemma hide_srel v s d bin A sat u g es : vars_ok v -> v_gu v u = Some g -> srel v s d bin A sat es ->
  valid es (Step (UserVarName g None)) /\ srel (v_hide v u g) s d bin A sat (es ++ [Step (UserVarName g None)]).
Proof.
  intros OK GU S. apply (vo_ug _ OK) in GU. pose proof (vo_named _ OK _ _ GU) as DE. pose proof (proj1 S) as [A0 B C D E F G]. split.
  - cbn [valid]. rewrite C. congruence.
  - apply (srel_names v); try reflexivity; [|exact S|].
    + intros h. cbn [v_hide v_data]. unfold upd. destruct (N.eqb_spec h g) as [->|NE]; split; reflexivity.
    + constructor; cbn [v_hide v_sg v_ug v_data v_glen v_ulen].
      * intros h. rewrite names_ev. apply A0.
      * rewrite bits_ev. exact B.
      * intros h. rewrite user_ev. cbn [CheckerUsers.user_after]. unfold upd. destruct (h =? g); [reflexivity|apply C].
      * intros h. rewrite mode_ev. cbn [CheckerUsers.mode_after]. unfold upd. destruct (N.eqb_spec h g) as [->|NE]; [|apply D].
        unfold mode_of. cbn [vd_set_mode vd_deleted vd_mode]. rewrite DE. reflexivity.
      * intros h L. apply ann_ev. auto.
      * exact F.
      * apply del_ev; [exact G|discriminate].
Qed.

(** ** Deleting a variable *)
Lemma gl_named v l g : v_gs v (lit_var l) = Some g -> lit_var (gl v l) = g /\ is_positive (gl v l) = is_positive l.
Proof. intros E. unfold gl. rewrite E. split; [apply lo_var|apply lo_pos]. Qed.
(** The variables of the checker's clauses are in use by the solver. *)
Lemma entries_named v s d bin D red l : vars_ok v ->
  (forall x l, In x (ClauseDb.live d) -> In l (s_lits s x) -> v_gs v (lit_var l) <> None) ->
  (forall l o, In o (bin l) -> v_gs v (lit_var l) <> None /\ v_gs v (lit_var o) <> None) ->
  In (D, red) (entries v s d bin) -> In l D -> v_sg v (lit_var l) <> None.
Proof.
  intros OK HL HB I J.
  assert (K : exists y, v_gs v (lit_var y) <> None /\ l = gl v y).
  { unfold entries in I. apply in_app_or in I. destruct I as [I|I]; apply in_map_iff in I.
    - destruct I as (x&E&IX). unfold long_entry in E. injection E as <- _. apply (proj1 (canon_in _ _)) in J. apply in_map_iff in J. destruct J as (y&<-&IY). exists y. split; [apply (HL x y IX IY)|reflexivity].
    - destruct I as ([a b]&E&IX). unfold bin_entry in E. cbn [fst snd] in E. injection E as <- _. apply (proj1 (canon_in _ _)) in J. apply (in_map_iff (gl v) [a; b]) in J. destruct J as (y&<-&IY).
      destruct (bin_pairs_in _ _ _ _ IX) as (w&->&IB&_). destruct (HB _ _ IB) as [N1 N2]. exists y. split; [|reflexivity].
      destruct IY as [<-|[<-|[]]]; [rewrite lnot_var|]; assumption. }
  destruct K as (y&NN&->). destruct (v_gs v (lit_var y)) as [g|] eqn:E; [|congruence]. rewrite (proj1 (gl_named _ _ _ E)).
  apply (vo_sg _ OK) in E. congruence.
Qed.
Lemma drop_srel c A g es : tidy c -> v_ug (c_v c) g = None -> v_sg (c_v c) g = None -> vd_deleted (v_data (c_v c) g) = false -> vd_mode (v_data (c_v c) g) = Hide ->
  g < 2^31 -> rel A c es ->
  valid es (Step (DeleteVar g)) /\ rel A (cw_v c (v_drop (c_v c) g)) (es ++ [Step (DeleteVar g)]).
Proof.
  intros T UG SG DE MO LG S. pose proof (z_vars _ (td_base _ T)) as OK. pose proof (proj1 S) as [A0 B C D E F G]. split.
  - cbn [valid]. rewrite C. split; [exact LG|]. split; [exact UG|]. intros D0 red I l J EQ. destruct S as [_ S].
    assert (NN : v_sg (c_v c) (lit_var l) <> None); [|rewrite EQ in NN; congruence].
    destruct (st_sat (c_st c)) eqn:ST;
      try (apply (entries_named (c_v c) (c_s c) (c_d c) (c_bin c) D0 red l OK); [apply (td_long _ T); congruence|apply (td_bin _ T); congruence| |exact J]; eapply Permutation_in; [apply S|exact I]).
    apply (dd_named _ _ S D0 red l I J).
  - unfold rel in *. cbn [cw_v c_v c_s c_d c_bin c_st]. apply (srel_step _ _ _ _ _ _ _ _ _ _ _ _ _ S).
    + constructor; cbn [v_drop v_sg v_ug v_data v_glen v_ulen].
      * intros h. rewrite names_ev. apply A0.
      * rewrite bits_ev. exact B.
      * intros h. rewrite user_ev. apply C.
      * intros h. rewrite mode_ev. cbn [CheckerUsers.mode_after]. unfold upd. destruct (N.eqb_spec h g) as [->|NE]; [reflexivity|apply D].
      * intros h L. apply ann_ev. auto.
      * exact F.
      * apply del_ev; [exact G|]. intros h EH. injection EH as <-. rewrite D. unfold mode_of. rewrite DE, MO. reflexivity.
    + intros _ [P Q]. constructor; rewrite db_ev; cbn [CheckerValid.db_event db_unsat db_cls]; [exact P|exact Q].
    + intros _ [P Q R U]. constructor; rewrite ?db_ev, ?as_ev; cbn [CheckerValid.db_event db_unsat db_cls db_units CheckerRun.assume_event]; [exact P| |exact R|exact U].
      intros l. rewrite filter_In, Q. unfold gfix. cbn [v_drop v_sg v_data]. unfold upd. destruct (N.eqb_spec (lit_var l) g) as [E'|NE].
      * rewrite E', SG. cbn [vd_set_deleted vd_deleted negb]. split; [intros [_ X]; discriminate|intros [X _]; discriminate].
      * cbn [negb]. split; [intros [X _]; exact X|intros X; split; [exact X|reflexivity]].
Qed.
Lemma delete_sim A g c : tidy c -> live c (rel A c) -> vd_deleted (v_data (c_v c) g) = false -> csim (delete_global_if_unused g c) (fun c' => live c' (rel A c')).
Proof.
  intros T L DE. unfold delete_global_if_unused. cbv zeta. destruct (v_ug (c_v c) g) eqn:UG; [exact L|]. destruct (v_sg (c_v c) g) eqn:SG; [exact L|].
  destruct (negb (smode_eqb (vd_mode (v_data (c_v c) g)) Hide)) eqn:MO; [cbn; congruence|].
  assert (MH : vd_mode (v_data (c_v c) g) = Hide) by (destruct (vd_mode (v_data (c_v c) g)); try discriminate MO; reflexivity). destruct (negb (vd_isolated (v_data (c_v c) g))); [exact L|].
  eapply csim_bind.
  { apply (step_live false (DeleteVar g) _ (rel A c) (rel A (cw_v c (v_drop (c_v c) g)))); [exact L|]. intros es PE s' F. apply (drop_srel c A g es T UG SG DE MH); [|exact PE].
    destruct (fits_snoc _ _ F) as [_ [_ X]]. exact X. }
  intros c1 [F1 L1]. cbn [csim]. destruct F1 as (e&p&->). exact L1.
Qed.

(** ** Changing the mode of a variable *)
Lemma mode_sim A g m c : tidy c -> live c (rel A c) -> vd_deleted (v_data (c_v c) g) = false -> v_ug (c_v c) g <> None \/ m = Witness ->
  csim (set_sampling_mode g m c) (fun '(c', _) => live c' (rel A c')).
Proof.
  intros T L DE W. pose proof (td_base _ T) as B. pose proof (z_vars _ B) as OK. unfold set_sampling_mode. cbv zeta. rewrite DE.
  destruct (vd_assumed (v_data (c_v c) g)) eqn:AS; [cbn; congruence|].
  destruct (smode_eqb (vd_mode (v_data (c_v c) g)) m) eqn:EM; [exact L|].
  destruct (smode_eqb m Hide) eqn:EH.
  - assert (MH : m = Hide) by (destruct m; [discriminate|discriminate|reflexivity]). subst m. cbn [bind].
    assert (EO : smode_eqb (vd_mode (v_data (c_v c) g)) Hide = false) by exact EM. rewrite EO.
    destruct (v_ug (c_v c) g) as [u|] eqn:UG; [|destruct W; congruence].
    cbn [cw_v c_v set_data v_ug]. rewrite UG. pose proof (proj2 (vo_ug _ OK _ _) UG) as GU.
    eapply csim_bind.
    { apply (step_live false (UserVarName g None) _ (rel A c) (rel A (cw_v c (v_hide (c_v c) u g)))); [exact L|].
      intros es PE s' F. apply (hide_srel _ _ _ _ _ _ u g es OK GU PE). }
    intros c1 [F1 L1]. assert (F2 : frame (cw_v c (v_hide (c_v c) u g)) c1) by exact F1. clear F1.
    rewrite (rel_frame A _ _ F2) in L1. eapply csim_bind with (P := fun c' => live c' (rel A c')); [|intros c2 L2; exact L2].
    apply delete_sim; [|exact L1|destruct F2 as (e2&p2&->); change (vd_deleted (upd (v_data (c_v c)) g (vd_set_mode (v_data (c_v c) g) Hide) g) = false); rewrite upd_eq; exact DE]. apply (tidy_frame _ _ F2). apply (tidy_ext c); try reflexivity; [|auto|exact T].
    constructor; cbn [cw_v c_v c_vs]; [apply v_hide_ok; assumption| |apply (z_wf _ B)|apply (z_heap _ B)].
    intros h X Y. cbn [v_hide v_data v_ug] in *. unfold upd in *. destruct (N.eqb_spec h g) as [E'|NE].
    + cbn [vd_set_mode vd_assumed] in Y. congruence.
    + apply (z_shown _ B h X Y).
  - assert (MH : m <> Hide) by (intros ->; discriminate).
    eapply csim_bind.
    { apply (step_live false _ _ (rel A c) (rel A (cw_v c (v_put (c_v c) g (vd_set_mode (v_data (c_v c) g) m))))); [exact L|].
      intros es PE s' F. apply (mode_srel _ _ _ _ _ _ g m es DE MH W PE). }
    intros c1 [F1 L1]. assert (F2 : frame (cw_v c (v_put (c_v c) g (vd_set_mode (v_data (c_v c) g) m))) c1) by exact F1. clear F1.
    rewrite (rel_frame A _ _ F2) in L1. destruct (smode_eqb (vd_mode (v_data (c_v c) g)) Hide) eqn:EO; [|exact L1].
    assert (OH : vd_mode (v_data (c_v c) g) = Hide) by (destruct (vd_mode (v_data (c_v c) g)); [discriminate|discriminate|reflexivity]).
    pose proof (proj2 (vo_mode _ OK g DE) OH) as UG. destruct (next_user_free _ OK) as [NF _].
    pose proof (frame_v _ _ F2) as E1. rewrite E1.
    change (next_user (c_v (cw_v c (v_put (c_v c) g (vd_set_mode (v_data (c_v c) g) m))))) with (next_user (c_v c)).
    eapply csim_bind with (P := fun c' => live c' (rel A c')); [|intros c2 L2; exact L2].
    eapply csim_weaken; [apply (step_live false (UserVarName g (Some (next_user (c_v c)))) _ (rel A c1) (rel A (cw_v c (v_show (c_v c) (next_user (c_v c)) g m)))); [exact L1|]|].
    + intros es PE s' F. rewrite <- (rel_frame A _ _ F2) in PE.
      apply (bind_srel (v_put (c_v c) g (vd_set_mode (v_data (c_v c) g) m)) _ _ _ _ _ (next_user (c_v c)) g es).
      * exact UG.
      * intros h X. apply (vo_ug _ OK) in X. congruence.
      * cbn [v_put set_data v_data]. rewrite upd_eq. unfold mode_of. cbn [vd_set_mode vd_deleted vd_mode]. rewrite DE. destruct m; congruence.
      * cbn [v_put set_data v_glen]. apply (show_room (c_v c) g OK DE UG). exact (nr_len _ _ (proj1 PE)).
      * exact PE.
    + intros c2 [F3 L3]. destruct F2 as (e&p&->). destruct F3 as (e2&p2&->). exact L3.
Qed.
Lemma change_mode_sim A u m c : tidy c -> live c (rel A c) -> csim (change_mode u m c) (fun c' => live c' (rel A c')).
Proof.
  intros T L. unfold change_mode. eapply csim_bind; [apply (gfu_sim A u false c (conj T L))|]. intros [c1 g] ([T1 L1]&V1&E1).
  pose proof (z_vars _ (td_base _ T1)) as OK.
  eapply csim_bind; [apply (mode_sim A g m c1 T1 L1); [apply (gu_alive _ u _ OK E1)|]|].
  - left. apply (vo_ug _ OK) in E1. congruence.
  - intros [c2 r] L2. exact L2.
Qed.

(** ** What holds in every state between calls *)
Lemma core_tidy f F A c : core f F A c -> tidy c.
Proof.
  intros K. constructor; [apply base_base0, (iv_base _ _ _ _ K)| | |]; intros _.
  - intros x l I J. apply in_use_named. apply (proj1 (iv_used _ _ _ _ K) x l I J).
  - intros l o I. assert (SY : forall l o, In o (c_bin c l) -> In (lnot l) (c_bin c (lnot o))) by (intros; apply (iv_search _ _ _ _ K); assumption).
    destruct (bin_use _ _ _ _ l o (iv_used _ _ _ _ K) SY I). split; apply in_use_named; assumption.
  - apply (iv_trail _ _ _ _ K).
Qed.
Lemma good_tidy fr vis S U c : good fr vis S U c -> tidy c.
Proof.
  intros (B&_&_&H). destruct (st_sat (c_st c)) eqn:E; try (destruct H as (_&F&[K _]&_); apply (core_tidy _ _ _ _ K)).
  constructor; [apply base_base0; exact B| | |]; intros X; congruence.
Qed.
Lemma tidy_show c g m : tidy c -> m <> Hide -> vd_deleted (v_data (c_v c) g) = false -> vd_mode (v_data (c_v c) g) = Hide ->
  tidy (cw_v c (v_show (c_v c) (next_user (c_v c)) g m)).
Proof.
  intros T MH DE OH. pose proof (td_base _ T) as B. apply (tidy_ext c); try reflexivity; [|auto|exact T].
  constructor; cbn [cw_v c_v c_vs]; [apply v_show_next_ok; auto; apply B| |apply (z_wf _ B)|apply (z_heap _ B)].
  intros h X Y. cbn [v_show v_put bind_user set_data v_data v_ug] in *. unfold upd in *. destruct (N.eqb_spec h g) as [E'|NE]; [discriminate|].
  apply (z_shown _ B h X Y).
Qed.
Lemma observe_sim A n : forall g c, tidy c -> live c (rel A c) ->
  csim (observe_loop n g c) (fun '(c', _) => live c' (rel A c')).
Proof.
  induction n as [|n IH]; intros g c T L; cbn [observe_loop]; [exact L|]. cbv zeta.
  destruct (negb (vd_deleted (v_data (c_v c) g)) && smode_eqb (vd_mode (v_data (c_v c) g)) Hide) eqn:E; [|apply IH; assumption].
  apply andb_prop in E. destruct E as [E1 E2]. apply Bool.negb_true_iff in E1.
  assert (Eh : vd_mode (v_data (c_v c) g) = Hide) by (destruct (vd_mode (v_data (c_v c) g)); auto; discriminate).
  eapply csim_bind.
  { apply csim_spec; [apply set_sampling_mode_spec; [apply (td_base _ T)|exact E1]|apply (mode_sim A g Witness c T L E1); right; reflexivity]. }
  intros [c1 r]. cbv zeta. intros [[(E & _)|(NE & As & [(E & _)|[(_ & -> & Fr)|(E & _)]])] L1]; try congruence.
  eapply csim_bind; [apply IH; [|exact L1]|intros [c2 l] L2; exact L2].
  apply (tidy_frame _ _ Fr). apply tidy_show; auto. discriminate.
Qed.
