(** Which steps a call writes: assumptions are announced by [assume] only, clauses by [add_clause]
    only, the end by [close_proof] only, and without assumptions none of them fail.  The lemmas follow CtxEvents.v. *)
From Coq Require Import Lia Arith ZArith ZifyBool ZifyNat ZifyN.
From Verif Require Import Spec Lit LitProofs BinFormat Hash F32 Vsids VsidsProofs Luby Config Search SearchBase ClauseDb
  Analyze SolverCtx CtxFrame Solver CtxEvents P_Proof.
Local Open Scope N_scope.

Section kinds.
(** whether a clause may be announced, and whether a variable may be hidden *)
Context (adds hides : bool).
Definition kind (s : proof_step) : bool := match s with Assumptions _ | FailedAssumptions _ _ | End => false | AddClause _ => adds | UserVarName _ None => hides | _ => true end.
Local Definition is_name (s : proof_step) : bool := negb (kind s).
Local Definition is_bits (s : proof_step) : bool := false.
Definition free (c : ctx) : Prop := as_lits (c_as c) = [].
Definition kinds (c c' : ctx) : Prop := free c -> free c' /\ forall s, In s (steps (p_log (c_pf c'))) -> In s (steps (p_log (c_pf c))) \/ kind s = true.
Local Definition same (c c' : ctx) : Prop := CtxEvents.same c c' /\ as_lits (c_as c') = as_lits (c_as c).
Lemma same_refl c : same c c.
Proof. split; [apply CtxEvents.same_refl|reflexivity]. Qed.
Lemma same_trans a b c : same a b -> same b c -> same a c.
Proof. intros [A A'] [B B']. split; [eapply CtxEvents.same_trans; eassumption|congruence]. Qed.
Lemma backtrack_same n c : same c (backtrack_to n c).
Proof. split; [apply CtxEvents.backtrack_same|]. unfold backtrack_to. destruct (backtrack _ _ _). reflexivity. Qed.
Lemma full_restart_same c : same c (full_restart c).
Proof. split; [apply CtxEvents.full_restart_same|]. exact (proj2 (backtrack_same 0 (set_levels 0 c))). Qed.
Lemma restart_same c : same c (restart c).
Proof. apply backtrack_same. Qed.
Lemma make_decision_same c : same c (fst (make_decision c)).
Proof. split; [apply CtxEvents.make_decision_same|]. unfold make_decision. destruct (find_decision _ _ _) as [? [?|]]; reflexivity. Qed.
Local Notation ev := kinds.

Lemma ev_refl c : ev c c.
Proof. intros F. split; [exact F|]. intros s H. left. exact H. Qed.
Lemma ev_trans a b c : ev a b -> ev b c -> ev a c.
Proof. intros A B F. destruct (A F) as [F1 A1]. destruct (B F1) as [F2 B1]. split; [exact F2|]. intros s H. destruct (B1 s H) as [H1|H1]; [apply A1; exact H1|right; exact H1]. Qed.
Lemma ev_pf c c' : c_pf c' = c_pf c -> as_lits (c_as c') = as_lits (c_as c) -> ev c c'.
Proof. intros E A F. split; [unfold free in *; congruence|]. intros s H. rewrite E in H. left. exact H. Qed.
Lemma ev_same c c' : same c c' -> ev c c'.
Proof. intros [(_&E&_) A]. apply ev_pf; assumption. Qed.
Lemma steps_app a b : steps (a ++ b) = steps a ++ steps b.
Proof. unfold steps. apply flat_map_app. Qed.
Lemma map_kind gs s s' : map_step gs s = Some s' -> kind s' = kind s.
Proof. destruct s; cbn [map_step]; intros E; try (injection E as <-; reflexivity); repeat (match type of E with context [option_map _ ?x] => destruct x end; cbn [option_map] in E); try discriminate; injection E as <-; reflexivity. Qed.
Lemma ev_ask c e c' : ask_checker c e = Ret c' -> (forall s, e = EvStep s -> kind s = true) -> ev c c'.
Proof.
  unfold ask_checker, handle_check. intros E K F.
  assert (P : p_log (c_pf c') = p_log (c_pf c) ++ [e] /\ c_as c' = c_as c).
  { destruct (p_judge _ _); try discriminate E; injection E as <-; split; reflexivity. }
  destruct P as [P A]. split; [unfold free in *; congruence|]. intros s H.
  rewrite P, steps_app, in_app_iff in H. destruct H as [H|H]; [auto|right]. destruct e as [cl|s0|]; cbn in H; try contradiction. destruct H as [<-|[]]. apply K. reflexivity.
Qed.
Lemma ev_step sv s c0 c c' : kind s = true -> c_pf c = c_pf c0 -> as_lits (c_as c) = as_lits (c_as c0) -> add_step sv s c = Ret c' -> ev c0 c'.
Proof.
  intros K E0 A0 E. eapply ev_trans; [apply ev_pf; [exact E0|exact A0]|]. unfold add_step in E. destruct (st_error _); [injection E as <-; apply ev_refl|].
  destruct (p_active _); [|injection E as <-; apply ev_refl].
  destruct (if sv then map_step (v_gs (c_v c)) s else Some s) as [s'|] eqn:M; [|discriminate].
  assert (K' : kind s' = true) by (destruct sv; [rewrite (map_kind _ _ _ M); exact K|congruence]).
  match type of E with bind ?m _ = _ => destruct m as [[p b]| |] eqn:W end; try discriminate. cbn [bind] in E.
  assert (PL : p_log p = p_log (c_pf c)).
  { destruct (p_format (c_pf c)) as [[]|].
    - destruct (write_varisat_step _ _ _) as [x|] eqn:WV; [|discriminate]. injection W as ->. apply (write_keeps _ _ _ _ _ WV).
    - destruct (Lrat.drat_write_step s'); [|discriminate]. injection W as <- _. reflexivity.
    - destruct (Lrat.drat_write_binary_step s'); [|discriminate]. injection W as <- _. reflexivity.
    - injection W as <- _. reflexivity. }
  assert (B : forall x, p_log (c_pf x) = p_log p -> c_as x = c_as c -> ev c x) by (intros x X Y F; split; [unfold free in *; congruence|]; intros z H; rewrite X, PL in H; auto).
  cbv zeta in E. destruct (match p_format (p_write p b) with Some _ => _ | None => _ end); [injection E as <-; apply B; reflexivity|].
  destruct (p_checker _); [|injection E as <-; apply B; reflexivity].
  eapply ev_trans; [apply (B (cw_pf c (p_write p b))); reflexivity|]. apply (ev_ask _ _ _ E). intros z Z. injection Z as <-. exact K'.
Qed.
Ltac sm := apply ev_same; repeat split; reflexivity.
Lemma ev_then c c1 c' : ev c c1 -> same c1 c' -> ev c c'.
Proof. intros A B. eapply ev_trans; [exact A|apply ev_same; exact B]. Qed.
Ltac smt := repeat split; reflexivity.

Definition epost (m : out ctx) (c : ctx) : Prop := post m (fun c' => ev c c').
Definition epost2 {A} (m : out (ctx * A)) (c : ctx) : Prop := post m (fun r => ev c (fst r)).
Lemma t_ret c c' : ev c c' -> epost (Ret c') c.
Proof. intros Q. apply post_ret. exact Q. Qed.
Lemma t_ret2 {A} c c' (a : A) : ev c c' -> epost2 (Ret (c', a)) c.
Proof. intros Q. apply post_ret. exact Q. Qed.
Lemma t_bind {B} (m : out ctx) (f : ctx -> out B) c (Q : B -> Prop) :
  epost m c -> (forall c', ev c c' -> post (f c') Q) -> post (bind m f) Q.
Proof. intros H K. eapply post_bind; [exact H|]. exact K. Qed.
Lemma t_bind2 {A B} (m : out (ctx * A)) (f : ctx * A -> out B) c (Q : B -> Prop) :
  epost2 m c -> (forall c' a, ev c c' -> post (f (c', a)) Q) -> post (bind m f) Q.
Proof. intros H K. eapply post_bind; [exact H|]. intros [c' a] X. apply K. exact X. Qed.
Lemma t_seq (m : out ctx) c c0 : ev c0 c -> epost m c -> epost m c0.
Proof. intros Q H. eapply post_weaken; [exact H|]. intros c' Q'. eapply ev_trans; eassumption. Qed.
Lemma t_seq2 {A} (m : out (ctx * A)) c c0 : ev c0 c -> epost2 m c -> epost2 m c0.
Proof. intros Q H. eapply post_weaken; [exact H|]. intros c' Q'. eapply ev_trans; eassumption. Qed.

Lemma t_add_step sv s c : is_name s = false -> is_bits s = false -> epost (add_step sv s c) c.
Proof. intros A _ c' E. apply (ev_step sv s c c); [apply negb_false_iff; exact A|reflexivity|reflexivity|exact E]. Qed.
Lemma t_add_step_at sv s c c0 : is_name s = false -> is_bits s = false -> same c0 c -> epost (add_step sv s c) c0.
Proof. intros A B S. eapply t_seq; [apply ev_same; exact S|]. apply t_add_step; assumption. Qed.
Lemma t_add_steps sv l : (forall s, In s l -> is_name s = false /\ is_bits s = false) -> forall c, epost (add_steps sv l c) c.
Proof.
  induction l as [|s l IH]; intros H c; cbn [add_steps]; [apply t_ret; apply ev_refl|].
  eapply t_bind; [apply t_add_step; apply H; left; reflexivity|]. intros c' Q. eapply t_seq; [exact Q|].
  apply IH. intros s' I. apply H. right. exact I.
Qed.
Lemma t_proof_add_clause cl c : adds = true -> epost (proof_add_clause cl c) c.
Proof.
  intros AD. unfold proof_add_clause. destruct (st_invoked (c_st c)) eqn:Inv; [intros c' E; apply (ev_step true (AddClause cl) c c); [exact AD|reflexivity|reflexivity|exact E]|].
  eapply t_bind with (c := c).
  - destruct (p_checker (c_pf c)) eqn:P; [|apply t_ret; apply ev_refl].
    destruct (map_lits (v_gs (c_v c)) cl); [|apply post_panic]. intros c' E. apply (ev_ask _ _ _ E). discriminate.
  - intros c' Q. apply t_ret. destruct (Nat.ltb 1 (length cl)); exact Q.
Qed.

Lemma t_delete g c : epost (delete_global_if_unused g c) c.
Proof.
  unfold delete_global_if_unused. cbv zeta.
  destruct (v_ug _ _); [apply t_ret; apply ev_refl|]. destruct (v_sg _ _); [apply t_ret; apply ev_refl|].
  destruct (negb (smode_eqb _ _)); [apply post_panic|]. destruct (negb _); [apply t_ret; apply ev_refl|].
  eapply t_bind with (c := c); [apply t_add_step_at; [reflexivity|reflexivity|smt]|]. intros c' Q. apply t_ret.
  eapply ev_then; [exact Q|smt].
Qed.
Lemma t_remove x c : epost (remove_solver_var x c) c.
Proof.
  unfold remove_solver_var. cbv zeta. cbn [cw_vs c_v]. destruct (v_gs (c_v c) x) as [g|] eqn:G; [|apply post_panic].
  eapply t_bind with (c := c).
  - intros c1 E. refine (ev_step _ _ _ _ _ _ _ _ E); reflexivity.
  - intros c1 Q. eapply t_seq; [exact Q|apply t_delete].
Qed.
Lemma t_data x f c : epost (map_data_solver x f c) c.
Proof. unfold map_data_solver. destruct (v_gs (c_v c) x); [|apply post_panic]. apply t_ret. sm. Qed.
Lemma t_data_lits f l : forall c, epost (map_data_lits l f c) c.
Proof.
  induction l as [|x l IH]; intros c; cbn [map_data_lits]; [apply t_ret; apply ev_refl|].
  eapply t_bind; [apply t_data|]. intros c' Q. eapply t_seq; [exact Q|apply IH].
Qed.
Lemma t_simplify_var x c : epost (simplify_var x c) c.
Proof.
  unfold simplify_var. destruct (v_gs (c_v c) x) as [g|]; [|apply t_ret; apply ev_refl]. cbv zeta.
  destruct (vd_isolated _ && negb _); [eapply t_seq; [|apply t_remove]; sm|apply t_ret; sm].
Qed.
Lemma t_simplify_vars l : forall c, epost (simplify_vars l c) c.
Proof.
  induction l as [|x l IH]; intros c; cbn [simplify_vars]; [apply t_ret; apply ev_refl|].
  eapply t_bind; [apply t_simplify_var|]. intros c' Q. eapply t_seq; [exact Q|apply IH].
Qed.
Lemma t_simplify_clause x c : epost2 (simplify_clause x c) c.
Proof.
  unfold simplify_clause. cbv zeta. destruct (open_lits _ _) as [ls|].
  - destruct (Nat.ltb _ _); [|apply t_ret2; apply ev_refl].
    eapply t_bind; [apply t_add_step; reflexivity|]. intros c1 Q1.
    eapply t_bind; [apply t_add_step; reflexivity|]. intros c2 Q2.
    pose proof (ev_trans _ _ _ Q1 Q2) as Q.
    destruct ls as [|a [|b [|d ls]]]; try apply post_panic; apply t_ret2; (eapply ev_then; [exact Q|smt]).
  - eapply t_bind; [apply t_add_step; reflexivity|]. intros c1 Q1. apply t_ret2. exact Q1.
Qed.
Lemma t_filter_loop l : forall c, epost2 (filter_loop l c) c.
Proof.
  induction l as [|x l IH]; intros c; cbn [filter_loop]; [apply t_ret2; apply ev_refl|].
  destruct (deleted (c_d c) x); [apply IH|].
  eapply t_bind2; [apply t_simplify_clause|]. intros c' keep Q. cbv zeta.
  eapply t_bind2; [apply IH|]. intros c2 r Q2. apply t_ret2. eapply ev_trans; [exact Q|].
  destruct keep; [exact Q2|]. eapply ev_trans; [|exact Q2]. sm.
Qed.
Lemma t_unit_simplify c : epost (unit_simplify c) c.
Proof.
  unfold unit_simplify. eapply t_bind with (c := c).
  - unfold simplify_binary. cbv zeta. eapply t_bind.
    { apply t_add_steps. intros s I. apply in_flat_map in I. destruct I as (l & _ & I). unfold binary_steps in I.
      apply in_map_iff in I. destruct I as (o & <- & _). split; reflexivity. }
    intros c' Q. apply t_ret. eapply ev_then; [exact Q|smt].
  - intros c1 Q1. eapply t_bind with (c := c1).
    + unfold filter_clauses. cbv zeta. eapply t_bind2; [apply t_filter_loop|]. intros c' r Q. apply t_ret.
      eapply ev_trans; [|eapply ev_then; [exact Q|smt]]. sm.
    + intros c2 Q2. eapply t_seq; [eapply ev_trans; eassumption|apply t_simplify_vars].
Qed.
Lemma t_prove_units c : epost2 (prove_units c) c.
Proof.
  unfold prove_units. destruct (Nat.eqb _ _); [|apply t_ret2; apply ev_refl]. cbv zeta.
  destruct (unit_proofs _ _) as [s ps]. destruct (trail_clear s) as [s'|]; [|apply post_panic].
  eapply t_bind with (c := c).
  - destruct ps; [apply t_ret; sm|]. apply t_add_step_at; [reflexivity|reflexivity|smt].
  - intros c' Q. apply t_ret2. exact Q.
Qed.
Lemma t_armed {A} (m : out (ctx * A)) c : as_lits (c_as c) <> [] -> epost2 m c.
Proof. intros H r _ F. contradiction. Qed.
Lemma t_enqueue_loop n c : epost2 (enqueue_loop n c) c.
Proof.
  destruct (as_lits (c_as c)) as [|a l] eqn:A; [|apply t_armed; rewrite A; discriminate].
  destruct n; cbn [enqueue_loop]; cbv zeta; rewrite A; match goal with |- context [nth_error [] ?x] => destruct x end; cbn [nth_error]; apply t_ret2; apply ev_refl.
Qed.
Lemma t_find_conflict n : forall c, epost2 (find_conflict n c) c.
Proof.
  induction n as [|n IH]; intros c; cbn [find_conflict]; [apply post_nofuel|].
  destruct (propagate _ _ _ _) as [s r].
  assert (A : epost2 (do (c0, new_unit) <- prove_units (cw_s c s) ;
      match r with PConflict k => Ret (c0, FConflict k)
      | _ => do c1 <- (if new_unit then unit_simplify c0 else Ret c0) ;
             do (c2, e) <- enqueue_assumption c1 ;
             match e with
             | Done => let (c3, b) := make_decision c2 in if b then find_conflict n c3 else Ret (c3, FModel)
             | Enqueued => find_conflict n c2
             | Failed => Ret (c2, FAssumption)
             end
      end) c).
  { eapply t_bind2 with (c := c); [eapply t_seq2 with (c := cw_s c s); [sm|apply t_prove_units]|]. intros c0 nu Q0.
    assert (B : epost2 (do c1 <- (if nu then unit_simplify c0 else Ret c0) ;
             do (c2, e) <- enqueue_assumption c1 ;
             match e with
             | Done => let (c3, b) := make_decision c2 in if b then find_conflict n c3 else Ret (c3, FModel)
             | Enqueued => find_conflict n c2
             | Failed => Ret (c2, FAssumption)
             end) c).
    { eapply t_bind with (c := c0); [destruct nu; [apply t_unit_simplify|apply t_ret; apply ev_refl]|].
      intros c1 Q1. eapply t_bind2; [apply t_enqueue_loop|]. intros c2 e Q2.
      pose proof (ev_trans _ _ _ Q0 (ev_trans _ _ _ Q1 Q2)) as Q.
      destruct e; [|eapply t_seq2; [exact Q|apply IH]|apply t_ret2; exact Q].
      pose proof (make_decision_same c2) as V. destruct (make_decision c2) as [c3 b]. cbn [fst] in V.
      assert (Q3 : ev c c3) by (eapply ev_then; eassumption).
      destruct b; [eapply t_seq2; [exact Q3|apply IH]|apply t_ret2; exact Q3]. }
    destruct r; try exact B. apply t_ret2. exact Q0. }
  destruct r; try exact A; [apply post_panic|apply post_nofuel].
Qed.
Lemma t_db_add h l c : epost2 (db_add_clause h l c) c.
Proof.
  unfold db_add_clause. destruct (add_long _ _ _ _) as [[s d] cref]. destruct (d_full d); [apply post_panic|].
  apply t_ret2. sm.
Qed.
Lemma ev_sat c c' x : ev c c' -> ev c (set_sat c' x).
Proof. intros H. exact H. Qed.
Ltac sat := apply ev_sat.
Lemma t_learn cl c : epost (learn_clause cl c) c.
Proof.
  unfold learn_clause. destruct cl as [|a [|b [|d cl]]]; [apply t_ret; sat; sm|apply t_ret; sm|apply t_ret; sm|].
  destruct (assess_learned _ _ _) as [fl h]. eapply t_bind2 with (c := c); [eapply t_seq2; [|apply t_db_add]; sm|].
  intros c' x Q. apply t_ret. eapply ev_then; [exact Q|smt].
Qed.
Lemma t_conflict_step n c : epost (conflict_step n c) c.
Proof.
  unfold conflict_step. eapply t_bind2; [apply t_find_conflict|]. intros c1 f Q1. destruct f.
  - unfold reconstruct_global_model. cbv zeta. eapply t_bind with (c := c1).
    + destruct (p_native _); [apply t_add_step_at; [reflexivity|reflexivity|smt]|apply t_ret; sm].
    + intros c2 Q2. apply t_ret. sat. eapply ev_trans; [exact Q1|exact Q2].
  - apply t_ret. sat. exact Q1.
  - destruct (analyze_conflict _ _ _ _ _ _) as [[vs a] bt]. destruct (a_fuel a); [apply post_nofuel|]. cbv zeta.
    destruct (bump_clauses _ _ _ _) as [d fl].
    eapply t_bind with (c := c1).
    + apply t_add_step_at; [reflexivity|reflexivity|]. eapply same_trans; [|apply backtrack_same]. smt.
    + intros c2 Q2. eapply t_seq; [eapply ev_trans; [exact Q1|exact Q2]|apply t_learn].
Qed.
Lemma t_schedule_step n c : epost2 (schedule_step n c) c.
Proof.
  unfold schedule_step.
  destruct (st_sat (c_st c)); try (apply t_ret2; apply ev_refl).
  destruct (st_error (c_st c)); [apply t_ret2; apply ev_refl|]. cbv zeta.
  set (c1 := if sc_next (c_sc c) =? sc_conflicts (c_sc c) then _ else c).
  assert (E1 : same c c1).
  { unfold c1. destruct (_ =? _); [|apply same_refl]. destruct (luby_advance _).
    eapply same_trans; [apply restart_same|smt]. }
  clearbody c1. eapply t_bind with (c := c1).
  { destruct (_ =? _); [|apply t_ret; apply ev_refl]. destruct (reduce_locals _ _) as [[s d] out].
    eapply t_seq with (c := cw_d (cw_s c1 s) d); [sm|]. apply t_add_steps.
    intros st I. apply in_map_iff in I. destruct I as (x & <- & _). split; reflexivity. }
  intros c2 Q2.
  set (c3 := if _ =? _ then cw_d c2 _ else c2).
  assert (E3 : same c2 c3) by (unfold c3; destruct (_ =? _); smt). clearbody c3.
  destruct (collect_garbage _ _) as [[s d]|]; [|apply post_panic]. destruct (d_full d); [apply post_panic|].
  eapply t_bind with (c := c3); [eapply t_seq; [|apply t_conflict_step]; sm|]. intros c4 Q4.
  apply t_ret2. eapply ev_trans; [apply ev_same; exact E1|]. eapply ev_trans; [exact Q2|].
  eapply ev_trans; [apply ev_same; exact E3|]. eapply ev_then; [exact Q4|smt].
Qed.
Lemma t_schedule_loop n m : forall c, epost (schedule_loop n m c) c.
Proof.
  induction m as [|m IH]; intros c; cbn [schedule_loop]; [apply post_nofuel|].
  eapply t_bind2; [apply t_schedule_step|]. intros c' [] Q; [eapply t_seq; [exact Q|apply IH]|apply t_ret; exact Q].
Qed.

(** * The other calls *)
Lemma t_global_from_user1 u rs c : epost2 (global_from_user1 u rs c) c.
Proof.
  unfold global_from_user1. destruct (v_gu _ _).
  - destruct (rs && _); [apply post_panic|apply t_ret2; apply ev_refl].
  - cbv zeta. eapply t_bind with (c := c); [apply t_add_step_at; [reflexivity|reflexivity|smt]|].
    intros c' Q. apply t_ret2. exact Q.
Qed.
Lemma t_fill_users n : forall c, epost (fill_users n c) c.
Proof.
  induction n as [|n IH]; intros c; cbn [fill_users]; [apply t_ret; apply ev_refl|].
  eapply t_bind2; [apply t_global_from_user1|]. intros c' a Q. eapply t_seq; [exact Q|apply IH].
Qed.
Lemma t_global_from_user u rs c : epost2 (global_from_user u rs c) c.
Proof.
  unfold global_from_user. eapply t_bind; [apply t_fill_users|]. intros c' Q. eapply t_seq2; [exact Q|apply t_global_from_user1].
Qed.
Lemma t_solver_from_global g c : epost2 (solver_from_global g c) c.
Proof.
  unfold solver_from_global. destruct (v_sg (c_v c) g) eqn:E; [apply t_ret2; apply ev_refl|]. cbv zeta.
  eapply post_bind with (P := fun c1 => renamed c c1 (upd (v_sg (c_v c)) g (Some (next_solver (c_v c))))
                                          (upd (v_gs (c_v c)) (next_solver (c_v c)) (Some g)) /\ as_lits (c_as c1) = as_lits (c_as c)).
  - unfold initialize_solver_var. cbv zeta. destruct (vsids_reset _ _); [|apply post_panic]. apply post_ret. smt.
  - intros c1 R. eapply t_bind with (c := c); [|intros c' Q; apply t_ret2; exact Q].
    intros c' E'. refine (ev_step _ _ _ _ _ _ _ _ E'); [reflexivity|apply R|apply R].
Qed.
Lemma t_solver_from_user_lits rs l : forall c, epost2 (solver_from_user_lits l rs c) c.
Proof.
  induction l as [|x l IH]; intros c; cbn [solver_from_user_lits]; [apply t_ret2; apply ev_refl|].
  eapply t_bind2 with (c := c).
  - unfold solver_from_user. eapply t_bind2; [apply t_global_from_user|]. intros c' g Q.
    eapply t_seq2; [exact Q|apply t_solver_from_global].
  - intros c1 y Q1. eapply t_bind2; [apply IH|]. intros c2 r Q2. apply t_ret2. eapply ev_trans; eassumption.
Qed.
Lemma t_load l c : adds = true -> epost (load_clause l c) c.
Proof.
  intros AD.
  unfold load_clause.
  assert (R : forall c1 : ctx, ev c c1 -> epost
    (do (c, lits) <- solver_from_user_lits l true c1 ;
      let lits := dedup_n (sort_n lits) in
      do c <- proof_add_clause lits c ;
      if tautology lits then Ret c
      else
        do c <- (if Nat.ltb 1 (length lits) then map_data_lits lits (fun d => vd_set_isolated d false) c
                 else Ret c) ;
        let '(kept, false_lits, clause_is_true) := scan_lits (c_s c) lits in
        let will_conflict := match kept with [] => true | _ => false end in
        let c := cw_s c (fold_left (fun s l => resurrect_unit s (lnot l)) false_lits (c_s c)) in
        let lits := kept ++ false_lits in
        if clause_is_true then
          if Nat.ltb 1 (length lits) then add_step true (DeleteClause lits DSatisfied) c else Ret c
        else
          match lits with
          | [] => Ret (set_sat c Unsat)
          | [lit] => if will_conflict then Ret (set_sat c Unsat)
                     else Ret (cw_s c (enqueue (c_s c) lit RUnit))
          | [l0; l1] => Ret (add_binary_clause l0 l1 c)
          | _ => do (c, _) <- db_add_clause (set_tier hdr_new Irred) lits c ; Ret c
          end) c).
  { intros c0 E0. eapply t_bind2 with (c := c); [eapply t_seq2; [exact E0|apply t_solver_from_user_lits]|]. intros c1 lits Q1.
    cbv zeta. eapply t_bind; [apply t_proof_add_clause; exact AD|]. intros c2 Q2.
    pose proof (ev_trans _ _ _ Q1 Q2) as Q. destruct (tautology _); [apply t_ret; exact Q|].
    eapply t_bind with (c := c2); [destruct (Nat.ltb 1 _); [apply t_data_lits|apply t_ret; apply ev_refl]|].
    intros c3 Q3. pose proof (ev_trans _ _ _ Q Q3) as Q4. destruct (scan_lits _ _) as [[kept fl] found].
    set (c4 := cw_s c3 _). assert (Q5 : ev c c4) by (eapply ev_then; [exact Q4|smt]). clearbody c4.
    destruct found; [destruct (Nat.ltb _ _); [eapply t_seq; [exact Q5|apply t_add_step; reflexivity]|apply t_ret; exact Q5]|].
    destruct (kept ++ fl) as [|a [|b [|d r]]].
    - apply t_ret. sat. exact Q5.
    - destruct kept; apply t_ret; [sat; exact Q5|eapply ev_then; [exact Q5|smt]].
    - apply t_ret. eapply ev_then; [exact Q5|smt].
    - eapply t_bind2; [apply t_db_add|]. intros c5 x Q6. apply t_ret. eapply ev_trans; [exact Q5|exact Q6]. }
  destruct (st_sat (c_st c)); [| |apply t_ret; apply ev_refl|]; apply R.
  - apply ev_same. eapply same_trans; [|apply full_restart_same]; smt.
  - eapply ev_then; [apply ev_sat; apply ev_refl|]. eapply same_trans; [|apply full_restart_same]; smt.
  - apply ev_same. eapply same_trans; [|apply full_restart_same]; smt.
Qed.
Lemma t_set_mode g m c : (m = Hide -> hides = true) -> epost2 (set_sampling_mode g m c) c.
Proof.
  intros HI.
  unfold set_sampling_mode. cbv zeta. destruct (vd_deleted _); [apply post_panic|]. destruct (vd_assumed _); [apply post_panic|].
  destruct (smode_eqb _ m); [apply t_ret2; apply ev_refl|].
  eapply t_bind with (c := c).
  { destruct (smode_eqb m Hide); [apply t_ret; sm|apply t_add_step_at; [reflexivity|reflexivity|smt]]. }
  intros c1 Q1. destruct (smode_eqb _ Hide).
  - eapply t_bind with (c := c1); [apply t_add_step_at; [reflexivity|reflexivity|smt]|]. intros c2 Q2.
    apply t_ret2. eapply ev_trans; eassumption.
  - destruct (smode_eqb m Hide) eqn:MH; [|apply t_ret2; exact Q1].
    assert (m = Hide) by (destruct m; try discriminate MH; reflexivity).
    eapply t_bind with (c := c1).
    { apply t_add_step_at; [unfold is_name; cbn [kind]; rewrite HI by assumption; reflexivity|reflexivity|]. destruct (v_ug _ _); smt. }
    intros c2 Q2. eapply t_bind; [apply t_delete|]. intros c3 Q3. apply t_ret2.
    eapply ev_trans; [exact Q1|]. eapply ev_trans; eassumption.
Qed.
Lemma t_observe n : forall g c, epost2 (observe_loop n g c) c.
Proof.
  induction n as [|n IH]; intros g c; cbn [observe_loop]; [apply t_ret2; apply ev_refl|]. cbv zeta.
  destruct (negb _ && _); [|apply IH]. eapply t_bind2; [apply t_set_mode; discriminate|]. intros c1 u Q1.
  destruct u as [u|]; [|apply post_panic]. eapply t_bind2; [apply IH|]. intros c2 r Q2. apply t_ret2.
  eapply ev_trans; eassumption.
Qed.
Lemma t_mode u m c : (m = Hide -> hides = true) -> epost (change_mode u m c) c.
Proof.
  intros HI. unfold change_mode. eapply t_bind2; [apply t_global_from_user|]. intros c1 g Q1.
  eapply t_bind2; [apply t_set_mode; exact HI|]. intros c2 r Q2. apply t_ret. eapply ev_trans; eassumption.
Qed.


(** ** The calls *)
Definition call_kind (k : call) : bool :=
  match k with CAdd _ => adds | CHide _ => hides | CAssume _ | CWriteProof _ | CCloseProof | CCheck => false | _ => true end.
Lemma t_run fuel k c : call_kind k = true -> epost2 (run fuel k c) c.
Proof.
  intros P. destruct k; try discriminate; cbn [run].
  - eapply t_bind; [apply t_load; exact P|]. intros c' Q. apply t_ret2. exact Q.
  - eapply t_bind2 with (c := c).
    + unfold new_user_var. cbv zeta. eapply t_bind2 with (c := c); [eapply t_seq2; [|apply t_global_from_user]; sm|].
      intros c' g Q. apply t_ret2. exact Q.
    + intros c' v Q. apply t_ret2. exact Q.
  - eapply t_bind; [apply t_mode; first [discriminate|intros _; exact P]|]. intros c' Q. apply t_ret2. exact Q.
  - eapply t_bind; [apply t_mode; first [discriminate|intros _; exact P]|]. intros c' Q. apply t_ret2. exact Q.
  - eapply t_bind; [apply t_mode; first [discriminate|intros _; exact P]|]. intros c' Q. apply t_ret2. exact Q.
  - eapply t_bind2; [apply t_observe|]. intros c' l Q. apply t_ret2. exact Q.
  - unfold solve. cbv zeta. destruct (st_invalid _); [apply post_panic|]. eapply t_bind with (c := c); [eapply t_seq; [|apply t_schedule_loop]; apply ev_pf; reflexivity|].
    intros c1 Q1. eapply t_bind with (c := c1).
    + unfold solve_finished, flush_proof. set (c2 := handle_io c1 _).
      assert (E2 : ev c1 c2) by (unfold c2, handle_io; destruct (match p_format _ with Some _ => _ | None => _ end); intros F; (split; [exact F|]); intros s H; left; exact H).
      clearbody c2. destruct (p_checker _); [|apply t_ret; exact E2]. intros c3 E3. eapply ev_trans; [exact E2|]. apply (ev_ask _ _ _ E3). discriminate.
    + intros c2 Q2. pose proof (ev_trans _ _ _ Q1 Q2) as Q. unfold take_error. destruct (st_error (c_st c2)); apply t_ret2; exact Q.
  - destruct (update_apply u (c_cfg c)) as [[] cfg] eqn:Eu; [|apply t_ret2; apply ev_refl].
    destruct (_ && _); [|apply post_panic]. apply t_ret2. apply ev_pf; reflexivity.
Qed.
End kinds.
Lemma kinds_run fuel adds hides k c c' a : call_kind adds hides k = true -> run fuel k c = Ret (c', a) -> kinds adds hides c c'.
Proof. intros K E. apply (t_run adds hides fuel k c K _ E). Qed.
Lemma kinds_all fuel adds hides ks : forall c c' r, forallb (call_kind adds hides) ks = true -> run_all fuel ks c = Ret (c', r) -> kinds adds hides c c'.
Proof.
  induction ks as [|k ks IH]; intros c c' r K E; cbn [run_all forallb] in *; [injection E as <- _; apply ev_refl|].
  apply andb_prop in K as [K1 K2]. destruct (run fuel k c) as [[c1 a]| |] eqn:E1; cbn [bind] in E; try discriminate.
  destruct (run_all fuel ks c1) as [[c2 r2]| |] eqn:E2; cbn [bind] in E; try discriminate. injection E as <- _.
  eapply ev_trans; [eapply kinds_run; eassumption|eapply IH; eassumption].
Qed.
