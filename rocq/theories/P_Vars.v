(** C30: the maps between the variables of the user, of the proof and of the search. *)
From Coq Require Import Lia Arith ZArith ZifyBool ZifyNat ZifyN.
From Verif Require Import Spec Lit LitProofs BinFormat Hash F32 Vsids VsidsProofs Luby Config Search SearchBase ClauseDb
  Analyze SolverCtx CtxFrame VarsProofs Solver.
Local Open Scope N_scope.

(** * Solving changes no user name *)
Definition qpost (m : out ctx) (c : ctx) : Prop := post m (fun c' => quiet (c_v c) (c_v c')).
Definition qpost2 {A} (m : out (ctx * A)) (c : ctx) : Prop := post m (fun r => quiet (c_v c) (c_v (fst r))).

Lemma q_add_step sv s c : qpost (add_step sv s c) c.
Proof. eapply post_weaken; [apply add_step_post|]. intros c' F. apply frame_quiet. exact F. Qed.
Lemma q_add_step_at sv s c c0 : c_v c = c_v c0 -> qpost (add_step sv s c) c0.
Proof. intros E. unfold qpost. rewrite <- E. apply q_add_step. Qed.
Lemma q_add_steps sv s c : qpost (add_steps sv s c) c.
Proof. eapply post_weaken; [apply add_steps_post|]. intros c' F. apply frame_quiet. exact F. Qed.

(** Composition: the part before, then the rest *)
Lemma q_bind {B} (m : out ctx) (f : ctx -> out B) c (Q : B -> Prop) :
  qpost m c -> (forall c', quiet (c_v c) (c_v c') -> post (f c') Q) -> post (bind m f) Q.
Proof. intros H K. eapply post_bind; [exact H|]. exact K. Qed.
Lemma q_bind2 {A B} (m : out (ctx * A)) (f : ctx * A -> out B) c (Q : B -> Prop) :
  qpost2 m c -> (forall c' a, quiet (c_v c) (c_v c') -> post (f (c', a)) Q) -> post (bind m f) Q.
Proof. intros H K. eapply post_bind; [exact H|]. intros [c' a] X. apply K. exact X. Qed.
Lemma q_seq (m : out ctx) c c0 : quiet (c_v c0) (c_v c) -> qpost m c -> qpost m c0.
Proof. intros Q H. eapply post_weaken; [exact H|]. intros c' Q'. eapply quiet_trans; eassumption. Qed.
Lemma q_seq2 {A} (m : out (ctx * A)) c c0 : quiet (c_v c0) (c_v c) -> qpost2 m c -> qpost2 m c0.
Proof. intros Q H. eapply post_weaken; [exact H|]. intros c' Q'. eapply quiet_trans; eassumption. Qed.
Lemma q_ret c c' : quiet (c_v c) (c_v c') -> qpost (Ret c') c.
Proof. intros Q. apply post_ret. exact Q. Qed.
Lemma q_ret2 {A} c c' (a : A) : quiet (c_v c) (c_v c') -> qpost2 (Ret (c', a)) c.
Proof. intros Q. apply post_ret. exact Q. Qed.

Lemma v_backtrack n c : c_v (backtrack_to n c) = c_v c.
Proof. unfold backtrack_to. destruct (backtrack _ _ _). reflexivity. Qed.
Lemma v_full_restart c : c_v (full_restart c) = c_v c.
Proof. unfold full_restart. rewrite v_backtrack. reflexivity. Qed.
Lemma v_restart c : c_v (restart c) = c_v c.
Proof. unfold restart. rewrite v_backtrack. reflexivity. Qed.

Lemma q_remove x c : qpost (remove_solver_var x c) c.
Proof.
  unfold remove_solver_var. cbv zeta. cbn [cw_vs c_v]. destruct (v_gs (c_v c) x) as [g|] eqn:G; [|apply post_panic].
  eapply post_bind; [apply add_step_post|]. intros c1 F1. pose proof (frame_v _ _ F1) as E1. cbn [cw_v c_v] in E1.
  assert (Q1 : quiet (c_v c) (c_v c1)) by (rewrite E1; apply quiet_one; constructor; exact G).
  eapply post_weaken; [apply delete_global_post|].
  intros c2 [F2|(A & B & C & I & F2)]; rewrite (frame_v _ _ F2); [exact Q1|].
  cbn [cw_v c_v]. rewrite E1 in *. apply quiet_one. apply (q_drop (c_v c)); assumption.
Qed.

Lemma q_data x f c : (forall d, vd_deleted (f d) = vd_deleted d /\ vd_mode (f d) = vd_mode d) ->
  qpost (map_data_solver x f c) c.
Proof.
  intros H. unfold map_data_solver. destruct (v_gs (c_v c) x); [|apply post_panic]. apply post_ret. apply quiet_one.
  apply (q_put (c_v c)); apply H.
Qed.
Lemma q_data_lits f l : (forall d, vd_deleted (f d) = vd_deleted d /\ vd_mode (f d) = vd_mode d) ->
  forall c, qpost (map_data_lits l f c) c.
Proof.
  intros H. induction l as [|x l IH]; intros c; cbn [map_data_lits]; [apply q_ret; apply q_refl|].
  eapply q_bind; [apply q_data; exact H|]. intros c' Q. eapply q_seq; [exact Q|apply IH].
Qed.

Lemma q_simplify_var x c : qpost (simplify_var x c) c.
Proof.
  unfold simplify_var. destruct (v_gs (c_v c) x) as [g|]; [|apply q_ret; apply q_refl]. cbv zeta.
  set (d := match s_val (c_s c) x with Some b => _ | None => _ end).
  assert (Q : quiet (c_v c) (c_v (cw_v c (set_data (c_v c) (upd (v_data (c_v c)) g d))))).
  { apply quiet_one. apply (q_put (c_v c)); unfold d; destruct (s_val (c_s c) x); reflexivity. }
  destruct (vd_isolated d && negb (vd_assumed d)); [eapply q_seq; [exact Q|apply q_remove]|apply q_ret; exact Q].
Qed.
Lemma q_simplify_vars l : forall c, qpost (simplify_vars l c) c.
Proof.
  induction l as [|x l IH]; intros c; cbn [simplify_vars]; [apply q_ret; apply q_refl|].
  eapply q_bind; [apply q_simplify_var|]. intros c' Q. eapply q_seq; [exact Q|apply IH].
Qed.
Lemma q_simplify_clause x c : qpost2 (simplify_clause x c) c.
Proof.
  unfold simplify_clause. cbv zeta. destruct (open_lits _ _) as [ls|].
  - destruct (Nat.ltb _ _); [|apply q_ret2; apply q_refl].
    eapply q_bind; [apply q_add_step|]. intros c1 Q1. eapply q_bind; [apply q_add_step|]. intros c2 Q2.
    pose proof (quiet_trans _ _ _ Q1 Q2) as Q.
    destruct ls as [|a [|b [|d ls]]]; try apply post_panic; apply q_ret2; exact Q.
  - eapply q_bind; [apply q_add_step|]. intros c1 Q1. apply q_ret2. exact Q1.
Qed.
Lemma q_filter_loop l : forall c, qpost2 (filter_loop l c) c.
Proof.
  induction l as [|x l IH]; intros c; cbn [filter_loop]; [apply q_ret2; apply q_refl|].
  destruct (deleted (c_d c) x); [apply IH|].
  eapply q_bind2; [apply q_simplify_clause|]. intros c' keep Q. cbv zeta.
  eapply q_bind2; [apply IH|]. intros c2 r Q2. apply q_ret2. eapply quiet_trans; [exact Q|].
  destruct keep; exact Q2.
Qed.
Lemma q_unit_simplify c : qpost (unit_simplify c) c.
Proof.
  unfold unit_simplify. eapply q_bind with (c := c).
  - unfold simplify_binary. cbv zeta. eapply q_bind; [apply q_add_steps|]. intros c' Q. apply q_ret. exact Q.
  - intros c1 Q1. eapply q_bind with (c := c1).
    + unfold filter_clauses. cbv zeta. eapply q_bind2; [apply q_filter_loop|]. intros c' r Q. apply q_ret. exact Q.
    + intros c2 Q2. eapply q_seq; [eapply quiet_trans; eassumption|apply q_simplify_vars].
Qed.
Lemma q_prove_units c : qpost2 (prove_units c) c.
Proof.
  unfold prove_units. destruct (Nat.eqb _ _); [|apply q_ret2; apply q_refl]. cbv zeta.
  destruct (unit_proofs _ _) as [s ps]. destruct (trail_clear s); [|apply post_panic].
  eapply q_bind with (c := c).
  - destruct ps; [apply q_ret; apply q_refl|apply (q_add_step _ _ (cw_s c _))].
  - intros c' Q. apply q_ret2. exact Q.
Qed.
Lemma q_enqueue_loop n : forall c, qpost2 (enqueue_loop n c) c.
Proof.
  induction n as [|n IH]; intros c; cbn [enqueue_loop]; cbv zeta; destruct (nth_error _ _) as [a|];
    try (apply q_ret2; apply q_refl).
  all: destruct (lfalse _ _).
  1,3: eapply q_bind with (c := c); [|intros c' Q; apply q_ret2; exact Q];
       unfold analyze_assumption_conflict; destruct (failed_core_of _ _ _ _) as [[? ?] ?];
       eapply post_bind with (P := fun _ => True); [intros ? ?; exact Logic.I|];
       intros us _; cbv zeta; apply q_add_step_at; reflexivity.
  all: destruct (ltrue _ _); [|apply q_ret2; apply q_refl].
  - apply post_nofuel.
  - eapply q_seq2; [|apply IH]. constructor.
Qed.
Lemma v_make_decision c : c_v (fst (make_decision c)) = c_v c.
Proof. unfold make_decision. destruct (find_decision _ _ _) as [? [?|]]; reflexivity. Qed.
Lemma q_find_conflict n : forall c, qpost2 (find_conflict n c) c.
Proof.
  induction n as [|n IH]; intros c; cbn [find_conflict]; [apply post_nofuel|].
  destruct (propagate _ _ _ _) as [s r].
  assert (A : qpost2 (do (c0, new_unit) <- prove_units (cw_s c s) ;
      match r with PConflict k => Ret (c0, FConflict k)
      | _ => do c1 <- (if new_unit then unit_simplify c0 else Ret c0) ;
             do (c2, e) <- enqueue_assumption c1 ;
             match e with
             | Done => let (c3, b) := make_decision c2 in if b then find_conflict n c3 else Ret (c3, FModel)
             | Enqueued => find_conflict n c2
             | Failed => Ret (c2, FAssumption)
             end
      end) c).
  { eapply q_bind2; [apply q_prove_units|]. intros c0 nu Q0.
    assert (B : qpost2 (do c1 <- (if nu then unit_simplify c0 else Ret c0) ;
             do (c2, e) <- enqueue_assumption c1 ;
             match e with
             | Done => let (c3, b) := make_decision c2 in if b then find_conflict n c3 else Ret (c3, FModel)
             | Enqueued => find_conflict n c2
             | Failed => Ret (c2, FAssumption)
             end) c).
    { eapply q_bind with (c := c0); [destruct nu; [apply q_unit_simplify|apply q_ret; apply q_refl]|].
      intros c1 Q1. eapply q_bind2; [apply q_enqueue_loop|]. intros c2 e Q2.
      pose proof (quiet_trans _ _ _ Q0 (quiet_trans _ _ _ Q1 Q2)) as Q.
      destruct e; [|eapply q_seq2; [exact Q|apply IH]|apply q_ret2; exact Q].
      pose proof (v_make_decision c2) as V. destruct (make_decision c2) as [c3 b]. cbn [fst] in V.
      assert (Q3 : quiet (c_v c) (c_v c3)) by (rewrite V; exact Q).
      destruct b; [eapply q_seq2; [exact Q3|apply IH]|apply q_ret2; exact Q3]. }
    destruct r; try exact B. apply q_ret2. exact Q0. }
  destruct r; try exact A; [apply post_panic|apply post_nofuel].
Qed.
Lemma q_db_add h l c : qpost2 (db_add_clause h l c) c.
Proof.
  unfold db_add_clause. destruct (add_long _ _ _ _) as [[s d] cref]. destruct (d_full d); [apply post_panic|].
  apply q_ret2. constructor.
Qed.
Lemma q_learn cl c : qpost (learn_clause cl c) c.
Proof.
  unfold learn_clause. destruct cl as [|a [|b [|d cl]]]; try (apply q_ret; apply q_refl).
  destruct (assess_learned _ _ _) as [fl h]. eapply q_bind2; [apply q_db_add|]. intros c' x Q. apply q_ret. exact Q.
Qed.
Lemma q_conflict_step n c : qpost (conflict_step n c) c.
Proof.
  unfold conflict_step. eapply q_bind2; [apply q_find_conflict|]. intros c1 f Q1. destruct f.
  - unfold reconstruct_global_model. cbv zeta. eapply q_bind with (c := c1).
    + destruct (p_native _); [apply (q_add_step _ _ (cw_model c1 _))|apply q_ret; apply q_refl].
    + intros c2 Q2. apply q_ret. eapply quiet_trans; [exact Q1|exact Q2].
  - apply q_ret. exact Q1.
  - destruct (analyze_conflict _ _ _ _ _ _) as [[vs a] bt]. destruct (a_fuel a); [apply post_nofuel|]. cbv zeta.
    destruct (bump_clauses _ _ _ _) as [d fl]. eapply q_bind; [apply q_add_step|]. rewrite v_backtrack.
    intros c2 Q2. eapply q_seq; [eapply quiet_trans; [exact Q1|exact Q2]|apply q_learn].
Qed.
Lemma q_schedule_step n c : qpost2 (schedule_step n c) c.
Proof.
  unfold schedule_step.
  destruct (st_sat (c_st c)); try (apply q_ret2; apply q_refl).
  destruct (st_error (c_st c)); [apply q_ret2; apply q_refl|]. cbv zeta.
  set (c1 := if sc_next (c_sc c) =? sc_conflicts (c_sc c) then _ else c).
  assert (E1 : c_v c1 = c_v c).
  { unfold c1. destruct (_ =? _); [|reflexivity]. destruct (luby_advance _). cbn [cw_sc c_v]. apply v_restart. }
  clearbody c1. eapply q_bind with (c := c1).
  { destruct (_ =? _); [|apply q_ret; apply q_refl]. destruct (reduce_locals _ _) as [[s d] out].
    apply (q_add_steps _ _ (cw_d (cw_s c1 s) d)). }
  intros c2 Q2. rewrite E1 in Q2.
  set (c3 := if _ =? _ then cw_d c2 _ else c2).
  assert (E3 : c_v c3 = c_v c2) by (unfold c3; destruct (_ =? _); reflexivity). clearbody c3.
  destruct (collect_garbage _ _) as [[s d]|]; [|apply post_panic]. destruct (d_full d); [apply post_panic|].
  eapply q_bind; [apply q_conflict_step|]. intros c4 Q4. cbn [cw_d cw_s c_v] in Q4. rewrite E3 in Q4.
  apply q_ret2. eapply quiet_trans; [exact Q2|exact Q4].
Qed.
Lemma q_schedule_loop n m : forall c, qpost (schedule_loop n m c) c.
Proof.
  induction m as [|m IH]; intros c; cbn [schedule_loop]; [apply post_nofuel|].
  eapply q_bind2; [apply q_schedule_step|]. intros c' [] Q; [eapply q_seq; [exact Q|apply IH]|apply q_ret; exact Q].
Qed.
Lemma q_solve n c : qpost2 (solve n c) c.
Proof.
  unfold solve. cbv zeta. destruct (st_invalid _); [apply post_panic|].
  eapply q_bind; [apply q_schedule_loop|]. intros c1 Q1. eapply q_bind with (c := c1).
  { intros c' E. apply frame_quiet. eapply spec_get; [apply solve_finished_spec|exact E]. }
  intros c2 Q2. unfold take_error. destruct (st_error (c_st c2)); apply q_ret2; eapply quiet_trans; try eassumption.
Qed.

(** * Names that are created on use *)
(** [grew S v v']: exactly the names in [S], and below these all that were never used, are in
    use in [v'] in addition to those of [v], which keep their variable. *)
Record grew (S : N -> Prop) (v v' : vars) : Prop := {
  gr_ok : vars_ok v';
  gr_keep : forall u g, v_gu v u = Some g -> v_gu v' u = Some g;
  gr_all : forall u, S u -> v_gu v' u <> None;
  gr_new : forall u, v_gu v u = None -> v_gu v' u <> None -> S u \/ (v_ulen v <= u /\ exists w, S w /\ u < w);
  gr_fill : forall u w, v_ulen v <= u -> S w -> u < w -> v_gu v' u <> None;
  gr_alive : forall u g, v_gu v u = None -> v_gu v' u = Some g -> vd_deleted (v_data v g) = true;
  gr_len : forall w, v_ulen v <= v_ulen v' /\ (S w -> w < v_ulen v') /\
             (w < v_ulen v' -> w < v_ulen v \/ exists w', S w' /\ w <= w') }.

Lemma grew_refl v : vars_ok v -> grew (fun _ => False) v v.
Proof. intros K. constructor; auto; try tauto; try congruence. intros w. split; [lia|]. tauto. Qed.

(** Deleted variables only become used through new names. *)
Lemma fill_users_grew n : forall c, vars_ok (c_v c) ->
  spec (fill_users n c) (fun c' => vars_ok (c_v c') /\ v_ulen (c_v c') = v_ulen (c_v c) + N.of_nat n /\
    (forall u g, v_gu (c_v c) u = Some g -> v_gu (c_v c') u = Some g) /\
    (forall u, v_gu (c_v c) u = None -> v_gu (c_v c') u <> None <->
               v_ulen (c_v c) <= u < v_ulen (c_v c) + N.of_nat n) /\
    (forall u g, v_gu (c_v c) u = None -> v_gu (c_v c') u = Some g -> vd_deleted (v_data (c_v c) g) = true) /\
    (forall g, vd_deleted (v_data (c_v c) g) = false -> vd_deleted (v_data (c_v c') g) = false)).
Proof.
  induction n as [|n IH]; intros c K; cbn [fill_users].
  - cbn [spec]. split; [exact K|]. split; [lia|]. split; [auto|]. split; [intros u E; rewrite E; split; [congruence|lia]|].
    split; [congruence|auto].
  - assert (F0 : v_gu (c_v c) (v_ulen (c_v c)) = None).
    { destruct (v_gu (c_v c) (v_ulen (c_v c))) eqn:E; [|reflexivity]. apply (vo_u _ K) in E. lia. }
    eapply spec_bind; [apply global_from_user1_spec; [exact K|lia]|].
    intros [c1 g] (G1 & [[G _]|(_ & Eg & F)]); [congruence|].
    pose proof (frame_v _ _ F) as E1. cbn [cw_v c_v] in E1.
    assert (K1 : vars_ok (c_v c1)).
    { rewrite Eg in F. eapply fresh_frame_ok; [exact K|exact F0|lia|exact F]. }
    pose proof (fresh_global_deleted _ (v_ulen (c_v c)) K) as Dg. rewrite <- Eg in Dg.
    eapply spec_weaken; [apply IH; exact K1|].
    intros c' (K' & L & A & B & C & D).
    assert (E2 : v_gu (c_v c1) = upd (v_gu (c_v c)) (v_ulen (c_v c)) (Some g)) by (rewrite E1; reflexivity).
    assert (E3 : v_ulen (c_v c1) = v_ulen (c_v c) + 1) by (rewrite E1; cbn [v_add v_ulen]; lia).
    assert (E4 : v_data (c_v c1) = upd (v_data (c_v c)) g vdata_user) by (rewrite E1; reflexivity).
    rewrite E3 in *. split; [exact K'|]. split; [lia|]. split; [|split; [|split]].
    + intros u h H. apply A. rewrite E2. updc; congruence.
    + intros u H. specialize (B u). rewrite E2 in B. unfold upd in B. destruct (N.eqb_spec u (v_ulen (c_v c))) as [e|NE]; [subst u|].
      * rewrite (A (v_ulen (c_v c)) g); [|exact G1]. split; [lia|discriminate].
      * rewrite (B H). lia.
    + intros u h H1 H2. specialize (C u h). rewrite E2, E4 in C. unfold upd in C.
      destruct (N.eqb_spec u (v_ulen (c_v c))) as [e|NE]; [subst u|].
      * rewrite (A (v_ulen (c_v c)) g G1) in H2. congruence.
      * destruct (N.eqb_spec h g) as [e|]; [subst h; exact Dg|]. apply C; assumption.
    + intros h H. apply D. rewrite E4. updc; [reflexivity|exact H].
Qed.

Lemma global_from_user_grew u rs c : vars_ok (c_v c) ->
  spec (global_from_user u rs c) (fun '(c', g) => v_gu (c_v c') u = Some g /\ grew (fun w => w = u) (c_v c) (c_v c') /\
    (forall h, vd_deleted (v_data (c_v c) h) = false -> vd_deleted (v_data (c_v c') h) = false) /\
    v_sg (c_v c') = v_sg (c_v c)).
Proof.
  intros K. unfold global_from_user.
  assert (SG : forall n c, spec (fill_users n c) (fun c' => v_sg (c_v c') = v_sg (c_v c)) \/ True) by auto. clear SG.
  pose proof (fill_users_grew (N.to_nat (u - v_ulen (c_v c))) c K) as FU.
  assert (SG : post (fill_users (N.to_nat (u - v_ulen (c_v c))) c) (fun c' => v_sg (c_v c') = v_sg (c_v c))).
  { clear. generalize (N.to_nat (u - v_ulen (c_v c))) as n. intros n. revert c.
    induction n as [|n IH]; intros c; cbn [fill_users]; [apply post_ret; reflexivity|].
    eapply post_bind with (P := fun r => v_sg (c_v (fst r)) = v_sg (c_v c)).
    - unfold global_from_user1. destruct (v_gu _ _); [apply post_ret; reflexivity|]. cbv zeta.
      eapply post_bind; [apply add_step_post|]. intros c' F. apply post_ret. cbn [fst]. rewrite (frame_v _ _ F). reflexivity.
    - intros [c1 g] E. eapply post_weaken; [apply IH|]. intros c' E'. rewrite E'. exact E. }
  destruct (fill_users _ c) as [c1|p|] eqn:EF; cbn [bind spec] in *; [|exact FU|exact Logic.I].
  specialize (SG c1 eq_refl). destruct FU as (K1 & L1 & A1 & B1 & C1 & D1).
  assert (Lu : u <= v_ulen (c_v c1)) by lia.
  eapply spec_weaken; [apply global_from_user1_spec; [exact K1|exact Lu]|].
  intros [c' g] (G & [[G1 E]|(G1 & Eg & F)]).
  - subst c'. split; [exact G|]. split; [|split; [exact D1|exact SG]].
    assert (Lw : u < v_ulen (c_v c)).
    { apply (vo_u _ K1) in G1 as H. destruct (N.le_gt_cases (v_ulen (c_v c)) u); lia. }
    assert (Z : N.to_nat (u - v_ulen (c_v c)) = 0%nat) by lia. rewrite Z in *.
    constructor.
    + exact K1.
    + exact A1.
    + intros w ->. congruence.
    + intros w H1 H2. apply (B1 w H1) in H2. lia.
    + intros v w H1 -> H2. lia.
    + intros v h H1 H2. exfalso. assert (v_gu (c_v c1) v <> None) as Q by congruence. apply (B1 v H1) in Q. lia.
    + intros w. split; [lia|]. split; [intros ->; lia|]. intros H. left. lia.
  - pose proof (frame_v _ _ F) as E1. cbn [cw_v c_v] in E1.
    assert (K' : vars_ok (c_v c')) by (rewrite Eg in F; eapply fresh_frame_ok; eassumption).
    pose proof (fresh_global_deleted _ u K1) as Dg. rewrite <- Eg in Dg.
    assert (E2 : v_gu (c_v c') = upd (v_gu (c_v c1)) u (Some g)) by (rewrite E1; reflexivity).
    assert (E3 : v_ulen (c_v c') = N.max (v_ulen (c_v c1)) (u + 1)) by (rewrite E1; reflexivity).
    split; [exact G|]. split; [|split].
    + constructor.
      * exact K'.
      * intros w h H. rewrite E2. unfold upd. destruct (N.eqb_spec w u) as [->|]; [|auto].
        apply A1 in H. congruence.
      * intros w ->. congruence.
      * intros w H1 H2. rewrite E2 in H2. unfold upd in H2. destruct (N.eqb_spec w u) as [->|]; [left; reflexivity|].
        apply (B1 w H1) in H2. right. split; [lia|]. exists u. lia.
      * intros v w H1 -> H2. rewrite E2. unfold upd. destruct (N.eqb_spec v u); [discriminate|].
        destruct (v_gu (c_v c) v) as [x|] eqn:Ev; [rewrite (A1 _ _ Ev); discriminate|]. apply (B1 v Ev). lia.
      * intros v h H1 H2. rewrite E2 in H2. unfold upd in H2. destruct (N.eqb_spec v u) as [->|].
        -- injection H2 as <-. destruct (vd_deleted (v_data (c_v c) g)) eqn:X; [reflexivity|]. apply D1 in X. congruence.
        -- exact (C1 v h H1 H2).
      * intros w. split; [lia|]. split; [intros ->; lia|]. intros H. rewrite E3 in H.
        destruct (N.lt_ge_cases w (v_ulen (c_v c))) as [|Ge]; [left; assumption|]. right. exists u. split; [reflexivity|]. lia.
    + intros h H. apply D1 in H. rewrite E1. cbn [v_add v_data]. updc; [reflexivity|exact H].
    + rewrite E1. cbn [v_add v_sg]. exact SG.
Qed.

Lemma grew_trans (S T : N -> Prop) a b c : grew S a b ->
  (forall h, vd_deleted (v_data a h) = false -> vd_deleted (v_data b h) = false) ->
  grew T b c -> grew (fun u => S u \/ T u) a c.
Proof.
  intros A DA B. constructor.
  - apply B.
  - intros u g H. apply (gr_keep _ _ _ B), (gr_keep _ _ _ A), H.
  - intros u [H|H]; [|exact (gr_all _ _ _ B u H)]. apply (gr_all _ _ _ A) in H.
    destruct (v_gu b u) as [g|] eqn:E; [|congruence]. rewrite (gr_keep _ _ _ B _ _ E). discriminate.
  - intros u H1 H2. destruct (v_gu b u) as [g|] eqn:E.
    + destruct (gr_new _ _ _ A u H1) as [H|(L & w & Sw & Lw)]; [congruence|tauto|]. right. split; [exact L|]. exists w. tauto.
    + destruct (gr_new _ _ _ B u E H2) as [H|(L & w & Sw & Lw)]; [tauto|]. right.
      split; [pose proof (gr_len _ _ _ A 0); lia|]. exists w. tauto.
  - intros u w L [H|H] Lw.
    + pose proof (gr_fill _ _ _ A u w L H Lw) as Q. destruct (v_gu b u) as [g|] eqn:E; [|congruence].
      rewrite (gr_keep _ _ _ B _ _ E). discriminate.
    + destruct (N.le_gt_cases (v_ulen b) u) as [Ge|Lt]; [exact (gr_fill _ _ _ B u w Ge H Lw)|].
      destruct (proj2 (proj2 (gr_len _ _ _ A u)) Lt) as [|(w' & Sw & Lw')]; [lia|].
      assert (Q : v_gu b u <> None).
      { destruct (N.eq_dec u w') as [->|]; [exact (gr_all _ _ _ A w' Sw)|]. apply (gr_fill _ _ _ A u w' L Sw). lia. }
      destruct (v_gu b u) as [g|] eqn:E; [|congruence]. rewrite (gr_keep _ _ _ B _ _ E). discriminate.
  - intros u g H1 H2. destruct (v_gu b u) as [h|] eqn:E.
    + pose proof (gr_keep _ _ _ B _ _ E) as X. assert (h = g) by congruence. subst h. exact (gr_alive _ _ _ A u g H1 E).
    + pose proof (gr_alive _ _ _ B u g E H2) as X. destruct (vd_deleted (v_data a g)) eqn:Y; [reflexivity|].
      apply DA in Y. congruence.
  - intros w. destruct (gr_len _ _ _ A w) as (A1 & A2 & A3). destruct (gr_len _ _ _ B w) as (B1 & B2 & B3).
    split; [lia|]. split; [intros [H|H]; [specialize (A2 H); lia|auto]|].
    intros H. destruct (B3 H) as [H'|(w' & T' & L')]; [|right; exists w'; tauto].
    destruct (A3 H') as [|(w' & S' & L')]; [left; assumption|]. right. exists w'. tauto.
Qed.
Lemma grew_iff (S T : N -> Prop) a b : (forall u, S u <-> T u) -> grew S a b -> grew T a b.
Proof.
  intros E G. constructor.
  - apply G.
  - apply G.
  - intros u H. apply (gr_all _ _ _ G). apply E. exact H.
  - intros u H1 H2. destruct (gr_new _ _ _ G u H1 H2) as [H|(L & w & Sw & Lw)]; [left; apply E; exact H|].
    right. split; [exact L|]. exists w. split; [apply E; exact Sw|exact Lw].
  - intros u w L H Lw. apply (gr_fill _ _ _ G u w L); [apply E; exact H|exact Lw].
  - apply G.
  - intros w. destruct (gr_len _ _ _ G w) as (A & B & C). split; [exact A|]. split; [intros H; apply B, E, H|].
    intros H. destruct (C H) as [|(w' & S' & L')]; [left; assumption|]. right. exists w'. split; [apply E; exact S'|exact L'].
Qed.
Lemma grew_quiet S a b c : grew S a b -> quiet b c -> grew S a c.
Proof.
  intros G Q. destruct (quiet_names _ _ Q) as (E1 & E2 & E3 & E4). constructor; rewrite ?E1, ?E3; try apply G.
  eapply quiet_ok; [apply G|exact Q].
Qed.
Lemma solver_from_global_quiet g c : vd_deleted (v_data (c_v c) g) = false ->
  post (solver_from_global g c) (fun r => quiet (c_v c) (c_v (fst r)) /\
    (forall h, vd_deleted (v_data (c_v (fst r)) h) = vd_deleted (v_data (c_v c) h))).
Proof.
  intros D. unfold solver_from_global. destruct (v_sg (c_v c) g) eqn:E; [apply post_ret; split; [constructor|reflexivity]|].
  cbv zeta. fold (v_use (c_v c) g (next_solver (c_v c))).
  eapply post_bind with (P := fun c' => c_v c' = v_use (c_v c) g (next_solver (c_v c))).
  - unfold initialize_solver_var. cbv zeta. destruct (vsids_reset _ _); [|apply post_panic]. apply post_ret. reflexivity.
  - intros c1 E1. eapply post_bind; [apply add_step_post|]. intros c2 F2. apply post_ret. cbn [fst].
    rewrite (frame_v _ _ F2), E1. split; [|reflexivity]. apply quiet_one. constructor; assumption.
Qed.
Lemma solver_from_user_lits_grew rs l : forall c, vars_ok (c_v c) ->
  post (solver_from_user_lits l rs c) (fun r => grew (fun u => In u (map lit_var l)) (c_v c) (c_v (fst r)) /\
    (forall h, vd_deleted (v_data (c_v c) h) = false -> vd_deleted (v_data (c_v (fst r)) h) = false)).
Proof.
  induction l as [|x l IH]; intros c K; cbn [solver_from_user_lits].
  - apply post_ret. split; [|auto]. eapply grew_iff; [|apply grew_refl; exact K]. cbn. tauto.
  - eapply post_bind with (P := fun r => grew (fun w => w = lit_var x) (c_v c) (c_v (fst r)) /\
      (forall h, vd_deleted (v_data (c_v c) h) = false -> vd_deleted (v_data (c_v (fst r)) h) = false)).
    + unfold solver_from_user. eapply post_bind.
      { intros r E. pose proof (spec_get _ _ _ (global_from_user_grew (lit_var x) rs c K) E) as H. exact H. }
      intros [c1 g] (G1 & A & D & SG). eapply post_weaken; [apply solver_from_global_quiet|].
      { apply (vo_named _ (gr_ok _ _ _ A) g (lit_var x)). apply (vo_ug _ (gr_ok _ _ _ A)). exact G1. }
      intros [c2 y] [Q E]. cbn [fst] in *. split; [eapply grew_quiet; eassumption|]. intros h H. rewrite E. auto.
    + intros [c1 y] [A D]. cbn [fst] in *. eapply post_bind; [apply IH; apply A|].
      intros [c2 r] [B D2]. cbn [fst] in *. apply post_ret. cbn [fst]. split; [|auto].
      eapply grew_iff; [|eapply grew_trans; [exact A|exact D|exact B]]. intros u. cbn [map In]. intuition.
Qed.

Lemma load_grew l c : vars_ok (c_v c) -> post (load_clause l c) (fun c' =>
  grew (fun u => st_sat (c_st c) <> Unsat /\ In u (map lit_var l)) (c_v c) (c_v c')).
Proof.
  intros K. unfold load_clause.
  assert (R : forall c1 : ctx, c_v c1 = c_v c -> post
    (do (c, lits) <- solver_from_user_lits l true c1 ;
      let lits := dedup_n (sort_n lits) in
      do c <- proof_add_clause lits c ;
      if tautology lits then Ret c
      else
        do c <- (if Nat.ltb 1 (length lits) then map_data_lits lits (fun d => vd_set_isolated d false) c
                 else Ret c) ;
        let '(kept, false_lits, clause_is_true) := scan_lits (c_s c) lits in
        let will_conflict := match kept with [] => true | _ => false end in
        let c := cw_s c (fold_left (fun s l => resurrect_unit s (lnot l)) false_lits (c_s c)) in
        let lits := kept ++ false_lits in
        if clause_is_true then
          if Nat.ltb 1 (length lits) then add_step true (DeleteClause lits DSatisfied) c else Ret c
        else
          match lits with
          | [] => Ret (set_sat c Unsat)
          | [lit] => if will_conflict then Ret (set_sat c Unsat)
                     else Ret (cw_s c (enqueue (c_s c) lit RUnit))
          | [l0; l1] => Ret (add_binary_clause l0 l1 c)
          | _ => do (c, _) <- db_add_clause (set_tier hdr_new Irred) lits c ; Ret c
          end) (fun c' => grew (fun u => In u (map lit_var l)) (c_v c) (c_v c'))).
  { intros c1 E1. eapply post_bind; [apply solver_from_user_lits_grew; rewrite E1; exact K|].
    intros [c2 lits] [G _]. cbn [fst] in G. rewrite E1 in G. cbv zeta.
    assert (Q : qpost (do c <- proof_add_clause (dedup_n (sort_n lits)) c2 ;
      if tautology (dedup_n (sort_n lits)) then Ret c
      else
        do c <- (if Nat.ltb 1 (length (dedup_n (sort_n lits))) then map_data_lits (dedup_n (sort_n lits)) (fun d => vd_set_isolated d false) c
                 else Ret c) ;
        let '(kept, false_lits, clause_is_true) := scan_lits (c_s c) (dedup_n (sort_n lits)) in
        let will_conflict := match kept with [] => true | _ => false end in
        let c := cw_s c (fold_left (fun s l => resurrect_unit s (lnot l)) false_lits (c_s c)) in
        let lits := kept ++ false_lits in
        if clause_is_true then
          if Nat.ltb 1 (length lits) then add_step true (DeleteClause lits DSatisfied) c else Ret c
        else
          match lits with
          | [] => Ret (set_sat c Unsat)
          | [lit] => if will_conflict then Ret (set_sat c Unsat)
                     else Ret (cw_s c (enqueue (c_s c) lit RUnit))
          | [l0; l1] => Ret (add_binary_clause l0 l1 c)
          | _ => do (c, _) <- db_add_clause (set_tier hdr_new Irred) lits c ; Ret c
          end) c2).
    { eapply q_bind with (c := c2).
      { eapply post_weaken; [apply proof_add_clause_post|]. intros c' F. apply frame_quiet. exact F. }
      intros c3 Q3. destruct (tautology _); [apply q_ret; exact Q3|].
      eapply q_bind with (c := c3).
      { destruct (Nat.ltb _ _); [apply q_data_lits; intros d; split; reflexivity|apply q_ret; apply q_refl]. }
      intros c4 Q4. pose proof (quiet_trans _ _ _ Q3 Q4) as Q.
      destruct (scan_lits _ _) as [[kept fl] found]. cbv zeta.
      destruct found.
      { destruct (Nat.ltb _ _); [eapply q_seq; [|apply q_add_step]; exact Q|apply q_ret; exact Q]. }
      destruct (kept ++ fl) as [|a [|b [|d r]]]; try (apply q_ret; exact Q).
      { destruct kept; apply q_ret; exact Q. }
      eapply q_bind2; [apply q_db_add|]. intros c5 x Q5. apply q_ret. eapply quiet_trans; [exact Q|exact Q5]. }
    eapply post_weaken; [exact Q|]. intros c' Q'. eapply grew_quiet; eassumption. }
  assert (T : st_sat (c_st c) <> Unsat -> forall b, post
    (do (c, lits) <- solver_from_user_lits l true (full_restart (set_empty b false)) ;
      let lits := dedup_n (sort_n lits) in
      do c <- proof_add_clause lits c ;
      if tautology lits then Ret c
      else
        do c <- (if Nat.ltb 1 (length lits) then map_data_lits lits (fun d => vd_set_isolated d false) c
                 else Ret c) ;
        let '(kept, false_lits, clause_is_true) := scan_lits (c_s c) lits in
        let will_conflict := match kept with [] => true | _ => false end in
        let c := cw_s c (fold_left (fun s l => resurrect_unit s (lnot l)) false_lits (c_s c)) in
        let lits := kept ++ false_lits in
        if clause_is_true then
          if Nat.ltb 1 (length lits) then add_step true (DeleteClause lits DSatisfied) c else Ret c
        else
          match lits with
          | [] => Ret (set_sat c Unsat)
          | [lit] => if will_conflict then Ret (set_sat c Unsat)
                     else Ret (cw_s c (enqueue (c_s c) lit RUnit))
          | [l0; l1] => Ret (add_binary_clause l0 l1 c)
          | _ => do (c, _) <- db_add_clause (set_tier hdr_new Irred) lits c ; Ret c
          end) (fun c' => c_v b = c_v c ->
            grew (fun u => st_sat (c_st c) <> Unsat /\ In u (map lit_var l)) (c_v c) (c_v c'))).
  { intros NU b c' E Eb. eapply grew_iff; [|eapply (R (full_restart (set_empty b false))); [|exact E]].
    - intros u. tauto.
    - rewrite v_full_restart. exact Eb. }
  destruct (st_sat (c_st c)) eqn:S.
  - intros c' E. apply (T ltac:(discriminate) c c' E). reflexivity.
  - intros c' E. apply (T ltac:(discriminate) (set_sat c Unknown) c' E). reflexivity.
  - apply post_ret. eapply grew_iff; [|apply grew_refl; exact K]. intros u. split; [tauto|]. intros [H _]. congruence.
  - intros c' E. apply (T ltac:(discriminate) c c' E). reflexivity.
Qed.

Lemma data_lits_deleted f l : (forall d, vd_deleted (f d) = vd_deleted d) -> forall c,
  post (map_data_lits l f c) (fun c' => forall h, vd_deleted (v_data (c_v c') h) = vd_deleted (v_data (c_v c) h)).
Proof.
  intros H. induction l as [|x l IH]; intros c; cbn [map_data_lits]; [apply post_ret; reflexivity|].
  eapply post_bind with (P := fun c' => forall h, vd_deleted (v_data (c_v c') h) = vd_deleted (v_data (c_v c) h)).
  - unfold map_data_solver. destruct (v_gs (c_v c) (lit_var x)); [|apply post_panic]. apply post_ret.
    intros h. cbn [cw_v c_v set_data v_data]. unfold upd. destruct (N.eqb_spec h n) as [->|]; [apply H|reflexivity].
  - intros c' E. eapply post_weaken; [apply IH|]. intros c2 E2 h. rewrite E2. apply E.
Qed.

Lemma assume_grew l c : vars_ok (c_v c) -> post (set_assumptions l c) (fun c' =>
  grew (fun u => In u (map lit_var l)) (c_v c) (c_v c')).
Proof.
  intros K. unfold set_assumptions. cbv zeta.
  set (c1 := match st_sat (c_st (full_restart c)) with Unsat => _ | _ => _ end).
  assert (E1 : c_v c1 = c_v c) by (unfold c1; destruct (st_sat _); cbn; apply v_full_restart). clearbody c1.
  eapply post_bind with (P := fun c2 => quiet (c_v c) (c_v c2) /\
    forall h, vd_deleted (v_data (c_v c2) h) = vd_deleted (v_data (c_v c) h)).
  { intros c2 E. rewrite <- E1. split.
    - eapply q_data_lits; [|exact E]. intros d; split; reflexivity.
    - eapply data_lits_deleted; [|exact E]. reflexivity. }
  intros c2 [Q2 D2].
  pose proof (quiet_ok _ _ K Q2) as K2. destruct (quiet_names _ _ Q2) as (N1 & N2 & N3 & N4).
  eapply post_bind; [apply solver_from_user_lits_grew; exact K2|]. intros [c3 lits] [G D]. cbn [fst] in *.
  eapply q_bind; [apply q_data_lits; intros d; split; reflexivity|]. intros c4 Q4. cbn [cw_as c_v] in Q4.
  eapply post_weaken; [apply q_add_step|]. intros c5 Q5.
  pose proof (grew_quiet _ _ _ _ G (quiet_trans _ _ _ Q4 Q5)) as G'. clear G.
  constructor; try rewrite <- N1; try rewrite <- N3; try apply G'.
  intros u g H1 H2. rewrite <- D2. apply (gr_alive _ _ _ G' u g H1 H2).
Qed.

(** * Modes *)
Lemma mode_post u m c : vars_ok (c_v c) -> post (change_mode u m c) (fun c' => vars_ok (c_v c') /\
  (forall w g, w <> u \/ m <> Hide -> v_gu (c_v c) w = Some g -> v_gu (c_v c') w = Some g) /\
  (m = Hide -> v_gu (c_v c') u = None) /\ (m <> Hide -> v_gu (c_v c') u <> None)).
Proof.
  intros K. unfold change_mode. eapply post_bind.
  { intros r E. exact (spec_get _ _ _ (global_from_user_grew u false c K) E). }
  intros [c1 g] (G1 & A & D1 & _). pose proof (gr_ok _ _ _ A) as K1.
  pose proof (vo_named _ K1 g u (proj1 (vo_ug _ K1 u g) G1)) as Dg.
  eapply post_bind.
  { intros r E. exact (spec_get _ _ _ (set_sampling_mode_spec g m c1 K1 Dg) E). }
  intros [c2 r] H. apply post_ret.
  assert (KM : vd_mode (v_data (c_v c1) g) <> Hide).
  { intros X. apply (vo_mode _ K1 g Dg) in X. apply (vo_ug _ K1) in G1. congruence. }
  destruct H as [(M & -> & _)|(NE & As & [(O & M & _ & F)|[(O & _ & F)|(M & _ & w & v' & U & Hd & F)]])]; [| |contradiction|].
  - split; [exact K1|]. split; [intros w h _ H; exact (gr_keep _ _ _ A w h H)|]. split; [congruence|]. congruence.
  - rewrite (frame_v _ _ F). cbn [cw_v c_v v_put set_data v_gu]. split.
    { apply v_put_ok; [exact K1|reflexivity|]. intros _. cbn. tauto. }
    split; [intros w h _ H; exact (gr_keep _ _ _ A w h H)|]. split; [contradiction|]. congruence.
  - assert (w = u). { apply (vo_ug _ K1) in U, G1. congruence. } subst w.
    rewrite (frame_v _ _ F). cbn [cw_v c_v]. split; [eapply hidden_ok; eassumption|].
    assert (E : v_gu v' = upd (v_gu (c_v c1)) u None) by (destruct Hd as [->|(_ & _ & ->)]; reflexivity).
    rewrite E. split; [|split].
    + intros w h [H|H] Hw; [|contradiction]. unfold upd. destruct (N.eqb_spec w u); [contradiction|].
      exact (gr_keep _ _ _ A w h Hw).
    + intros _. unfold upd. rewrite N.eqb_refl. reflexivity.
    + contradiction.
Qed.

(** The variables without a user name are named one after the other. *)
Lemma observe_loop_spec n : forall g0 c, vars_ok (c_v c) ->
  spec (observe_loop n g0 c) (fun '(c', l) => vars_ok (c_v c') /\ NoDup l /\
    (forall u, In u l -> v_gu (c_v c) u = None /\
       exists g, v_gu (c_v c') u = Some g /\ v_ug (c_v c) g = None /\ vd_deleted (v_data (c_v c) g) = false) /\
    (forall u, ~ In u l -> v_gu (c_v c') u = v_gu (c_v c) u) /\
    (forall g, g0 <= g < g0 + N.of_nat n -> vd_deleted (v_data (c_v c) g) = false -> v_ug (c_v c') g <> None)).
Proof.
  induction n as [|n IH]; intros g0 c K; cbn [observe_loop].
  - cbn [spec]. split; [exact K|]. split; [constructor|]. split; [intros u []|]. split; [reflexivity|]. intros g L. lia.
  - cbv zeta. destruct (negb (vd_deleted (v_data (c_v c) g0)) && smode_eqb (vd_mode (v_data (c_v c) g0)) Hide) eqn:T.
    + apply andb_prop in T. destruct T as [T1 T2]. apply Bool.negb_true_iff in T1.
      assert (M : vd_mode (v_data (c_v c) g0) = Hide) by (destruct (vd_mode (v_data (c_v c) g0)); try discriminate; reflexivity).
      eapply spec_bind; [apply set_sampling_mode_spec; assumption|].
      intros [c1 r] H. destruct H as [(X & _)|(NE & As & [(O & _)|[(O & -> & F)|(X & _)]])]; try congruence.
      pose proof (frame_v _ _ F) as E1. cbn [cw_v c_v] in E1.
      assert (K1 : vars_ok (c_v c1)) by (rewrite E1; apply v_show_next_ok; auto; discriminate).
      destruct (next_user_free _ K) as [Fu _]. set (u0 := next_user (c_v c)) in *.
      eapply spec_bind; [apply IH; exact K1|]. intros [c2 l] (K2 & ND & A & B & C). cbn [spec].
      assert (Eg : v_gu (c_v c1) = upd (v_gu (c_v c)) u0 (Some g0)) by (rewrite E1; reflexivity).
      assert (Eu : v_ug (c_v c1) = upd (v_ug (c_v c)) g0 (Some u0)) by (rewrite E1; reflexivity).
      assert (Ed : forall g, vd_deleted (v_data (c_v c1) g) = vd_deleted (v_data (c_v c) g)).
      { intros g. rewrite E1. cbn [v_show bind_user v_put set_data v_data]. updc; reflexivity. }
      assert (NI : ~ In u0 l).
      { intros I. destruct (A u0 I) as [X _]. rewrite Eg in X. unfold upd in X. rewrite N.eqb_refl in X. discriminate. }
      split; [exact K2|]. split; [constructor; assumption|]. split; [|split].
      * intros u [<-|I].
        -- split; [exact Fu|]. exists g0. rewrite (B u0 NI), Eg. unfold upd. rewrite N.eqb_refl. split; [reflexivity|].
           split; [|exact T1]. apply (vo_mode _ K g0 T1). exact M.
        -- destruct (A u I) as (X & g & Y & Z & W). rewrite Eg in X. unfold upd in X.
           destruct (N.eqb_spec u u0); [discriminate|]. split; [exact X|]. exists g. split; [exact Y|].
           rewrite Eu in Z. unfold upd in Z. destruct (N.eqb_spec g g0); [discriminate|]. split; [exact Z|]. rewrite <- Ed. exact W.
      * intros u H. cbn [In] in H. rewrite (B u) by tauto. rewrite Eg. unfold upd. destruct (N.eqb_spec u u0); [|reflexivity].
        exfalso. apply H. left. congruence.
      * intros g L D. destruct (N.eq_dec g g0) as [e|NG].
        -- subst g. assert (X : v_gu (c_v c2) u0 = Some g0). { rewrite (B u0 NI), Eg. unfold upd. rewrite N.eqb_refl. reflexivity. }
           apply (vo_ug _ K2) in X. congruence.
        -- apply C; [lia|]. rewrite Ed. exact D.
    + eapply spec_weaken; [apply IH; exact K|]. intros [c' l] (K2 & ND & A & B & C).
      split; [exact K2|]. split; [exact ND|]. split; [exact A|]. split; [exact B|].
      intros g L D. destruct (N.eq_dec g g0) as [e|NG]; [|apply C; [lia|exact D]].
      subst g. rewrite D in T. cbn [negb andb] in T.
      assert (X : v_ug (c_v c) g0 <> None).
      { intros E. apply (vo_mode _ K g0 D) in E. rewrite E in T. discriminate. }
      destruct (v_ug (c_v c) g0) as [u|] eqn:E; [|congruence].
      pose proof E as E'. apply (vo_ug _ K) in E'. assert (NI : ~ In u l). { intros I. destruct (A u I) as [Z _]. congruence. }
      rewrite <- (B u NI) in E'. apply (vo_ug _ K2) in E'. congruence.
Qed.

(** * Every call *)
Lemma new_var_post c : vars_ok (c_v c) -> post (new_user_var c) (fun '(c', u) =>
  vars_ok (c_v c') /\ v_gu (c_v c) u = None /\
  (exists g, v_gu (c_v c') u = Some g /\ vd_deleted (v_data (c_v c) g) = true) /\
  (forall w, w <> u -> v_gu (c_v c') w = v_gu (c_v c) w)).
Proof.
  intros K. unfold new_user_var. cbv zeta. destruct (next_user_free _ K) as [F L]. set (u := next_user (c_v c)) in *.
  eapply post_bind.
  { intros r E. exact (spec_get _ _ _ (global_from_user_grew u false c K) E). }
  intros [c1 g] (G1 & A & _). apply post_ret. split; [apply A|]. split; [exact F|].
  split; [exists g; split; [exact G1|]; exact (gr_alive _ _ _ A u g F G1)|].
  intros w NE. destruct (v_gu (c_v c) w) as [h|] eqn:E; [exact (gr_keep _ _ _ A w h E)|].
  destruct (v_gu (c_v c1) w) as [h|] eqn:E'; [|reflexivity]. exfalso.
  destruct (gr_new _ _ _ A w E) as [H|(H & w' & -> & H')]; [congruence|congruence|lia].
Qed.

Lemma run_vars fuel k c : vars_ok (c_v c) -> post (run fuel k c) (fun r => vars_ok (c_v (fst r)) /\
  forall u g, k <> CHide u -> v_gu (c_v c) u = Some g -> v_gu (c_v (fst r)) u = Some g).
Proof.
  intros K.
  assert (Same : forall r : ctx * answer, c_v (fst r) = c_v c -> vars_ok (c_v (fst r)) /\
    forall u g, k <> CHide u -> v_gu (c_v c) u = Some g -> v_gu (c_v (fst r)) u = Some g).
  { intros r E. rewrite E. auto. }
  destruct k; cbn [run].
  - eapply post_bind; [apply load_grew; exact K|]. intros c' G. apply post_ret. cbn [fst]. split; [apply G|].
    intros u g _. apply (gr_keep _ _ _ G).
  - eapply post_bind; [apply (new_var_post (set_empty c false)); exact K|]. intros [c' u] (K' & F & _ & R). apply post_ret.
    cbn [fst]. split; [exact K'|]. intros w g _ H. rewrite R; [exact H|].
    intros e. rewrite e in H. cbn [set_empty cw_st c_v] in F. congruence.
  - eapply post_bind; [apply mode_post; exact K|]. intros c' (K' & A & _). apply post_ret. split; [exact K'|].
    intros u g _. apply A. right. discriminate.
  - eapply post_bind; [apply mode_post; exact K|]. intros c' (K' & A & _). apply post_ret. split; [exact K'|].
    intros u g _. apply A. right. discriminate.
  - eapply post_bind; [apply mode_post; exact K|]. intros c' (K' & A & _). apply post_ret. split; [exact K'|].
    intros u g NE. apply A. left. congruence.
  - eapply post_bind.
    { intros r E. unfold observe_internal_vars in E. exact (spec_get _ _ _ (observe_loop_spec _ _ _ K) E). }
    intros [c' l] (K' & _ & A & B & _). apply post_ret. split; [exact K'|]. cbn [fst]. intros u g _ H.
    rewrite B; [exact H|]. intros I. destruct (A u I). congruence.
  - eapply post_bind; [apply assume_grew; exact K|]. intros c' G. apply post_ret. cbn [fst]. split; [apply G|].
    intros u g _. apply (gr_keep _ _ _ G).
  - eapply post_weaken; [apply q_solve|]. intros r Q. cbn [fst] in *. split; [eapply quiet_ok; eassumption|].
    intros u g _. destruct (quiet_names _ _ Q) as (-> & _). auto.
  - destruct (st_empty (c_st c)); [|apply post_panic]. apply post_ret. apply Same. reflexivity.
  - eapply post_bind.
    { intros r E. exact (spec_get _ _ _ (close_proof_spec c) E). }
    intros c' F. unfold take_error. pose proof (frame_v _ _ F).
    destruct (st_error (c_st c')); apply post_ret; apply Same; assumption.
  - destruct (st_empty (c_st c)); [|apply post_panic]. apply post_ret. apply Same. reflexivity.
  - destruct (update_apply u (c_cfg c)) as [[] cfg]; [|apply post_ret; apply Same; reflexivity].
    destruct (_ && _); [|apply post_panic]. apply post_ret. apply Same. reflexivity.
Qed.

Definition reachable (c : ctx) : Prop :=
  exists fuel ks pick judge io answers, run_all fuel ks (ctx_default pick judge io) = Ret (c, answers).

Lemma run_all_vars fuel ks : forall c, vars_ok (c_v c) -> post (run_all fuel ks c) (fun r => vars_ok (c_v (fst r)) /\
  forall u g, ~ In (CHide u) ks -> v_gu (c_v c) u = Some g -> v_gu (c_v (fst r)) u = Some g).
Proof.
  induction ks as [|k ks IH]; intros c K; cbn [run_all]; [apply post_ret; auto|].
  eapply post_bind; [apply run_vars; exact K|]. intros [c1 a] [K1 A]. eapply post_bind; [apply IH; exact K1|].
  intros [c2 r] [K2 B]. apply post_ret. cbn [fst] in *. split; [exact K2|]. intros u g NI H.
  apply B; [intros I; apply NI; right; exact I|]. apply A; [|exact H]. intros e. apply NI. left. congruence.
Qed.
Lemma reachable_ok c : reachable c -> vars_ok (c_v c).
Proof.
  intros (fuel & ks & pick & judge & io & answers & E).
  destruct (run_all_vars fuel ks (ctx_default pick judge io) (vars_default_ok pick) _ E) as [K _]. exact K.
Qed.

(** After any sequence of calls the two pairs of maps are inverse to each other, and a variable
    with a name of either kind is not a deleted one. *)
Theorem C30_maps : forall c, reachable c ->
  (forall u g, v_gu (c_v c) u = Some g <-> v_ug (c_v c) g = Some u) /\
  (forall g x, v_sg (c_v c) g = Some x <-> v_gs (c_v c) x = Some g) /\
  (forall g, v_ug (c_v c) g <> None \/ v_sg (c_v c) g <> None -> vd_deleted (v_data (c_v c) g) = false) /\
  (forall u u' g, v_gu (c_v c) u = Some g -> v_gu (c_v c) u' = Some g -> u = u') /\
  (forall x x' g, v_gs (c_v c) x = Some g -> v_gs (c_v c) x' = Some g -> x = x').
Proof.
  intros c R. pose proof (reachable_ok c R) as K. split; [apply K|]. split; [apply K|]. split; [|split].
  - intros g [H|H].
    + destruct (v_ug (c_v c) g) eqn:E; [|congruence]. exact (vo_named _ K _ _ E).
    + destruct (v_sg (c_v c) g) eqn:E; [|congruence]. exact (vo_used _ K _ _ E).
  - intros u u' g A B. apply (vo_ug _ K) in A, B. congruence.
  - intros u u' g A B. apply (vo_sg _ K) in A, B. congruence.
Qed.
Print Assumptions C30_maps.

(** A new variable has a name that was not in use, stands for a variable that did not exist, and
    no other name changes. *)
Theorem C30_new_var : forall fuel c c' u, reachable c -> run fuel CNewVar c = Ret (c', AVar u) ->
  v_gu (c_v c) u = None /\
  (exists g, v_gu (c_v c') u = Some g /\ vd_deleted (v_data (c_v c) g) = true) /\
  (forall w, w <> u -> v_gu (c_v c') w = v_gu (c_v c) w).
Proof.
  intros fuel c c' u R E. cbn [run] in E.
  pose proof (new_var_post (set_empty c false) (reachable_ok c R)) as P.
  destruct (new_user_var (set_empty c false)) as [[c1 w]|p|] eqn:En; cbn [bind] in E; try discriminate.
  injection E as <- <-. destruct (P _ eq_refl) as (_ & A & B & C). split; [exact A|]. split; [exact B|exact C].
Qed.
Print Assumptions C30_new_var.

(** Only hiding it frees a name: whatever else is called, the name stays in use for the same
    variable, and is not returned as a new one. *)
Theorem C30_recycling : forall fuel ks c c' answers u g, reachable c ->
  run_all fuel ks c = Ret (c', answers) -> v_gu (c_v c) u = Some g -> ~ In (CHide u) ks ->
  v_gu (c_v c') u = Some g /\
  (forall c2 w, run fuel CNewVar c' = Ret (c2, AVar w) -> w <> u) /\
  (forall c2 l, run fuel CObserve c' = Ret (c2, AVars l) -> ~ In u l).
Proof.
  intros fuel ks c c' answers u g R E G NI. pose proof (reachable_ok c R) as K.
  destruct (run_all_vars fuel ks c K _ E) as [K' A]. cbn [fst] in *. specialize (A u g NI G).
  split; [exact A|]. split.
  - intros c2 w Ew e. subst w. cbn [run] in Ew.
    pose proof (new_var_post (set_empty c' false) K') as P.
    destruct (new_user_var (set_empty c' false)) as [[c1 w]|p|]; cbn [bind] in Ew; try discriminate.
    injection Ew as -> ->. destruct (P _ eq_refl) as (_ & B & _). cbn [set_empty cw_st c_v] in B. congruence.
  - intros c2 l El I. cbn [run] in El. unfold observe_internal_vars in El.
    pose proof (observe_loop_spec (N.to_nat (v_glen (c_v c'))) 0 c' K') as P.
    destruct (observe_loop _ _ _) as [[c1 l']|p|]; cbn [bind spec] in *; try discriminate.
    injection El as -> ->. destruct P as (_ & _ & B & _). destruct (B u I). congruence.
Qed.
Print Assumptions C30_recycling.

(** Hiding frees exactly that name. *)
Theorem C30_hide : forall fuel c c' u a, reachable c -> run fuel (CHide u) c = Ret (c', a) ->
  v_gu (c_v c') u = None /\ forall w g, w <> u -> v_gu (c_v c) w = Some g -> v_gu (c_v c') w = Some g.
Proof.
  intros fuel c c' u a R E. cbn [run] in E. pose proof (mode_post u Hide c (reachable_ok c R)) as P.
  destruct (change_mode u Hide c) as [c1|p|]; cbn [bind] in E; try discriminate. injection E as <- <-.
  destruct (P _ eq_refl) as (_ & A & B & _). split; [auto|]. intros w g NE. apply A. left. exact NE.
Qed.
Print Assumptions C30_hide.

(** Observing names exactly the existing variables without a name, with distinct unused names. *)
Theorem C30_observe : forall fuel c c' l, reachable c -> run fuel CObserve c = Ret (c', AVars l) ->
  NoDup l /\
  (forall u, In u l -> v_gu (c_v c) u = None /\
     exists g, v_gu (c_v c') u = Some g /\ v_ug (c_v c) g = None /\ vd_deleted (v_data (c_v c) g) = false) /\
  (forall u, ~ In u l -> v_gu (c_v c') u = v_gu (c_v c) u) /\
  (forall g, vd_deleted (v_data (c_v c) g) = false -> exists u, v_gu (c_v c') u = Some g).
Proof.
  intros fuel c c' l R E. pose proof (reachable_ok c R) as K. cbn [run] in E. unfold observe_internal_vars in E.
  pose proof (observe_loop_spec (N.to_nat (v_glen (c_v c))) 0 c K) as P.
  destruct (observe_loop _ _ _) as [[c1 l']|p|]; cbn [bind spec] in *; try discriminate.
  injection E as -> ->. destruct P as (K' & ND & A & B & C). split; [exact ND|]. split; [exact A|]. split; [exact B|].
  intros g D. assert (X : v_ug (c_v c') g <> None).
  { apply C; [|exact D]. pose proof (vo_g _ K g D). lia. }
  destruct (v_ug (c_v c') g) as [u|] eqn:Eu; [|congruence]. exists u. apply (vo_ug _ K'). exact Eu.
Qed.
Print Assumptions C30_observe.

(** A case: three variables in two clauses, the first is hidden and its name returned as new for a
    fourth variable; then the first variable is observed under the name 3. *)
Definition ex_calls := [CAdd [0; 2]; CAdd [1; 4]; CHide 0; CNewVar; CObserve].
Definition ex_start := ctx_default (fun _ => 0%nat) (fun _ => VOk) (fun _ => false).
Definition ex_ok (r : out (ctx * list answer)) : bool :=
  match r with
  | Ret (c, [ANone; ANone; ANone; AVar 0; AVars [3]]) =>
      match map (v_gu (c_v c)) [0; 1; 2; 3; 4] with
      | [Some 3; Some 1; Some 2; Some 0; None] => true
      | _ => false
      end
  | _ => false
  end.
Example ex_vars : ex_ok (run_all 30 ex_calls ex_start) = true.
Proof. vm_compute. reflexivity. Qed.
Lemma ex_ok_reachable ks r : run_all 30 ks ex_start = r -> ex_ok r = true -> exists c, reachable c.
Proof.
  intros E H. destruct r as [[c a]|p|]; try discriminate. exists c. exists 30%nat, ks, (fun _ => 0%nat), (fun _ => VOk), (fun _ => false), a.
  exact E.
Qed.
