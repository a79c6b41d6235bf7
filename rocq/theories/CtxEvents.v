(** Every function of the solver changes proof, stored error and solver names only through the
    functions of proof.rs. *)
From Coq Require Import Lia Arith ZArith ZifyBool ZifyNat ZifyN.
From Verif Require Import Spec Lit LitProofs BinFormat Hash F32 Vsids VsidsProofs Luby Config Search SearchBase ClauseDb
  Analyze SolverCtx CtxFrame Solver.
Local Open Scope N_scope.

(** Steps with rules of their own *)
Definition is_name (s : proof_step) : bool := match s with SolverVarName _ _ | End => true | _ => false end.
Definition is_bits (s : proof_step) : bool := match s with ChangeHashBits _ => true | _ => false end.

(** Nothing relevant changes *)
Definition same (c c' : ctx) : Prop :=
  (st_sat (c_st c') = st_sat (c_st c) /\ c_cfg c' = c_cfg c) /\ c_pf c' = c_pf c /\ st_error (c_st c') = st_error (c_st c) /\ st_invoked (c_st c') = st_invoked (c_st c) /\
  st_invalid (c_st c') = st_invalid (c_st c) /\ v_sg (c_v c') = v_sg (c_v c) /\ v_gs (c_v c') = v_gs (c_v c).
(** Only the names change *)
Definition renamed (c c' : ctx) sg gs : Prop :=
  (st_sat (c_st c') = st_sat (c_st c) /\ c_cfg c' = c_cfg c) /\ c_pf c' = c_pf c /\ st_error (c_st c') = st_error (c_st c) /\ st_invoked (c_st c') = st_invoked (c_st c) /\
  st_invalid (c_st c') = st_invalid (c_st c) /\ v_sg (c_v c') = sg /\ v_gs (c_v c') = gs.

(** The flag tells whether the answer of the solver may change. *)
Inductive ev1 (f : bool) : ctx -> ctx -> Prop :=
| e_same c c' : same c c' -> ev1 f c c'
| e_sat c x : f = true -> ev1 f c (set_sat c x)
| e_cfg c u : f = true -> ev1 f c (cw_cfg c (snd (update_apply u (c_cfg c))))
| e_step sv s c c' : is_name s = false -> is_bits s = false -> add_step sv s c = Ret c' -> ev1 f c c'
| e_load cl c c' : p_checker (c_pf c) = true -> ask_checker c (EvLoad cl) = Ret c' -> st_invoked (c_st c) = false -> ev1 f c c'
| e_count c n : ev1 f c (cw_pf c (p_set_count (c_pf c) n))
| e_use c c1 c' g x : renamed c c1 (upd (v_sg (c_v c)) g (Some x)) (upd (v_gs (c_v c)) x (Some g)) ->
    add_step false (SolverVarName g (Some x)) c1 = Ret c' -> ev1 f c c'
| e_unuse c c1 c' g x : renamed c c1 (upd (v_sg (c_v c)) g None) (upd (v_gs (c_v c)) x None) ->
    add_step false (SolverVarName g None) c1 = Ret c' -> ev1 f c c'.
Inductive ev (f : bool) : ctx -> ctx -> Prop :=
| ev_nil c : ev f c c
| ev_cons c c1 c' : ev1 f c c1 -> ev f c1 c' -> ev f c c'.
Section events.
Context {sets : bool}.
Notation ev1 := (ev1 sets).
Notation ev := (ev sets).
Lemma ev_refl c : ev c c.
Proof. constructor. Qed.
Lemma ev_trans a b c : ev a b -> ev b c -> ev a c.
Proof. induction 1; intros Q; [exact Q|]. econstructor; eauto. Qed.
Lemma ev_one a b : ev1 a b -> ev a b.
Proof. intros Q. econstructor; [exact Q|constructor]. Qed.
Lemma ev_same c c' : same c c' -> ev c c'.
Proof. intros H. apply ev_one, e_same, H. Qed.
Ltac sm := apply ev_same; repeat split; reflexivity.
Lemma ev_then c c1 c' : ev c c1 -> same c1 c' -> ev c c'.
Proof. intros A B. eapply ev_trans; [exact A|apply ev_same; exact B]. Qed.
Ltac smt := repeat split; reflexivity.

Definition epost (m : out ctx) (c : ctx) : Prop := post m (fun c' => ev c c').
Definition epost2 {A} (m : out (ctx * A)) (c : ctx) : Prop := post m (fun r => ev c (fst r)).
Lemma t_ret c c' : ev c c' -> epost (Ret c') c.
Proof. intros Q. apply post_ret. exact Q. Qed.
Lemma t_ret2 {A} c c' (a : A) : ev c c' -> epost2 (Ret (c', a)) c.
Proof. intros Q. apply post_ret. exact Q. Qed.
Lemma t_bind {B} (m : out ctx) (f : ctx -> out B) c (Q : B -> Prop) :
  epost m c -> (forall c', ev c c' -> post (f c') Q) -> post (bind m f) Q.
Proof. intros H K. eapply post_bind; [exact H|]. exact K. Qed.
Lemma t_bind2 {A B} (m : out (ctx * A)) (f : ctx * A -> out B) c (Q : B -> Prop) :
  epost2 m c -> (forall c' a, ev c c' -> post (f (c', a)) Q) -> post (bind m f) Q.
Proof. intros H K. eapply post_bind; [exact H|]. intros [c' a] X. apply K. exact X. Qed.
Lemma t_seq (m : out ctx) c c0 : ev c0 c -> epost m c -> epost m c0.
Proof. intros Q H. eapply post_weaken; [exact H|]. intros c' Q'. eapply ev_trans; eassumption. Qed.
Lemma t_seq2 {A} (m : out (ctx * A)) c c0 : ev c0 c -> epost2 m c -> epost2 m c0.
Proof. intros Q H. eapply post_weaken; [exact H|]. intros c' Q'. eapply ev_trans; eassumption. Qed.

Lemma t_add_step sv s c : is_name s = false -> is_bits s = false -> epost (add_step sv s c) c.
Proof. intros A B c' E. apply ev_one. econstructor; eassumption. Qed.
Lemma t_add_step_at sv s c c0 : is_name s = false -> is_bits s = false -> same c0 c -> epost (add_step sv s c) c0.
Proof. intros A B S. eapply t_seq; [apply ev_same; exact S|]. apply t_add_step; assumption. Qed.
Lemma t_add_steps sv l : (forall s, In s l -> is_name s = false /\ is_bits s = false) -> forall c, epost (add_steps sv l c) c.
Proof.
  induction l as [|s l IH]; intros H c; cbn [add_steps]; [apply t_ret; apply ev_refl|].
  eapply t_bind; [apply t_add_step; apply H; left; reflexivity|]. intros c' Q. eapply t_seq; [exact Q|].
  apply IH. intros s' I. apply H. right. exact I.
Qed.
Lemma t_proof_add_clause cl c : epost (proof_add_clause cl c) c.
Proof.
  unfold proof_add_clause. destruct (st_invoked (c_st c)) eqn:Inv; [apply t_add_step; reflexivity|].
  eapply t_bind with (c := c).
  - destruct (p_checker (c_pf c)) eqn:P; [|apply t_ret; apply ev_refl].
    destruct (map_lits (v_gs (c_v c)) cl); [|apply post_panic]. intros c' E. apply ev_one. eapply e_load; eassumption.
  - intros c' Q. apply t_ret. destruct (Nat.ltb 1 (length cl)); [|exact Q].
    eapply ev_trans; [exact Q|]. apply ev_one. apply e_count.
Qed.

Lemma backtrack_same n c : same c (backtrack_to n c).
Proof. unfold backtrack_to. destruct (backtrack _ _ _). smt. Qed.
Lemma full_restart_same c : same c (full_restart c).
Proof. unfold full_restart. exact (backtrack_same 0 (set_levels 0 c)). Qed.
Lemma restart_same c : same c (restart c).
Proof. unfold restart. apply backtrack_same. Qed.
Lemma same_trans a b c : same a b -> same b c -> same a c.
Proof. intros ((S0&S1)&A) ((T0&T1)&B). split; [split; congruence|]. destruct A as (?&?&?&?&?&?), B as (?&?&?&?&?&?). repeat split; congruence. Qed.
Lemma same_refl a : same a a.
Proof. smt. Qed.

Lemma t_delete g c : epost (delete_global_if_unused g c) c.
Proof.
  unfold delete_global_if_unused. cbv zeta.
  destruct (v_ug _ _); [apply t_ret; apply ev_refl|]. destruct (v_sg _ _); [apply t_ret; apply ev_refl|].
  destruct (negb (smode_eqb _ _)); [apply post_panic|]. destruct (negb _); [apply t_ret; apply ev_refl|].
  eapply t_bind with (c := c); [apply t_add_step_at; [reflexivity|reflexivity|smt]|]. intros c' Q. apply t_ret.
  eapply ev_then; [exact Q|smt].
Qed.
Lemma t_remove x c : epost (remove_solver_var x c) c.
Proof.
  unfold remove_solver_var. cbv zeta. cbn [cw_vs c_v]. destruct (v_gs (c_v c) x) as [g|] eqn:G; [|apply post_panic].
  eapply t_bind with (c := c).
  - intros c1 E. apply ev_one. eapply e_unuse with (x := x) (g := g); [|exact E]. repeat split; reflexivity.
  - intros c1 Q. eapply t_seq; [exact Q|apply t_delete].
Qed.
Lemma t_data x f c : epost (map_data_solver x f c) c.
Proof. unfold map_data_solver. destruct (v_gs (c_v c) x); [|apply post_panic]. apply t_ret. sm. Qed.
Lemma t_data_lits f l : forall c, epost (map_data_lits l f c) c.
Proof.
  induction l as [|x l IH]; intros c; cbn [map_data_lits]; [apply t_ret; apply ev_refl|].
  eapply t_bind; [apply t_data|]. intros c' Q. eapply t_seq; [exact Q|apply IH].
Qed.
Lemma t_simplify_var x c : epost (simplify_var x c) c.
Proof.
  unfold simplify_var. destruct (v_gs (c_v c) x) as [g|]; [|apply t_ret; apply ev_refl]. cbv zeta.
  destruct (vd_isolated _ && negb _); [eapply t_seq; [|apply t_remove]; sm|apply t_ret; sm].
Qed.
Lemma t_simplify_vars l : forall c, epost (simplify_vars l c) c.
Proof.
  induction l as [|x l IH]; intros c; cbn [simplify_vars]; [apply t_ret; apply ev_refl|].
  eapply t_bind; [apply t_simplify_var|]. intros c' Q. eapply t_seq; [exact Q|apply IH].
Qed.
Lemma t_simplify_clause x c : epost2 (simplify_clause x c) c.
Proof.
  unfold simplify_clause. cbv zeta. destruct (open_lits _ _) as [ls|].
  - destruct (Nat.ltb _ _); [|apply t_ret2; apply ev_refl].
    eapply t_bind; [apply t_add_step; reflexivity|]. intros c1 Q1.
    eapply t_bind; [apply t_add_step; reflexivity|]. intros c2 Q2.
    pose proof (ev_trans _ _ _ Q1 Q2) as Q.
    destruct ls as [|a [|b [|d ls]]]; try apply post_panic; apply t_ret2; (eapply ev_then; [exact Q|smt]).
  - eapply t_bind; [apply t_add_step; reflexivity|]. intros c1 Q1. apply t_ret2. exact Q1.
Qed.
Lemma t_filter_loop l : forall c, epost2 (filter_loop l c) c.
Proof.
  induction l as [|x l IH]; intros c; cbn [filter_loop]; [apply t_ret2; apply ev_refl|].
  destruct (deleted (c_d c) x); [apply IH|].
  eapply t_bind2; [apply t_simplify_clause|]. intros c' keep Q. cbv zeta.
  eapply t_bind2; [apply IH|]. intros c2 r Q2. apply t_ret2. eapply ev_trans; [exact Q|].
  destruct keep; [exact Q2|]. eapply ev_trans; [|exact Q2]. sm.
Qed.
Lemma t_unit_simplify c : epost (unit_simplify c) c.
Proof.
  unfold unit_simplify. eapply t_bind with (c := c).
  - unfold simplify_binary. cbv zeta. eapply t_bind.
    { apply t_add_steps. intros s I. apply in_flat_map in I. destruct I as (l & _ & I). unfold binary_steps in I.
      apply in_map_iff in I. destruct I as (o & <- & _). split; reflexivity. }
    intros c' Q. apply t_ret. eapply ev_then; [exact Q|smt].
  - intros c1 Q1. eapply t_bind with (c := c1).
    + unfold filter_clauses. cbv zeta. eapply t_bind2; [apply t_filter_loop|]. intros c' r Q. apply t_ret.
      eapply ev_trans; [|eapply ev_then; [exact Q|smt]]. sm.
    + intros c2 Q2. eapply t_seq; [eapply ev_trans; eassumption|apply t_simplify_vars].
Qed.
Lemma t_prove_units c : epost2 (prove_units c) c.
Proof.
  unfold prove_units. destruct (Nat.eqb _ _); [|apply t_ret2; apply ev_refl]. cbv zeta.
  destruct (unit_proofs _ _) as [s ps]. destruct (trail_clear s) as [s'|]; [|apply post_panic].
  eapply t_bind with (c := c).
  - destruct ps; [apply t_ret; sm|]. apply t_add_step_at; [reflexivity|reflexivity|smt].
  - intros c' Q. apply t_ret2. exact Q.
Qed.
Lemma t_enqueue_loop n : forall c, epost2 (enqueue_loop n c) c.
Proof.
  induction n as [|n IH]; intros c; cbn [enqueue_loop]; cbv zeta; destruct (nth_error _ _) as [a|];
    try (apply t_ret2; apply ev_refl).
  all: destruct (lfalse _ _).
  1,3: eapply t_bind with (c := c); [|intros c' Q; apply t_ret2; exact Q];
       unfold analyze_assumption_conflict; destruct (failed_core_of _ _ _ _) as [[? ?] ?];
       eapply post_bind with (P := fun _ => True); [intros ? ?; exact Logic.I|];
       intros us _; cbv zeta; apply t_add_step_at; [reflexivity|reflexivity|smt].
  all: destruct (ltrue _ _); [|apply t_ret2; sm].
  - apply post_nofuel.
  - eapply t_seq2; [|apply IH]. sm.
Qed.
Lemma make_decision_same c : same c (fst (make_decision c)).
Proof. unfold make_decision. destruct (find_decision _ _ _) as [? [?|]]; smt. Qed.
Lemma t_find_conflict n : forall c, epost2 (find_conflict n c) c.
Proof.
  induction n as [|n IH]; intros c; cbn [find_conflict]; [apply post_nofuel|].
  destruct (propagate _ _ _ _) as [s r].
  assert (A : epost2 (do (c0, new_unit) <- prove_units (cw_s c s) ;
      match r with PConflict k => Ret (c0, FConflict k)
      | _ => do c1 <- (if new_unit then unit_simplify c0 else Ret c0) ;
             do (c2, e) <- enqueue_assumption c1 ;
             match e with
             | Done => let (c3, b) := make_decision c2 in if b then find_conflict n c3 else Ret (c3, FModel)
             | Enqueued => find_conflict n c2
             | Failed => Ret (c2, FAssumption)
             end
      end) c).
  { eapply t_bind2 with (c := c); [eapply t_seq2 with (c := cw_s c s); [sm|apply t_prove_units]|]. intros c0 nu Q0.
    assert (B : epost2 (do c1 <- (if nu then unit_simplify c0 else Ret c0) ;
             do (c2, e) <- enqueue_assumption c1 ;
             match e with
             | Done => let (c3, b) := make_decision c2 in if b then find_conflict n c3 else Ret (c3, FModel)
             | Enqueued => find_conflict n c2
             | Failed => Ret (c2, FAssumption)
             end) c).
    { eapply t_bind with (c := c0); [destruct nu; [apply t_unit_simplify|apply t_ret; apply ev_refl]|].
      intros c1 Q1. eapply t_bind2; [apply t_enqueue_loop|]. intros c2 e Q2.
      pose proof (ev_trans _ _ _ Q0 (ev_trans _ _ _ Q1 Q2)) as Q.
      destruct e; [|eapply t_seq2; [exact Q|apply IH]|apply t_ret2; exact Q].
      pose proof (make_decision_same c2) as V. destruct (make_decision c2) as [c3 b]. cbn [fst] in V.
      assert (Q3 : ev c c3) by (eapply ev_then; eassumption).
      destruct b; [eapply t_seq2; [exact Q3|apply IH]|apply t_ret2; exact Q3]. }
    destruct r; try exact B. apply t_ret2. exact Q0. }
  destruct r; try exact A; [apply post_panic|apply post_nofuel].
Qed.
Lemma t_db_add h l c : epost2 (db_add_clause h l c) c.
Proof.
  unfold db_add_clause. destruct (add_long _ _ _ _) as [[s d] cref]. destruct (d_full d); [apply post_panic|].
  apply t_ret2. sm.
Qed.
End events.
Arguments epost : clear implicits. Arguments epost2 sets {A}.
Lemma ev_lift c c' : ev false c c' -> ev true c c'.
Proof.
  induction 1; [constructor|]. eapply ev_cons; [|eassumption]. destruct H; [apply e_same; assumption|discriminate|discriminate|..].
  - eapply e_step; eassumption.
  - eapply e_load; eassumption.
  - apply e_count.
  - eapply e_use; eassumption.
  - eapply e_unuse; eassumption.
Qed.
Lemma ev_sat c c' x : ev true c c' -> ev true c (set_sat c' x).
Proof. intros H. eapply ev_trans; [exact H|]. apply ev_one. apply e_sat. reflexivity. Qed.

Ltac sm := apply ev_same; repeat split; reflexivity.
Ltac smt := repeat split; reflexivity.
Ltac sat := apply ev_sat.
Lemma t_learn cl c : epost true (learn_clause cl c) c.
Proof.
  unfold learn_clause. destruct cl as [|a [|b [|d cl]]]; [apply t_ret; sat; sm|apply t_ret; sm|apply t_ret; sm|].
  destruct (assess_learned _ _ _) as [fl h]. eapply t_bind2 with (c := c); [eapply t_seq2; [|apply t_db_add]; sm|].
  intros c' x Q. apply t_ret. eapply ev_then; [exact Q|smt].
Qed.
Lemma t_conflict_step n c : epost true (conflict_step n c) c.
Proof.
  unfold conflict_step. eapply t_bind2; [apply t_find_conflict|]. intros c1 f Q1. destruct f.
  - unfold reconstruct_global_model. cbv zeta. eapply t_bind with (c := c1).
    + destruct (p_native _); [apply t_add_step_at; [reflexivity|reflexivity|smt]|apply t_ret; sm].
    + intros c2 Q2. apply t_ret. sat. eapply ev_trans; [exact Q1|exact Q2].
  - apply t_ret. sat. exact Q1.
  - destruct (analyze_conflict _ _ _ _ _ _) as [[vs a] bt]. destruct (a_fuel a); [apply post_nofuel|]. cbv zeta.
    destruct (bump_clauses _ _ _ _) as [d fl].
    eapply t_bind with (c := c1).
    + apply t_add_step_at; [reflexivity|reflexivity|]. eapply same_trans; [|apply backtrack_same]. smt.
    + intros c2 Q2. eapply t_seq; [eapply ev_trans; [exact Q1|exact Q2]|apply t_learn].
Qed.
Lemma t_schedule_step n c : epost2 true (schedule_step n c) c.
Proof.
  unfold schedule_step.
  destruct (st_sat (c_st c)); try (apply t_ret2; apply ev_refl).
  destruct (st_error (c_st c)); [apply t_ret2; apply ev_refl|]. cbv zeta.
  set (c1 := if sc_next (c_sc c) =? sc_conflicts (c_sc c) then _ else c).
  assert (E1 : same c c1).
  { unfold c1. destruct (_ =? _); [|apply same_refl]. destruct (luby_advance _).
    eapply same_trans; [apply restart_same|smt]. }
  clearbody c1. eapply t_bind with (c := c1).
  { destruct (_ =? _); [|apply t_ret; apply ev_refl]. destruct (reduce_locals _ _) as [[s d] out].
    eapply t_seq with (c := cw_d (cw_s c1 s) d); [sm|]. apply t_add_steps.
    intros st I. apply in_map_iff in I. destruct I as (x & <- & _). split; reflexivity. }
  intros c2 Q2.
  set (c3 := if _ =? _ then cw_d c2 _ else c2).
  assert (E3 : same c2 c3) by (unfold c3; destruct (_ =? _); smt). clearbody c3.
  destruct (collect_garbage _ _) as [[s d]|]; [|apply post_panic]. destruct (d_full d); [apply post_panic|].
  eapply t_bind with (c := c3); [eapply t_seq; [|apply t_conflict_step]; sm|]. intros c4 Q4.
  apply t_ret2. eapply ev_trans; [apply ev_same; exact E1|]. eapply ev_trans; [exact Q2|].
  eapply ev_trans; [apply ev_same; exact E3|]. eapply ev_then; [exact Q4|smt].
Qed.
Lemma t_schedule_loop n m : forall c, epost true (schedule_loop n m c) c.
Proof.
  induction m as [|m IH]; intros c; cbn [schedule_loop]; [apply post_nofuel|].
  eapply t_bind2; [apply t_schedule_step|]. intros c' [] Q; [eapply t_seq; [exact Q|apply IH]|apply t_ret; exact Q].
Qed.

(** * The other calls *)
Lemma t_global_from_user1 {f} u rs c : epost2 f (global_from_user1 u rs c) c.
Proof.
  unfold global_from_user1. destruct (v_gu _ _).
  - destruct (rs && _); [apply post_panic|apply t_ret2; apply ev_refl].
  - cbv zeta. eapply t_bind with (c := c); [apply t_add_step_at; [reflexivity|reflexivity|smt]|].
    intros c' Q. apply t_ret2. exact Q.
Qed.
Lemma t_fill_users {f} n : forall c, epost f (fill_users n c) c.
Proof.
  induction n as [|n IH]; intros c; cbn [fill_users]; [apply t_ret; apply ev_refl|].
  eapply t_bind2; [apply t_global_from_user1|]. intros c' a Q. eapply t_seq; [exact Q|apply IH].
Qed.
Lemma t_global_from_user {f} u rs c : epost2 f (global_from_user u rs c) c.
Proof.
  unfold global_from_user. eapply t_bind; [apply t_fill_users|]. intros c' Q. eapply t_seq2; [exact Q|apply t_global_from_user1].
Qed.
Lemma t_solver_from_global {f} g c : epost2 f (solver_from_global g c) c.
Proof.
  unfold solver_from_global. destruct (v_sg (c_v c) g) eqn:E; [apply t_ret2; apply ev_refl|]. cbv zeta.
  eapply post_bind with (P := fun c1 => renamed c c1 (upd (v_sg (c_v c)) g (Some (next_solver (c_v c))))
                                          (upd (v_gs (c_v c)) (next_solver (c_v c)) (Some g))).
  - unfold initialize_solver_var. cbv zeta. destruct (vsids_reset _ _); [|apply post_panic]. apply post_ret. smt.
  - intros c1 R. eapply t_bind with (c := c); [|intros c' Q; apply t_ret2; exact Q].
    intros c' E'. apply ev_one. eapply e_use; eassumption.
Qed.
Lemma t_solver_from_user_lits {f} rs l : forall c, epost2 f (solver_from_user_lits l rs c) c.
Proof.
  induction l as [|x l IH]; intros c; cbn [solver_from_user_lits]; [apply t_ret2; apply ev_refl|].
  eapply t_bind2 with (c := c).
  - unfold solver_from_user. eapply t_bind2; [apply t_global_from_user|]. intros c' g Q.
    eapply t_seq2; [exact Q|apply t_solver_from_global].
  - intros c1 y Q1. eapply t_bind2; [apply IH|]. intros c2 r Q2. apply t_ret2. eapply ev_trans; eassumption.
Qed.
Lemma t_load l c : epost true (load_clause l c) c.
Proof.
  unfold load_clause.
  assert (R : forall c1 : ctx, ev true c c1 -> epost true
    (do (c, lits) <- solver_from_user_lits l true c1 ;
      let lits := dedup_n (sort_n lits) in
      do c <- proof_add_clause lits c ;
      if tautology lits then Ret c
      else
        do c <- (if Nat.ltb 1 (length lits) then map_data_lits lits (fun d => vd_set_isolated d false) c
                 else Ret c) ;
        let '(kept, false_lits, clause_is_true) := scan_lits (c_s c) lits in
        let will_conflict := match kept with [] => true | _ => false end in
        let c := cw_s c (fold_left (fun s l => resurrect_unit s (lnot l)) false_lits (c_s c)) in
        let lits := kept ++ false_lits in
        if clause_is_true then
          if Nat.ltb 1 (length lits) then add_step true (DeleteClause lits DSatisfied) c else Ret c
        else
          match lits with
          | [] => Ret (set_sat c Unsat)
          | [lit] => if will_conflict then Ret (set_sat c Unsat)
                     else Ret (cw_s c (enqueue (c_s c) lit RUnit))
          | [l0; l1] => Ret (add_binary_clause l0 l1 c)
          | _ => do (c, _) <- db_add_clause (set_tier hdr_new Irred) lits c ; Ret c
          end) c).
  { intros c0 E0. eapply t_bind2 with (c := c); [eapply t_seq2; [exact E0|apply t_solver_from_user_lits]|]. intros c1 lits Q1.
    cbv zeta. eapply t_bind; [apply t_proof_add_clause|]. intros c2 Q2.
    pose proof (ev_trans _ _ _ Q1 Q2) as Q. destruct (tautology _); [apply t_ret; exact Q|].
    eapply t_bind with (c := c2); [destruct (Nat.ltb 1 _); [apply t_data_lits|apply t_ret; apply ev_refl]|].
    intros c3 Q3. pose proof (ev_trans _ _ _ Q Q3) as Q4. destruct (scan_lits _ _) as [[kept fl] found].
    set (c4 := cw_s c3 _). assert (Q5 : ev true c c4) by (eapply ev_then; [exact Q4|smt]). clearbody c4.
    destruct found; [destruct (Nat.ltb _ _); [eapply t_seq; [exact Q5|apply t_add_step; reflexivity]|apply t_ret; exact Q5]|].
    destruct (kept ++ fl) as [|a [|b [|d r]]].
    - apply t_ret. sat. exact Q5.
    - destruct kept; apply t_ret; [sat; exact Q5|eapply ev_then; [exact Q5|smt]].
    - apply t_ret. eapply ev_then; [exact Q5|smt].
    - eapply t_bind2; [apply t_db_add|]. intros c5 x Q6. apply t_ret. eapply ev_trans; [exact Q5|exact Q6]. }
  destruct (st_sat (c_st c)); [| |apply t_ret; apply ev_refl|]; apply R.
  - apply ev_same. eapply same_trans; [|apply full_restart_same]; smt.
  - eapply ev_then; [apply ev_sat; apply ev_refl|]. eapply same_trans; [|apply full_restart_same]; smt.
  - apply ev_same. eapply same_trans; [|apply full_restart_same]; smt.
Qed.
Lemma t_assume l c : epost true (set_assumptions l c) c.
Proof.
  unfold set_assumptions. cbv zeta.
  set (c1 := match st_sat (c_st (full_restart c)) with Unsat => _ | _ => _ end).
  assert (E1 : ev true c c1).
  { assert (E : ev true c (full_restart c)) by (apply ev_same; apply full_restart_same).
    unfold c1. destruct (st_sat _); [sat; exact E|sat; exact E|exact E|sat; exact E]. }
  clearbody c1. eapply t_bind; [apply t_data_lits|]. intros c2 Q2.
  eapply t_bind2; [apply t_solver_from_user_lits|]. intros c3 lits Q3.
  eapply t_bind with (c := c3); [eapply t_seq; [|apply t_data_lits]; sm|]. intros c4 Q4.
  eapply t_seq; [|apply t_add_step; reflexivity].
  eapply ev_trans; [exact E1|]. eapply ev_trans; [exact Q2|]. eapply ev_trans; eassumption.
Qed.
Lemma t_set_mode {f} g m c : epost2 f (set_sampling_mode g m c) c.
Proof.
  unfold set_sampling_mode. cbv zeta. destruct (vd_deleted _); [apply post_panic|]. destruct (vd_assumed _); [apply post_panic|].
  destruct (smode_eqb _ m); [apply t_ret2; apply ev_refl|].
  eapply t_bind with (c := c).
  { destruct (smode_eqb m Hide); [apply t_ret; sm|apply t_add_step_at; [reflexivity|reflexivity|smt]]. }
  intros c1 Q1. destruct (smode_eqb _ Hide).
  - eapply t_bind with (c := c1); [apply t_add_step_at; [reflexivity|reflexivity|smt]|]. intros c2 Q2.
    apply t_ret2. eapply ev_trans; eassumption.
  - destruct (smode_eqb m Hide); [|apply t_ret2; exact Q1].
    eapply t_bind with (c := c1).
    { apply t_add_step_at; [reflexivity|reflexivity|]. destruct (v_ug _ _); smt. }
    intros c2 Q2. eapply t_bind; [apply t_delete|]. intros c3 Q3. apply t_ret2.
    eapply ev_trans; [exact Q1|]. eapply ev_trans; eassumption.
Qed.
Lemma t_observe {f} n : forall g c, epost2 f (observe_loop n g c) c.
Proof.
  induction n as [|n IH]; intros g c; cbn [observe_loop]; [apply t_ret2; apply ev_refl|]. cbv zeta.
  destruct (negb _ && _); [|apply IH]. eapply t_bind2; [apply t_set_mode|]. intros c1 u Q1.
  destruct u as [u|]; [|apply post_panic]. eapply t_bind2; [apply IH|]. intros c2 r Q2. apply t_ret2.
  eapply ev_trans; eassumption.
Qed.
Lemma t_mode {f} u m c : epost f (change_mode u m c) c.
Proof.
  unfold change_mode. eapply t_bind2; [apply t_global_from_user|]. intros c1 g Q1.
  eapply t_bind2; [apply t_set_mode|]. intros c2 r Q2. apply t_ret. eapply ev_trans; eassumption.
Qed.

(** The calls that neither solve nor configure the proof *)
Definition plain (k : call) : bool :=
  match k with CSolve | CWriteProof _ | CCloseProof | CCheck => false | _ => true end.
Lemma t_run fuel k c : plain k = true -> epost2 true (run fuel k c) c.
Proof.
  intros P. destruct k; try discriminate; cbn [run].
  - eapply t_bind; [apply t_load|]. intros c' Q. apply t_ret2. exact Q.
  - eapply t_bind2 with (c := c).
    + unfold new_user_var. cbv zeta. eapply t_bind2 with (c := c); [eapply t_seq2; [|apply t_global_from_user]; sm|].
      intros c' g Q. apply t_ret2. exact Q.
    + intros c' v Q. apply t_ret2. exact Q.
  - eapply t_bind; [apply t_mode|]. intros c' Q. apply t_ret2. exact Q.
  - eapply t_bind; [apply t_mode|]. intros c' Q. apply t_ret2. exact Q.
  - eapply t_bind; [apply t_mode|]. intros c' Q. apply t_ret2. exact Q.
  - eapply t_bind2; [apply t_observe|]. intros c' l Q. apply t_ret2. exact Q.
  - eapply t_bind; [apply t_assume|]. intros c' Q. apply t_ret2. exact Q.
  - destruct (update_apply u (c_cfg c)) as [[] cfg] eqn:Eu; [|apply t_ret2; apply ev_refl].
    destruct (_ && _); [|apply post_panic]. apply t_ret2.
    apply ev_then with (c1 := cw_cfg c (snd (update_apply u (c_cfg c)))); [apply ev_one; apply e_cfg; reflexivity|rewrite Eu; smt].
Qed.
