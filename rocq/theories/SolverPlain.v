(** Use of the solver without proofs and sampling modes: which panics and errors are left. *)
From Coq Require Import Lia Arith ZArith ZifyBool ZifyNat ZifyN.
From Verif Require Import Spec Lit LitProofs BinFormat Hash F32 Vsids VsidsProofs Luby Config P_Config Search SearchBase ClauseDb
  Analyze SolverCtx CtxFrame Solver.
Local Open Scope N_scope.

(** No proof, no checker, no error, and all variables of the user can be used in clauses *)
Record calm (c : ctx) : Prop := Calm {
  ca_format : p_format (c_pf c) = None;
  ca_checker : p_checker (c_pf c) = false;
  ca_error : st_error (c_st c) = None;
  ca_valid : st_invalid (c_st c) = false;
  ca_sample : forall u g, v_gu (c_v c) u = Some g -> vd_mode (v_data (c_v c) g) = Sample;
  ca_cfg : config_valid (c_cfg c) }.
Definition tame (p : panic) : Prop :=
  match p with PFull | PNoGlobal | PNoUser | PBounds | PInternal => True | _ => False end.
Definition calms (m : out ctx) : Prop := match m with Ret c => calm c | Panic p => tame p | NoFuel => True end.
Definition calms2 {A} (m : out (ctx * A)) : Prop := match m with Ret (c, _) => calm c | Panic p => tame p | NoFuel => True end.

Lemma calm_eq c c' : calm c -> c_pf c' = c_pf c -> st_error (c_st c') = st_error (c_st c) -> st_invalid (c_st c') = st_invalid (c_st c) ->
  v_gu (c_v c') = v_gu (c_v c) -> (forall g, vd_mode (v_data (c_v c') g) = vd_mode (v_data (c_v c) g)) -> c_cfg c' = c_cfg c -> calm c'.
Proof.
  intros [H1 H2 H3 H4 H5 H6] E1 E2 E3 E4 E5 E6. constructor; [congruence..| |rewrite E6; exact H6].
  intros u g. rewrite E4, E5. apply H5.
Qed.
Ltac ca H := apply (calm_eq _ _ H); try reflexivity; intros; reflexivity.
Lemma b_calm {B} (m : out ctx) (f : ctx -> out B) (Q : out B -> Prop) : calms m -> Q NoFuel -> (forall p, tame p -> Q (Panic p)) ->
  (forall c, calm c -> Q (f c)) -> Q (bind m f).
Proof. intros H N P K. destruct m; cbn in *; auto. Qed.
Lemma c_bind (m : out ctx) (f : ctx -> out ctx) : calms m -> (forall c, calm c -> calms (f c)) -> calms (bind m f).
Proof. intros H K. destruct m; cbn in *; auto. Qed.
Lemma c_bind2 {A} (m : out (ctx * A)) (f : ctx * A -> out ctx) : calms2 m -> (forall c a, calm c -> calms (f (c, a))) -> calms (bind m f).
Proof. intros H K. destruct m as [[c a]| |]; cbn in *; auto. Qed.
Lemma c_bind12 {A} (m : out ctx) (f : ctx -> out (ctx * A)) : calms m -> (forall c, calm c -> calms2 (f c)) -> calms2 (bind m f).
Proof. intros H K. destruct m; cbn in *; auto. Qed.
Lemma c_bind22 {A B} (m : out (ctx * A)) (f : ctx * A -> out (ctx * B)) : calms2 m -> (forall c a, calm c -> calms2 (f (c, a))) -> calms2 (bind m f).
Proof. intros H K. destruct m as [[c a]| |]; cbn in *; auto. Qed.

Lemma a_add_step sv s c : calm c -> add_step sv s c = Ret c.
Proof. intros H. unfold add_step, p_active. rewrite (ca_error _ H), (ca_format _ H), (ca_checker _ H). reflexivity. Qed.
Lemma a_step sv s c : calm c -> calms (add_step sv s c).
Proof. intros H. rewrite (a_add_step _ _ _ H). exact H. Qed.
Lemma a_steps sv l : forall c, calm c -> calms (add_steps sv l c).
Proof. induction l as [|s l IH]; intros c H; cbn [add_steps]; [exact H|]. apply c_bind; [apply a_step; exact H|exact IH]. Qed.
Lemma a_clause cl c : calm c -> calms (proof_add_clause cl c).
Proof.
  intros H. unfold proof_add_clause. destruct (st_invoked (c_st c)); [apply a_step; exact H|]. rewrite (ca_checker _ H). cbn [bind].
  destruct (Nat.ltb _ _); [|exact H]. destruct H as [H1 H2 H3 H4 H5 H6]. constructor; assumption.
Qed.
Lemma backtrack_calm n c : calm c -> calm (backtrack_to n c).
Proof. intros H. unfold backtrack_to. destruct (backtrack _ _ _). ca H. Qed.
Lemma full_restart_calm c : calm c -> calm (full_restart c).
Proof. intros H. unfold full_restart. apply backtrack_calm. ca H. Qed.

Lemma a_delete g c : calm c -> calms (delete_global_if_unused g c).
Proof.
  intros H. unfold delete_global_if_unused. cbv zeta.
  destruct (v_ug _ _); [exact H|]. destruct (v_sg _ _); [exact H|].
  destruct (negb (smode_eqb _ _)); [exact Logic.I|]. destruct (negb _); [exact H|].
  apply c_bind; [apply a_step|intros c1 H1; ca H1].
  apply (calm_eq _ _ H); try reflexivity. intros x. cbn [cw_v c_v set_data v_data]. unfold upd. destruct (x =? g) eqn:E; [|reflexivity].
  apply N.eqb_eq in E. subst. reflexivity.
Qed.
Lemma a_remove x c : calm c -> calms (remove_solver_var x c).
Proof.
  intros H. unfold remove_solver_var. cbv zeta. cbn [cw_vs c_v]. destruct (v_gs (c_v c) x) as [g|]; [|exact Logic.I].
  apply c_bind; [apply a_step; ca H|intros c1 H1; apply a_delete; exact H1].
Qed.
Definition keeps_mode (f : vdata -> vdata) : Prop := forall d, vd_mode (f d) = vd_mode d.
Lemma calm_data c g d : calm c -> vd_mode d = vd_mode (v_data (c_v c) g) -> calm (cw_v c (set_data (c_v c) (upd (v_data (c_v c)) g d))).
Proof.
  intros H E. apply (calm_eq _ _ H); try reflexivity. intros x. cbn [cw_v c_v set_data v_data]. unfold upd. destruct (x =? g) eqn:X; [|reflexivity].
  apply N.eqb_eq in X. subst. exact E.
Qed.
Lemma a_data x f c : keeps_mode f -> calm c -> calms (map_data_solver x f c).
Proof. intros K H. unfold map_data_solver. destruct (v_gs (c_v c) x); [|exact Logic.I]. apply calm_data; [exact H|apply K]. Qed.
Lemma a_data_lits f l : keeps_mode f -> forall c, calm c -> calms (map_data_lits l f c).
Proof.
  intros K. induction l as [|x l IH]; intros c H; cbn [map_data_lits]; [exact H|]. apply c_bind; [apply a_data; assumption|exact IH].
Qed.
Lemma a_simplify_var x c : calm c -> calms (simplify_var x c).
Proof.
  intros H. unfold simplify_var. destruct (v_gs (c_v c) x) as [g|]; [|exact H]. cbv zeta.
  assert (H1 : calm (cw_v c (set_data (c_v c) (upd (v_data (c_v c)) g match s_val (c_s c) x with
     Some b => vd_set_isolated (vd_set_unit (v_data (c_v c) g) (Some b)) true | None => v_data (c_v c) g end)))).
  { apply calm_data; [exact H|]. destruct (s_val _ _); reflexivity. }
  destruct (vd_isolated _ && negb _); [apply a_remove|]; exact H1.
Qed.
Lemma a_simplify_vars l : forall c, calm c -> calms (simplify_vars l c).
Proof. induction l as [|x l IH]; intros c H; cbn [simplify_vars]; [exact H|]. apply c_bind; [apply a_simplify_var; exact H|exact IH]. Qed.
Lemma a_simplify_clause x c : calm c -> calms2 (simplify_clause x c).
Proof.
  intros H. unfold simplify_clause. cbv zeta. destruct (open_lits _ _) as [ls|].
  - destruct (Nat.ltb _ _); [|exact H]. apply c_bind12; [apply a_step; exact H|]. intros c1 H1.
    apply c_bind12; [apply a_step; exact H1|]. intros c2 H2.
    destruct ls as [|a [|b [|d ls]]]; try exact Logic.I; cbn [calms2]; ca H2.
  - apply c_bind12; [apply a_step; exact H|]. intros c1 H1. exact H1.
Qed.
Lemma a_filter_loop l : forall c, calm c -> calms2 (filter_loop l c).
Proof.
  induction l as [|x l IH]; intros c H; cbn [filter_loop]; [exact H|].
  destruct (deleted (c_d c) x); [apply IH; exact H|].
  apply c_bind22; [apply a_simplify_clause; exact H|]. intros c1 keep H1. cbv zeta.
  apply c_bind22; [apply IH; destruct keep; [exact H1|ca H1]|]. intros c2 r H2. exact H2.
Qed.
Lemma a_unit_simplify c : calm c -> calms (unit_simplify c).
Proof.
  intros H. unfold unit_simplify. apply c_bind.
  - unfold simplify_binary. cbv zeta. apply c_bind; [apply a_steps; exact H|]. intros c1 H1. ca H1.
  - intros c1 H1. apply c_bind; [|intros c2 H2; apply a_simplify_vars; exact H2].
    unfold filter_clauses. cbv zeta. apply c_bind2; [apply a_filter_loop; ca H1|]. intros c2 r H2. ca H2.
Qed.
Lemma a_prove_units c : calm c -> calms2 (prove_units c).
Proof.
  intros H. unfold prove_units. destruct (Nat.eqb _ _); [|exact H]. cbv zeta.
  destruct (unit_proofs _ _) as [s ps]. destruct (trail_clear s) as [s'|]; [|exact Logic.I].
  assert (H1 : calm (cw_s c s')) by ca H.
  apply c_bind12; [destruct ps; [exact H1|apply a_step; exact H1]|]. intros c' H'. exact H'.
Qed.
Lemma users_of_tame v l : match users_of v l with Panic p => tame p | _ => True end.
Proof.
  induction l as [|x l IH]; cbn [users_of]; [exact Logic.I|]. destruct (v_gs v _); [|exact Logic.I]. destruct (v_ug v _); [|exact Logic.I].
  destruct (users_of v l); cbn [bind]; auto.
Qed.
Lemma a_enqueue_loop n : forall c, calm c -> calms2 (enqueue_loop n c).
Proof.
  induction n as [|n IH]; intros c H; cbn [enqueue_loop]; cbv zeta; destruct (nth_error _ _) as [a|]; try exact H.
  all: destruct (lfalse _ _).
  1,3: apply c_bind12; [|intros c' H'; exact H']; unfold analyze_assumption_conflict; destruct (failed_core_of _ _ _ _) as [[? ?] ?];
       match goal with |- calms (bind (users_of ?v ?l) _) => pose proof (users_of_tame v l) as U; destruct (users_of v l) as [us|p|] end;
       cbn [bind]; [|exact U|exact Logic.I]; cbv zeta; apply a_step; ca H.
  all: destruct (ltrue _ _); [|cbn [calms2]; ca H].
  - exact Logic.I.
  - apply IH. ca H.
Qed.
Lemma make_decision_calm c : calm c -> calm (fst (make_decision c)).
Proof. intros H. unfold make_decision. destruct (find_decision _ _ _) as [? [?|]]; ca H. Qed.
Lemma a_find_conflict n : forall c, calm c -> calms2 (find_conflict n c).
Proof.
  induction n as [|n IH]; intros c H; cbn [find_conflict]; [exact Logic.I|].
  destruct (propagate _ _ _ _) as [s r].
  assert (H1 : calm (cw_s c s)) by ca H.
  assert (B : forall k : option conflict, calms2 (do (c0, new_unit) <- prove_units (cw_s c s) ;
      match k with Some k => Ret (c0, FConflict k)
      | None => do c1 <- (if new_unit then unit_simplify c0 else Ret c0) ;
             do (c2, e) <- enqueue_assumption c1 ;
             match e with
             | Done => let (c3, b) := make_decision c2 in if b then find_conflict n c3 else Ret (c3, FModel)
             | Enqueued => find_conflict n c2
             | Failed => Ret (c2, FAssumption)
             end
      end)).
  { intros k. apply c_bind22; [apply a_prove_units; exact H1|]. intros c0 nu H0. destruct k; [exact H0|].
    apply c_bind12; [destruct nu; [apply a_unit_simplify|]; exact H0|]. intros c1 Q1.
    apply c_bind22; [apply a_enqueue_loop; exact Q1|]. intros c2 e H2.
    destruct e; [|apply IH; exact H2|exact H2].
    pose proof (make_decision_calm c2 H2) as V. destruct (make_decision c2) as [c3 b]. cbn [fst] in V.
    destruct b; [apply IH|]; exact V. }
  destruct r; [exact (B None)|exact (B (Some c0))|exact Logic.I|exact Logic.I].
Qed.
Lemma a_db_add h l c : calm c -> calms2 (db_add_clause h l c).
Proof.
  intros H. unfold db_add_clause. destruct (add_long _ _ _ _) as [[s d] cref]. destruct (d_full d); [exact Logic.I|]. cbn [calms2]. ca H.
Qed.
Lemma a_learn cl c : calm c -> calms (learn_clause cl c).
Proof.
  intros H. unfold learn_clause. destruct cl as [|a [|b [|d cl]]]; [cbn [calms]; ca H|cbn [calms]; ca H|cbn [calms]; ca H|].
  destruct (assess_learned _ _ _) as [fl h]. apply c_bind2; [apply a_db_add; ca H|]. intros c' x H'. cbn [calms]. ca H'.
Qed.
Lemma a_conflict_step n c : calm c -> calms (conflict_step n c).
Proof.
  intros H. unfold conflict_step. apply c_bind2; [apply a_find_conflict; exact H|]. intros c1 f H1. destruct f.
  - unfold reconstruct_global_model. cbv zeta. apply c_bind; [|intros c2 H2; cbn [calms]; ca H2].
    destruct (p_native _); [apply a_step|cbn [calms]]; ca H1.
  - cbn [calms]. ca H1.
  - destruct (analyze_conflict _ _ _ _ _ _) as [[vs a] bt]. destruct (a_fuel a); [exact Logic.I|]. cbv zeta.
    destruct (bump_clauses _ _ _ _) as [d fl]. apply c_bind; [apply a_step; apply backtrack_calm; ca H1|].
    intros c2 H2. apply a_learn. exact H2.
Qed.
Lemma a_schedule_step n c : calm c -> calms2 (schedule_step n c).
Proof.
  intros H. unfold schedule_step. destruct (st_sat (c_st c)); try exact H.
  destruct (st_error (c_st c)); [exact H|]. cbv zeta.
  set (c1 := if sc_next (c_sc c) =? sc_conflicts (c_sc c) then _ else c).
  assert (H1 : calm c1).
  { unfold c1. destruct (_ =? _); [|exact H]. destruct (luby_advance _). pose proof (backtrack_calm (as_levels (c_as c)) c H) as R. fold (restart c) in R. ca R. }
  clearbody c1. apply c_bind12.
  { destruct (_ =? _); [|exact H1]. destruct (reduce_locals _ _) as [[s d] out]. apply a_steps. ca H1. }
  intros c2 H2. set (c3 := if _ =? _ then cw_d c2 _ else c2).
  assert (H3 : calm c3) by (unfold c3; destruct (_ =? _); [ca H2|exact H2]). clearbody c3.
  destruct (collect_garbage _ _) as [[s d]|]; [|exact Logic.I]. destruct (d_full d); [exact Logic.I|].
  apply c_bind12; [apply a_conflict_step; ca H3|]. intros c4 H4. cbn [calms2]. ca H4.
Qed.
Lemma schedule_stop n c c' : calm c -> schedule_step n c = Ret (c', false) -> st_sat (c_st c') <> Unknown.
Proof.
  intros H E. unfold schedule_step in E. destruct (st_sat (c_st c)) eqn:S; try (injection E as <-; congruence).
  rewrite (ca_error _ H) in E. cbv zeta in E. exfalso.
  match type of E with (bind ?m _) = _ => destruct m as [c1| |] end; cbn [bind] in E; try discriminate E.
  destruct (collect_garbage _ _) as [[s d]|]; [|discriminate E]. destruct (d_full d); [discriminate E|].
  match type of E with (bind ?m _) = _ => destruct m as [c2| |] end; cbn [bind] in E; discriminate E.
Qed.
Lemma a_schedule_loop n m : forall c, calm c -> calms (schedule_loop n m c) /\ (forall c', schedule_loop n m c = Ret c' -> st_sat (c_st c') <> Unknown).
Proof.
  induction m as [|m IH]; intros c H; cbn [schedule_loop]; [split; [exact Logic.I|discriminate]|].
  pose proof (a_schedule_step n c H) as A. destruct (schedule_step n c) as [[c1 []]|p|] eqn:E; cbn [bind calms2] in *.
  - apply IH. exact A.
  - split; [exact A|]. intros c' X. injection X as <-. exact (schedule_stop _ _ _ H E).
  - split; [exact A|discriminate].
  - split; [exact Logic.I|discriminate].
Qed.

(** * The calls *)
Lemma a_global_from_user1 u rs c : calm c -> calms2 (global_from_user1 u rs c).
Proof.
  intros H. unfold global_from_user1. destruct (v_gu (c_v c) u) as [g|] eqn:G.
  - rewrite (ca_sample _ H u g G). cbn [smode_eqb negb]. rewrite Bool.andb_false_r. exact H.
  - cbv zeta. apply c_bind12; [|intros c' H'; exact H']. apply a_step. destruct H as [H1 H2 H3 H4 H5 H6]. constructor; try assumption.
    intros x g. cbn [cw_v c_v bind_user v_gu v_data]. unfold upd. destruct (x =? u).
    + intros E. injection E as <-. rewrite N.eqb_refl. reflexivity.
    + intros E. match goal with |- context [if ?b then _ else _] => destruct b end; [reflexivity|]. apply (H5 x g E).
Qed.
Lemma a_fill_users n : forall c, calm c -> calms (fill_users n c).
Proof.
  induction n as [|n IH]; intros c H; cbn [fill_users]; [exact H|].
  apply c_bind2; [apply a_global_from_user1; exact H|]. intros c' a H'. apply IH. exact H'.
Qed.
Lemma a_global_from_user u rs c : calm c -> calms2 (global_from_user u rs c).
Proof. intros H. unfold global_from_user. apply c_bind12; [apply a_fill_users; exact H|]. intros c' H'. apply a_global_from_user1. exact H'. Qed.
Lemma a_solver_from_global g c : calm c -> calms2 (solver_from_global g c).
Proof.
  intros H. unfold solver_from_global. destruct (v_sg (c_v c) g) eqn:E; [exact H|]. cbv zeta.
  apply c_bind12; [|intros c1 H1; apply c_bind12; [apply a_step; exact H1|intros c2 H2; exact H2]].
  unfold initialize_solver_var. cbv zeta. destruct (vsids_reset _ _); [|exact Logic.I]. cbn [calms]. ca H.
Qed.
Lemma a_solver_from_user_lits rs l : forall c, calm c -> calms2 (solver_from_user_lits l rs c).
Proof.
  induction l as [|x l IH]; intros c H; cbn [solver_from_user_lits]; [exact H|]. apply c_bind22.
  - unfold solver_from_user. apply c_bind22; [apply a_global_from_user; exact H|]. intros c' g H'. apply a_solver_from_global. exact H'.
  - intros c1 y H1. apply c_bind22; [apply IH; exact H1|]. intros c2 r H2. exact H2.
Qed.
Lemma a_load l c : calm c -> calms (load_clause l c).
Proof.
  intros H. unfold load_clause.
  assert (R : forall c1 : ctx, calm c1 -> calms
    (do (c, lits) <- solver_from_user_lits l true c1 ;
      let lits := dedup_n (sort_n lits) in
      do c <- proof_add_clause lits c ;
      if tautology lits then Ret c
      else
        do c <- (if Nat.ltb 1 (length lits) then map_data_lits lits (fun d => vd_set_isolated d false) c
                 else Ret c) ;
        let '(kept, false_lits, clause_is_true) := scan_lits (c_s c) lits in
        let will_conflict := match kept with [] => true | _ => false end in
        let c := cw_s c (fold_left (fun s l => resurrect_unit s (lnot l)) false_lits (c_s c)) in
        let lits := kept ++ false_lits in
        if clause_is_true then
          if Nat.ltb 1 (length lits) then add_step true (DeleteClause lits DSatisfied) c else Ret c
        else
          match lits with
          | [] => Ret (set_sat c Unsat)
          | [lit] => if will_conflict then Ret (set_sat c Unsat)
                     else Ret (cw_s c (enqueue (c_s c) lit RUnit))
          | [l0; l1] => Ret (add_binary_clause l0 l1 c)
          | _ => do (c, _) <- db_add_clause (set_tier hdr_new Irred) lits c ; Ret c
          end)).
  { intros c0 H0. apply c_bind2; [apply a_solver_from_user_lits; exact H0|]. intros c1 lits H1.
    cbv zeta. apply c_bind; [apply a_clause; exact H1|]. intros c2 H2. destruct (tautology _); [exact H2|].
    apply c_bind; [destruct (Nat.ltb 1 _); [apply a_data_lits; [intros d; reflexivity|exact H2]|exact H2]|].
    intros c3 H3. destruct (scan_lits _ _) as [[kept fl] found].
    set (c4 := cw_s c3 _). assert (H4 : calm c4) by ca H3. clearbody c4.
    destruct found; [destruct (Nat.ltb _ _); [apply a_step|]; exact H4|].
    destruct (kept ++ fl) as [|a [|b [|d r]]].
    - cbn [calms]. ca H4.
    - destruct kept; cbn [calms]; ca H4.
    - cbn [calms]. ca H4.
    - apply c_bind2; [apply a_db_add; exact H4|]. intros c5 x H5. exact H5. }
  destruct (st_sat (c_st c)); [| |exact H|]; apply R; apply full_restart_calm; ca H.
Qed.
Lemma a_assume l c : calm c -> calms (set_assumptions l c).
Proof.
  intros H. unfold set_assumptions. cbv zeta.
  set (c1 := match st_sat (c_st (full_restart c)) with Unsat => _ | _ => _ end).
  assert (H1 : calm c1).
  { pose proof (full_restart_calm c H) as R. unfold c1. destruct (st_sat _); [ca R|ca R|exact R|ca R]. }
  clearbody c1. apply c_bind; [apply a_data_lits; [intros d; reflexivity|exact H1]|]. intros c2 H2.
  apply c_bind2; [apply a_solver_from_user_lits; exact H2|]. intros c3 lits H3.
  apply c_bind; [apply a_data_lits; [intros d; reflexivity|ca H3]|]. intros c4 H4. apply a_step. exact H4.
Qed.

(** Calls that do not configure proofs or sampling modes *)
Definition basic (k : call) : Prop :=
  match k with CAdd _ | CNewVar | CAssume _ | CSolve | CConfig _ => True | _ => False end.
Definition failing (a : answer) : Prop := match a with AError _ => True | _ => False end.
Definition calms3 (m : out (ctx * answer)) : Prop := match m with Ret (c, a) => calm c /\ ~ failing a | Panic p => tame p | NoFuel => True end.

Lemma a_run fuel k c : basic k -> calm c -> calms3 (run fuel k c).
Proof.
  intros B H. destruct k; try contradiction; cbn [run].
  - pose proof (a_load clause c H) as L. destruct (load_clause clause c); cbn in *; auto.
  - assert (L : calms2 (new_user_var (set_empty c false))).
    { unfold new_user_var. cbv zeta. apply c_bind22; [apply a_global_from_user; ca H|]. intros c' g H'. exact H'. }
    destruct (new_user_var _) as [[c' v]| |]; cbn in *; auto.
  - pose proof (a_assume lits c H) as L. destruct (set_assumptions lits c); cbn in *; auto.
  - unfold solve. cbv zeta. assert (H1 : calm (set_invoked c true)) by ca H. rewrite (ca_valid _ H1).
    destruct (a_schedule_loop fuel fuel _ H1) as [L K]. destruct (schedule_loop _ _ _) as [c1| |]; cbn [bind] in *; auto. cbn [calms] in L.
    specialize (K c1 eq_refl).
    unfold solve_finished, flush_proof. rewrite (ca_format _ L). cbn [handle_io]. rewrite (ca_checker _ L). cbn [bind]. unfold take_error.
    rewrite (ca_error _ L). cbn [calms3]. split; [exact L|]. destruct (st_sat (c_st c1)); [congruence|intros []..].
  - pose proof (C38_update_never_panics u (c_cfg c) (ca_cfg _ H)) as V.
    destruct (update_apply u (c_cfg c)) as [[] cfg] eqn:Eu; cbn [snd] in V; [|split; [exact H|intros []]].
    destruct (_ && _); [|exact Logic.I]. split; [|intros []].
    destruct V as (V2 & _). destruct H as [H1 H2 H3 H4 H5 H6]. constructor; assumption.
Qed.
Lemma a_run_all fuel ks : forall c, Forall basic ks -> calm c ->
  match run_all fuel ks c with Ret (c', r) => calm c' /\ Forall (fun a => ~ failing a) r | Panic p => tame p | NoFuel => True end.
Proof.
  induction ks as [|k ks IH]; intros c B H; cbn [run_all]; [split; [exact H|constructor]|].
  inversion B as [|x y B1 B2]; subst. pose proof (a_run fuel k c B1 H) as A.
  destruct (run fuel k c) as [[c1 a]| |]; cbn [bind calms3] in *; auto. destruct A as [A1 A2].
  pose proof (IH c1 B2 A1) as R. destruct (run_all fuel ks c1) as [[c2 r]| |]; cbn [bind] in *; auto.
  destruct R. split; [assumption|constructor; assumption].
Qed.
Lemma default_calm pick judge io : calm (ctx_default pick judge io).
Proof. constructor; try reflexivity; [intros u g E; discriminate E|exact C38_default_valid]. Qed.
