(** Reasoning about computations of the solver: what they return and which panics they may end
    in, and what the functions of proof generation leave alone. *)
From Coq Require Import Lia Arith ZArith.
From Verif Require Import Spec Lit LitProofs BinFormat Hash F32 Vsids Luby Config Search SearchBase ClauseDb Analyze
  SolverCtx.
From Verif Require Lrat.
Local Open Scope nat_scope.

(** The panics that a caller can provoke or that are limits of the implementation; the others
    would be errors of the solver. *)
Definition allowed (p : panic) : Prop :=
  match p with PNoGlobal | PNoUser | PBounds | PInternal => False | _ => True end.

Definition spec {A} (m : out A) (Q : A -> Prop) : Prop :=
  match m with Ret a => Q a | Panic p => allowed p | NoFuel => True end.

Lemma spec_ret {A} (a : A) (Q : A -> Prop) : Q a -> spec (Ret a) Q.
Proof. intros H. exact H. Qed.
Lemma spec_bind {A B} (m : out A) (f : A -> out B) (P : A -> Prop) (Q : B -> Prop) :
  spec m P -> (forall a, P a -> spec (f a) Q) -> spec (bind m f) Q.
Proof. intros H K. destruct m as [a|p|]; cbn [bind spec] in *; auto. Qed.
Lemma spec_weaken {A} (m : out A) (P Q : A -> Prop) : spec m P -> (forall a, P a -> Q a) -> spec m Q.
Proof. intros H K. destruct m; cbn [spec] in *; auto. Qed.
Lemma spec_get {A} (m : out A) (Q : A -> Prop) a : spec m Q -> m = Ret a -> Q a.
Proof. intros H ->. exact H. Qed.
Lemma spec_and {A} (m : out A) (P Q : A -> Prop) : spec m P -> spec m Q -> spec m (fun a => P a /\ Q a).
Proof. destruct m; cbn [spec]; auto. Qed.

(** Partial correctness, for which panics do not matter *)
Definition post {A} (m : out A) (Q : A -> Prop) : Prop := forall a, m = Ret a -> Q a.
Lemma post_ret {A} (a : A) (Q : A -> Prop) : Q a -> post (Ret a) Q.
Proof. intros H b E. injection E as <-. exact H. Qed.
Lemma post_bind {A B} (m : out A) (f : A -> out B) (P : A -> Prop) (Q : B -> Prop) :
  post m P -> (forall a, P a -> post (f a) Q) -> post (bind m f) Q.
Proof. intros H K b E. destruct m as [a|p|]; cbn [bind] in E; try discriminate. apply (K a (H a eq_refl) b E). Qed.
Lemma post_panic {A} p (Q : A -> Prop) : post (Panic p) Q.
Proof. intros a E. discriminate. Qed.
Lemma post_nofuel {A} (Q : A -> Prop) : post NoFuel Q.
Proof. intros a E. discriminate. Qed.
Lemma post_weaken {A} (m : out A) (P Q : A -> Prop) : post m P -> (forall a, P a -> Q a) -> post m Q.
Proof. intros H K a E. auto. Qed.

(** Everything but the proof and the stored error is the same. *)
Definition frame (c c' : ctx) : Prop := exists e p, c' = cw_pf (set_error c e) p.

Lemma frame_refl c : frame c c.
Proof. exists (st_error (c_st c)), (c_pf c). destruct c as [? ? ? ? ? ? ? ? [] ? ? ? ? ?]. reflexivity. Qed.
Lemma frame_trans a b c : frame a b -> frame b c -> frame a c.
Proof. intros (e & p & ->) (e' & p' & ->). exists e', p'. reflexivity. Qed.
Lemma frame_pf c p : frame c (cw_pf c p).
Proof. exists (st_error (c_st c)), p. destruct c as [? ? ? ? ? ? ? ? [] ? ? ? ? ?]. reflexivity. Qed.

Lemma frame_v c c' : frame c c' -> c_v c' = c_v c.
Proof. intros (e & p & ->). reflexivity. Qed.

(** Literals with a global name *)
Definition named (v : vars) (l : list N) : Prop := forall x, In x l -> v_gs v (lit_var x) <> None.
Lemma map_lits_named gs l : (forall x, In x l -> gs (lit_var x) <> None) -> map_lits gs l <> None.
Proof.
  induction l as [|x l IH]; intros H; cbn [map_lits]; [discriminate|].
  assert (E : map_lit gs x <> None).
  { unfold map_lit. pose proof (H x (or_introl eq_refl)). destruct (gs (lit_var x)); congruence. }
  specialize (IH (fun y Hy => H y (or_intror Hy))).
  destruct (map_lit gs x), (map_lits gs l); congruence.
Qed.
Lemma map_units_named gs l : (forall x h, In (x, h) l -> gs (lit_var x) <> None) -> map_units gs l <> None.
Proof.
  induction l as [|[x h] l IH]; intros H; cbn [map_units]; [discriminate|].
  assert (E : map_lit gs x <> None).
  { unfold map_lit. pose proof (H x h (or_introl eq_refl)). destruct (gs (lit_var x)); congruence. }
  specialize (IH (fun y h' Hy => H y h' (or_intror Hy))).
  destruct (map_lit gs x), (map_units gs l); congruence.
Qed.

(** The literals of a step that are renamed when it is written *)
Definition step_lits (s : proof_step) : list N :=
  match s with
  | AddClause cl => cl
  | AtClause _ cl _ => cl
  | UnitClauses u => map fst u
  | DeleteClause cl _ => cl
  | Model m => m
  | Assumptions a => a
  | FailedAssumptions core _ => core
  | _ => []
  end.
Lemma map_step_named gs s : (forall x, In x (step_lits s) -> gs (lit_var x) <> None) -> map_step gs s <> None.
Proof.
  intros H. destruct s; cbn [map_step step_lits] in *; try discriminate;
    try (pose proof (map_lits_named _ _ H); destruct (map_lits _ _); cbn [option_map]; congruence).
  assert (K : map_units gs units <> None).
  { apply map_units_named. intros x h I. apply H. apply in_map_iff. exists (x, h). auto. }
  destruct (map_units gs units); cbn [option_map]; congruence.
Qed.

Lemma handle_check_spec c v : spec (handle_check c v) (frame c).
Proof.
  destruct v; cbn [handle_check spec allowed]; [apply frame_refl| |exact Logic.I].
  exists (Some EProcessor), (proof_reset (c_pf c)). reflexivity.
Qed.
Lemma ask_checker_spec c e : spec (ask_checker c e) (frame c).
Proof.
  unfold ask_checker. cbv zeta. eapply spec_weaken; [apply handle_check_spec|].
  intros c' F. eapply frame_trans; [apply frame_pf|exact F].
Qed.
Lemma handle_io_frame c b : frame c (handle_io c b).
Proof.
  destruct b; cbn [handle_io]; [|apply frame_refl]. exists (Some EIo), (proof_reset (c_pf c)). reflexivity.
Qed.
Lemma flush_frame c : frame c (flush_proof c).
Proof. apply handle_io_frame. Qed.

Lemma add_step_spec sv s c : (sv = true -> named (c_v c) (step_lits s)) -> spec (add_step sv s c) (frame c).
Proof.
  intros H. unfold add_step. destruct (st_error (c_st c)); [apply frame_refl|].
  destruct (p_active (c_pf c)); [|apply frame_refl].
  destruct (if sv then map_step (v_gs (c_v c)) s else Some s) as [s'|] eqn:E.
  2:{ exfalso. destruct sv; [|discriminate]. exact (map_step_named _ _ (H eq_refl) E). }
  apply spec_bind with (P := fun _ => True).
  - destruct (p_format (c_pf c)) as [[]|]; cbn [spec]; auto.
    + destruct (write_varisat_step _ _ _); cbn [spec allowed]; auto.
    + destruct (Lrat.drat_write_step _); cbn [spec allowed]; auto.
    + destruct (Lrat.drat_write_binary_step _); cbn [spec allowed]; auto.
  - intros [p bytes] _. cbv zeta.
    set (p1 := p_write p bytes).
    destruct (match p_format p1 with Some _ => p_io p1 (p_out p1) | None => false end).
    + eapply frame_trans; [apply frame_pf|apply handle_io_frame].
    + destruct (p_checker p1).
      * eapply spec_weaken; [apply ask_checker_spec|]. intros c' F. eapply frame_trans; [apply frame_pf|exact F].
      * apply frame_pf.
Qed.

Lemma add_steps_spec sv l : forall c, (sv = true -> forall s, In s l -> named (c_v c) (step_lits s)) ->
  spec (add_steps sv l c) (frame c).
Proof.
  induction l as [|s l IH]; intros c H; cbn [add_steps]; [apply frame_refl|].
  apply spec_bind with (P := frame c).
  - apply add_step_spec. intros E. apply (H E). left. reflexivity.
  - intros c' F. eapply spec_weaken; [apply IH|].
    + intros E s' Hs'. rewrite (frame_v _ _ F). apply (H E). right. exact Hs'.
    + intros c2 F2. eapply frame_trans; eassumption.
Qed.

Lemma proof_add_clause_spec cl c : named (c_v c) cl -> spec (proof_add_clause cl c) (frame c).
Proof.
  intros H. unfold proof_add_clause. destruct (st_invoked (c_st c)); [apply add_step_spec; auto|].
  apply spec_bind with (P := frame c).
  - destruct (p_checker (c_pf c)); [|apply frame_refl].
    destruct (map_lits (v_gs (c_v c)) cl) eqn:E; [apply ask_checker_spec|].
    exfalso. exact (map_lits_named _ _ H E).
  - intros c' F. cbn [spec]. destruct (Nat.ltb 1 (length cl)); [|exact F].
    eapply frame_trans; [exact F|apply frame_pf].
Qed.

Lemma close_proof_spec c : spec (close_proof c) (frame c).
Proof.
  unfold close_proof. apply spec_bind with (P := frame c).
  - apply add_step_spec. intros _ x [].
  - intros c' F. cbn [spec]. eapply frame_trans; [exact F|].
    eapply frame_trans; [apply flush_frame|]. apply frame_pf.
Qed.
Lemma solve_finished_spec c : spec (solve_finished c) (frame c).
Proof.
  unfold solve_finished. cbv zeta. destruct (p_checker _).
  - eapply spec_weaken; [apply ask_checker_spec|]. intros c' F. eapply frame_trans; [apply flush_frame|exact F].
  - apply flush_frame.
Qed.

(** Without the condition, partially *)
Lemma handle_check_post c v : post (handle_check c v) (frame c).
Proof. intros c' E. eapply spec_get; [apply handle_check_spec|exact E]. Qed.
Lemma ask_checker_post c e : post (ask_checker c e) (frame c).
Proof. intros c' E. eapply spec_get; [apply ask_checker_spec|exact E]. Qed.
Lemma add_step_post sv s c : post (add_step sv s c) (frame c).
Proof.
  intros c' E. destruct (if sv then map_step (v_gs (c_v c)) s else Some s) as [s'|] eqn:M.
  - assert (E' : add_step false s' c = Ret c').
    { unfold add_step in *. destruct (st_error (c_st c)); [exact E|]. destruct (p_active (c_pf c)); [|exact E].
      rewrite M in E. exact E. }
    eapply spec_get; [apply add_step_spec|exact E']. discriminate.
  - unfold add_step in E. destruct (st_error (c_st c)); [injection E as <-; apply frame_refl|].
    destruct (p_active (c_pf c)); [|injection E as <-; apply frame_refl]. rewrite M in E. discriminate.
Qed.
Lemma add_steps_post sv l : forall c, post (add_steps sv l c) (frame c).
Proof.
  induction l as [|s l IH]; intros c; cbn [add_steps]; [apply post_ret, frame_refl|].
  eapply post_bind; [apply add_step_post|]. intros c' F. eapply post_weaken; [apply IH|].
  intros c2 F2. eapply frame_trans; eassumption.
Qed.
Lemma proof_add_clause_post cl c : post (proof_add_clause cl c) (frame c).
Proof.
  unfold proof_add_clause. destruct (st_invoked (c_st c)); [apply add_step_post|].
  apply post_bind with (P := frame c).
  - destruct (p_checker (c_pf c)); [|apply post_ret, frame_refl].
    destruct (map_lits (v_gs (c_v c)) cl) eqn:E; [apply ask_checker_post|apply post_panic].
  - intros c' F. apply post_ret. destruct (Nat.ltb 1 (length cl)); [|exact F].
    eapply frame_trans; [exact F|apply frame_pf].
Qed.
