(** Executions of the checker and the semantic invariants along them. *)
From Coq Require Import Arith ZArith ZifyBool ZifyNat ZifyN Permutation Sorted.
From Verif Require Import Spec Lit LitProofs Vec SortedLits SortedLitsProofs Hash HashProofs Vli BinFormat Checker CheckerStore CheckerInv CheckerOps CheckerRup CheckerSteps.

(** * Executions *)

(** What a user of the checker does: load clauses ([add_clause], lib.rs:89-93)
    and give it proof steps ([self_check_step]; [check_proof] does the same with
    the steps it decodes). *)
Inductive event := Load (clause : list N) | Step (s : proof_step).
Definition exec (c : ctx) (e : event) : res unit :=
  match e with Load cl => add_clause c cl | Step s => self_check_step c s end.
Fixpoint run (c : ctx) (es : list event) : res unit :=
  match es with
  | [] => ROk tt c
  | e :: r => bind (exec c e) (fun _ c => run c r)
  end.

Definition event_u32 (e : event) : Prop := match e with Load cl => lits_u32 cl | Step s => step_u32 s end.

Lemma run_app a : forall c b, run c (a ++ b) = bind (run c a) (fun _ c => run c b).
Proof.
  induction a as [|e a IH]; intros c b; cbn [app run]; [reflexivity|]. destruct (exec c e) as [[] c1| |]; cbn [bind]; auto.
Qed.

Lemma add_formula_run f : forall c, add_formula c f = run c (map Load f).
Proof. induction f as [|cl f IH]; intros c; cbn [add_formula map run exec]; [reflexivity|]. destruct (add_clause c cl) as [[] c1| |]; cbn [bind]; auto. Qed.

(** the steps read from a proof file *)
Inductive decodes : reader -> list proof_step -> Prop :=
| DecNil r : decodes r []
| DecCons r s r' ss : parse_step r = POk (s, r') -> decodes r' ss -> decodes r (s :: ss).

(** an accepted proof file is an accepted sequence of steps *)
Lemma check_proof_run fuel : forall c r x c', check_proof_loop fuel c r = Some (ROk x c') ->
  exists steps c1, decodes r steps /\ run c (map Step steps) = ROk tt c1 /\ process_unit_conflicts c1 = ROk x c' /\
    s_ended (c_state c1) = true.
Proof.
  induction fuel as [|fuel IH]; intros c r x c' H; cbn [check_proof_loop] in H; destruct (s_ended (c_state c)) eqn:SE.
  - exists [], c. inversion H; subst. cbn [map run]. split; [constructor|auto].
  - discriminate.
  - exists [], c. inversion H; subst. cbn [map run]. split; [constructor|auto].
  - destruct (parse_step r) as [[s rest]| | |] eqn:P; try discriminate.
    destruct (check_step _ s) as [[] c2| |] eqn:CS; try discriminate.
    destruct (IH _ _ _ _ H) as (steps&c1&D&A&B&C). exists (s :: steps), c1. cbn [map run exec]. unfold self_check_step.
    rewrite CS. cbn [bind]. split; [econstructor; eassumption|]. auto.
Qed.

(** * The parser only produces 32-bit literals *)
Lemma pbind_ok {A B} (x : presult A) (f : A -> presult B) y : pbind x f = POk y -> exists a, x = POk a /\ f a = POk y.
Proof. destruct x; cbn; intros H; try discriminate. eauto. Qed.

Lemma rd_n_conv {S} (rd : S -> option (N * S)) conv (P : N -> Prop) : (forall x, P (conv x)) ->
  forall n s l s', rd_n rd conv n s = POk (l, s') -> Forall P l.
Proof.
  intros HP. induction n as [|n IH]; intros s l s' H; cbn [rd_n] in H; [inversion H; constructor|].
  apply pbind_ok in H as ([v s1]&_&H). apply pbind_ok in H as ([vs s2]&E&H). inversion H; subst.
  constructor; [apply HP|eapply IH; exact E].
Qed.
Lemma from_code_u32 x : lit_from_code x < 2^32.
Proof. unfold lit_from_code, u32. apply N.mod_lt. discriminate. Qed.
Lemma read_literals_u32 {S} (rd : S -> option (N * S)) s l s' : read_literals rd s = POk (l, s') -> lits_u32 l.
Proof.
  unfold read_literals. intros H. apply pbind_ok in H as ([len s1]&_&H). destruct (reserve_ok len 4); [|discriminate].
  eapply rd_n_conv; [|exact H]. apply from_code_u32.
Qed.
Lemma rd_pairs_u32 {S} (rd : S -> option (N * S)) : forall n s l s', rd_pairs rd n s = POk (l, s') -> lits_u32 (map fst l).
Proof.
  induction n as [|n IH]; intros s l s' H; cbn [rd_pairs] in H; [inversion H; constructor|].
  apply pbind_ok in H as ([v s1]&_&H). apply pbind_ok in H as ([h s2]&_&H). apply pbind_ok in H as ([vs s3]&E&H). inversion H; subst.
  cbn [map fst]. constructor; [apply from_code_u32|eapply IH; exact E].
Qed.

Lemma parse_step_u32 r s r' : parse_step r = POk (s, r') -> step_u32 s.
Proof.
  unfold parse_step, parse_step_gen. intros H. apply pbind_ok in H as ([code s1]&_&H).
  repeat match type of H with (if ?b then _ else _) = _ => destruct b end;
    repeat match type of H with
      | pbind (read_literals _ _) _ = _ => let E := fresh "E" in apply pbind_ok in H as ([? ?]&E&H); apply read_literals_u32 in E
      | pbind _ _ = _ => let E := fresh "E" in apply pbind_ok in H as ([? ?]&E&H)
      end; try discriminate; inversion H; subst; cbn [step_u32]; auto.
  unfold read_unit_clauses in E. apply pbind_ok in E as ([? ?]&_&E).
  destruct (reserve_ok _ _) in E; [|discriminate]. eapply rd_pairs_u32. exact E.
Qed.

Lemma decodes_u32 r ss : decodes r ss -> Forall step_u32 ss.
Proof. induction 1; constructor; auto. eapply parse_step_u32; eassumption. Qed.

(** * One event *)
Definition next_step (c : ctx) : ctx := with_state c (with_step (c_state c) (s_step (c_state c) + 1)).
Definition tr (c : ctx) (e : event) (c' : ctx) : Prop :=
  match e with Load cl => add_eff c cl c' | Step s => step_eff (next_step c) s c' end.

Lemma inv_next c : Inv c -> Inv (next_step c).
Proof. intros [a b d e f]. constructor; auto. Qed.

Lemma exec_spec c e c' u : Inv c -> event_u32 e -> exec c e = ROk u c' -> Inv c' /\ tr c e c'.
Proof.
  intros I U H. destruct e as [cl|s]; cbn [exec tr event_u32] in *.
  - eapply add_clause_spec; eassumption.
  - unfold self_check_step in H. fold (next_step c) in H. eapply check_step_spec; [apply inv_next; exact I|exact U|exact H].
Qed.

Lemma run_ind (P : ctx -> list event -> ctx -> Prop) :
  (forall c, Inv c -> P c [] c) ->
  (forall c e c1 es c', Inv c -> event_u32 e -> Inv c1 -> tr c e c1 -> P c1 es c' -> P c (e :: es) c') ->
  forall es c c' u, Inv c -> Forall event_u32 es -> run c es = ROk u c' -> P c es c'.
Proof.
  intros H0 H1. induction es as [|e es IH]; intros c c' u I F R; cbn [run] in R.
  - inversion R; subst. apply H0; exact I.
  - inversion F as [|? ? Fe Fs]; subst. destruct (exec c e) as [[] c1| |] eqn:E; cbn [bind] in R; try discriminate.
    destruct (exec_spec _ _ _ _ I Fe E) as [I1 T]. eapply H1; eauto.
Qed.

Lemma run_inv es : forall c c' u, Inv c -> Forall event_u32 es -> run c es = ROk u c' -> Inv c'.
Proof. apply (run_ind (fun _ _ c' => Inv c')); auto. Qed.

(** induction from the end *)
Lemma run_ind_r (P : list event -> ctx -> Prop) c0 : Inv c0 -> P [] c0 ->
  (forall es c e c1, Inv c -> event_u32 e -> Inv c1 -> tr c e c1 -> P es c -> P (es ++ [e]) c1) ->
  forall es c' u, Forall event_u32 es -> run c0 es = ROk u c' -> P es c'.
Proof.
  intros I0 H0 H1. induction es as [|e es IH] using rev_ind; intros c' u F R.
  - inversion R; subst; exact H0.
  - apply Forall_app in F as [F1 F2]. inversion F2 as [|? ? Fe Fs]; subst. rewrite run_app in R.
    destruct (run c0 es) as [[] c1| |] eqn:E; cbn [bind run] in R; try discriminate.
    destruct (exec c1 e) as [[] c2| |] eqn:X; cbn [bind] in R; try discriminate. inversion R; subst.
    pose proof (run_inv _ _ _ _ I0 F1 E) as I1. destruct (exec_spec _ _ _ _ I1 Fe X) as [I2 T].
    eapply H1; [exact I1|exact Fe|exact I2|exact T|eapply IH; eauto].
Qed.

Lemma vget_nil {A} i : vget (@nil A) i = None.
Proof. unfold vget. destruct (N.to_nat i); reflexivity. Qed.

Lemma new_inv p t pf tf sh : (forall n l, Permutation (sh n l) l) -> Inv (checker_new p t pf tf sh).
Proof.
  intros HS. constructor; cbn [checker_new c_hasher c_clauses c_vars c_rup c_state r_trail s_assumptions s_prev_lits]; auto; try constructor;
    cbn; auto; try constructor; try contradiction.
  all: intros; unfold unit_of in *; cbn [unit_clauses] in *; rewrite ?vget_nil in *; discriminate.
Qed.

(** * Given clauses *)

(** A deleted variable may be re-used, so "the variable v" denotes a new
    variable after each deletion of v: a world gives a value to every
    generation of every variable, [g] says which generation is current. *)
Definition world := N -> nat -> bool.
Definition at_gen (W : world) (g : N -> nat) : asg := fun v => W v (g v).
Definition next_gen (g : N -> nat) (v : N) : N -> nat := fun w => if w =? v then S (g w) else g w.

Definition gen_event (g : N -> nat) (e : event) : N -> nat :=
  match e with Step (DeleteVar v) => next_gen g v | _ => g end.
Definition sat_event (W : world) (g : N -> nat) (e : event) : bool :=
  match e with Load cl | Step (AddClause cl) => clause_holds (at_gen W g) cl | _ => true end.
Fixpoint gens (g : N -> nat) (es : list event) : N -> nat :=
  match es with [] => g | e :: r => gens (gen_event g e) r end.
Fixpoint sat_events (W : world) (g : N -> nat) (es : list event) : bool :=
  match es with [] => true | e :: r => sat_event W g e && sat_events W (gen_event g e) r end.

(** the clauses loaded or added, when no distinction between generations is made *)
Fixpoint given (es : list event) : list (list N) :=
  match es with
  | [] => []
  | (Load cl | Step (AddClause cl)) :: r => cl :: given r
  | _ :: r => given r
  end.

Definition const_world (a : asg) : world := fun v _ => a v.

Lemma sat_events_const a es : forall g, sat_events (const_world a) g es = formula_holds a (given es).
Proof.
  induction es as [|e es IH]; intros g; [reflexivity|].
  cbn [sat_events]. rewrite IH. destruct e as [cl|s]; [reflexivity|]. destruct s; reflexivity.
Qed.

Lemma gens_app a : forall g b, gens g (a ++ b) = gens (gens g a) b.
Proof. induction a as [|e a IH]; intros g b; [reflexivity|]. cbn [app gens]. apply IH. Qed.
Lemma sat_events_app W a : forall g b, sat_events W g (a ++ b) = sat_events W g a && sat_events W (gens g a) b.
Proof. induction a as [|e a IH]; intros g b; [reflexivity|]. cbn [app gens sat_events]. rewrite IH, andb_assoc. reflexivity. Qed.
Lemma given_app a : forall b, given (a ++ b) = given a ++ given b.
Proof.
  induction a as [|e a IH]; intros b; [reflexivity|]. cbn [app given].
  destruct e as [cl|s]; [|destruct s]; rewrite ?IH; reflexivity.
Qed.

(** * Soundness: what the checker stores follows from what was given *)

Lemma clause_holds_canon a l : clause_holds a (canon l) = clause_holds a l.
Proof.
  apply eq_true_iff_eq. rewrite !clause_holds_in. split; intros (x&H&E); exists x; split; auto; apply canonical_in; exact H.
Qed.
Lemma clause_holds_taut a l : taut l = true -> clause_holds a l = true.
Proof.
  intros T. apply canonical_taut in T as (x&H1&H2). apply clause_holds_in.
  destruct (lit_holds a x) eqn:E; [exists x; auto|]. exists (lnot x). split; [exact H2|].
  rewrite lit_holds_lnot, E. reflexivity.
Qed.

Lemma perm_in {A} (l l' : list A) x : Permutation l l' -> In x l -> In x l'.
Proof. intros H. apply Permutation_in. exact H. Qed.

Lemma store_sound a st cl lits red st' cl' id r : store_eff st cl lits red st' cl' id r ->
  sat_store a cl -> clause_holds a lits = true -> s_unsat st' = s_unsat st /\ sat_store a cl'.
Proof.
  intros H [S1 S2] C. destruct H; subst.
  - discriminate.
  - split; [reflexivity|]. split; [intros x Hx; apply S1; eapply perm_in; eassumption|intros v u Hv; apply S2; congruence].
  - exfalso. apply S2 in H4. cbn [uc_value] in H4. apply clause_holds_in in C as (l'&[<-|[]]&E). apply lit_holds_eq in E.
    rewrite H4, is_pos_neg in E. destruct (is_negative l); discriminate.
  - split; [reflexivity|]. split; [intros x Hx; apply S1; eapply perm_in; eassumption|]. intros v u Hv. rewrite H3 in Hv.
    destruct (N.eqb_spec (lit_var l) v) as [<-|]; [|apply S2; exact Hv]. inversion Hv; subst. cbn [uc_value].
    apply clause_holds_in in C as (l'&[<-|[]]&E). apply lit_holds_eq. exact E.
  - split; [reflexivity|]. split; [|intros v u Hv; apply S2; congruence]. intros x Hx.
    apply (perm_in _ _ _ H3) in Hx as [<-|Hx]; [destruct red; exact C|]. apply S1. apply (perm_in _ _ _ (Permutation_sym H1)). right; exact Hx.
  - split; [reflexivity|]. split; [|intros v u Hv; apply S2; congruence]. intros x Hx.
    apply (perm_in _ _ _ H2) in Hx as [<-|Hx]; [exact C|]. apply S1; exact Hx.
Qed.

Lemma sat_same_data a cl cl' : (forall x, In x (aclauses cl') -> In x (aclauses cl)) -> (forall v, unit_of cl' v = unit_of cl v) ->
  sat_store a cl -> sat_store a cl'.
Proof. intros H1 H2 [S1 S2]. split; [auto|]. intros v u Hv. apply S2. congruence. Qed.

Lemma add_sound a c clause c' : add_eff c clause c' -> sat_store a (c_clauses c) -> clause_holds a clause = true ->
  s_unsat (c_state c') = s_unsat (c_state c) /\ sat_store a (c_clauses c').
Proof.
  intros H S C. destruct H as [E ->|E T S1 V1 C1 _|cl1 id r E T SE R]; [auto| |].
  - rewrite S1, C1. split; [reflexivity|]. exact S.
  - rewrite <- clause_holds_canon in C. destruct (store_sound _ _ _ _ _ _ _ _ _ SE S C) as [A B]. split; [exact A|].
    destruct r; destruct R as [-> _]; exact B.
Qed.

Lemma at_sound a c red clause c' : at_eff c red clause c' -> sat_store a (c_clauses c) ->
  s_unsat (c_state c') = s_unsat (c_state c) /\ sat_store a (c_clauses c').
Proof.
  intros [st1 id r hints T IMP _ SE ST _] S. destruct (store_sound _ _ _ _ _ _ _ _ _ SE S (IMP a S)) as [A B].
  split; [|exact B]. rewrite ST. destruct red; exact A.
Qed.

Lemma units_sound a us : forall c c', unit_chain c us c' -> sat_store a (c_clauses c) ->
  s_unsat (c_state c') = s_unsat (c_state c) /\ sat_store a (c_clauses c').
Proof.
  intros c c' H. induction H as [c c' Q _|c l hash rest c1 c' id r hints IMP _ SE _ _ IH]; intros S.
  - destruct Q as [q1 q2 _ _]. rewrite q2. split; [reflexivity|]. apply (sat_same _ _ _ q1). exact S.
  - destruct (store_sound _ _ _ _ _ _ _ _ _ SE S) as [A B]; [cbn; rewrite (IMP a S); reflexivity|].
    destruct (IH B) as [C D]. split; [congruence|exact D].
Qed.

Lemma del_incl c clause proof c' : del_eff c clause proof c' -> forall x, In x (aclauses (c_clauses c')) ->
  exists y, In y (aclauses (c_clauses c)) /\ a_lits y = a_lits x.
Proof.
  intros [id r T DE _ _ _ _ _] x Hx. inversion DE; subst;
    match goal with P : Permutation (aclauses (c_clauses c)) (?a :: _), P' : Permutation (aclauses (c_clauses c')) _ |- _ =>
      rename a into a0; rename P into P0; rename P' into P1 end.
  - exists x. split; [|reflexivity]. apply (perm_in _ _ _ (Permutation_sym P0)). right. apply (perm_in _ _ _ P1 Hx).
  - destruct (perm_in _ _ _ P1 Hx) as [EQ|Hy]; [rewrite <- EQ|].
    + exists a0. split; [apply (perm_in _ _ _ (Permutation_sym P0)); left; reflexivity|]. unfold adrop. destruct (is_red proof); reflexivity.
    + exists x. split; [|reflexivity]. apply (perm_in _ _ _ (Permutation_sym P0)). right. exact Hy.
Qed.

Lemma del_sound a c clause proof c' : del_eff c clause proof c' -> sat_store a (c_clauses c) ->
  s_unsat (c_state c') = s_unsat (c_state c) /\ sat_store a (c_clauses c').
Proof.
  intros D [S1 S2]. pose proof (del_incl _ _ _ _ D) as X. destruct D as [id r T DE U UC NX ST _]. rewrite ST. split; [reflexivity|].
  split; [|intros v u Hv; apply S2; congruence]. intros x Hx. destruct (X x Hx) as (y&Hy&E). rewrite <- E. apply S1; exact Hy.
Qed.

Lemma lit_holds_ext a b l : a (lit_var l) = b (lit_var l) -> lit_holds a l = lit_holds b l.
Proof. intros E. rewrite !lit_holds_iff, E. reflexivity. Qed.
Lemma clause_holds_ext a b c : (forall l, In l c -> a (lit_var l) = b (lit_var l)) -> clause_holds a c = clause_holds b c.
Proof.
  intros H. apply eq_true_iff_eq. rewrite !clause_holds_in. split; intros (x&Hx&E); exists x; split; auto.
  - rewrite (lit_holds_ext b a); [exact E|symmetry; auto].
  - rewrite (lit_holds_ext a b); auto.
Qed.

(** no stored long clause mentions a deleted variable *)
Lemma delvar_fresh c v c' : Inv c -> delvar_eff c v c' -> forall x, In x (aclauses (c_clauses c)) -> forall l, In l (a_lits x) -> lit_var l <> v.
Proof.
  intros I [NO _ _ _ _ _ _] x Hx l Hl E. apply (NO) with (a := x) (l := l); auto.
  destruct (wf_clause _ _ _ (inv_wf _ I) x Hx) as [[_ [_ G]] _ _ _ _]. rewrite Forall_forall in G. rewrite <- E. apply lit_var_bound. auto.
Qed.

Lemma delvar_sound a b c v c' : Inv c -> delvar_eff c v c' -> (forall w, w <> v -> b w = a w) -> sat_store a (c_clauses c) ->
  s_unsat (c_state c') = s_unsat (c_state c) /\ sat_store b (c_clauses c').
Proof.
  intros I D E [S1 S2]. pose proof (delvar_fresh _ _ _ I D) as F. destruct D as [_ P U _ _ ST _]. rewrite ST. split; [reflexivity|]. split.
  - intros x Hx. apply (perm_in _ _ _ P) in Hx. rewrite (clause_holds_ext b a); [apply S1; exact Hx|]. intros l Hl. apply E. eapply F; eassumption.
  - intros w u Hw. rewrite U in Hw. destruct (N.eqb_spec v w); [discriminate|]. rewrite E by congruence. apply S2. exact Hw.
Qed.

Lemma sound_step W g c e c' : Inv c -> event_u32 e -> tr c e c' -> sat_event W g e = true -> sat_store (at_gen W g) (c_clauses c) ->
  s_unsat (c_state c') = s_unsat (c_state c) /\ sat_store (at_gen W (gen_event g e)) (c_clauses c').
Proof.
  intros I U T G S. destruct e as [cl|s]; cbn [tr sat_event gen_event] in *; [eapply add_sound; eassumption|].
  destruct s; cbn [step_eff] in T;
    try (destruct T as (A&B&_); rewrite B; split; [reflexivity|apply (sat_same _ _ _ A); exact S]).
  - match type of T with delvar_eff _ ?v _ => apply (delvar_sound (at_gen W g) _ (next_step c) v c'); auto; [apply inv_next; exact I|];
      intros w Hw; unfold at_gen, next_gen; destruct (N.eqb_spec w v); [contradiction|reflexivity] end.
  - apply (add_sound _ _ _ _ T S G).
  - apply (at_sound _ _ _ _ _ T S).
  - apply (units_sound _ _ _ _ T S).
  - apply (del_sound _ _ _ _ _ T S).
Qed.

Lemma sound_run W : forall es c c' u g, Inv c -> Forall event_u32 es -> run c es = ROk u c' ->
  sat_events W g es = true -> sat_store (at_gen W g) (c_clauses c) ->
  s_unsat (c_state c') = s_unsat (c_state c) /\ sat_store (at_gen W (gens g es)) (c_clauses c').
Proof.
  intros es c c' u g I F R. revert g. revert es c c' u I F R.
  apply (run_ind (fun c es c' => forall g, sat_events W g es = true -> sat_store (at_gen W g) (c_clauses c) ->
    s_unsat (c_state c') = s_unsat (c_state c) /\ sat_store (at_gen W (gens g es)) (c_clauses c'))).
  - intros c I g _ S. auto.
  - intros c e c1 es c' I U I1 T IH g H S. cbn [sat_events gens] in *. apply andb_true_iff in H as [H1 H2].
    destruct (sound_step W g c e c1 I U T H1 S) as [A B]. destruct (IH _ H2 B) as [C D]. split; [congruence|exact D].
Qed.

Lemma new_sat a p t pf tf sh : sat_store a (c_clauses (checker_new p t pf tf sh)).
Proof. split; [intros x []|]. intros v u H. unfold unit_of in H. cbn in H. rewrite vget_nil in H. discriminate. Qed.

(** * Completeness: models of what is stored are models of what was given *)

Definition irr_sat (a : asg) (cl : clauses) : Prop :=
  (forall x, In x (aclauses cl) -> a_irr x <> 0 -> clause_holds a (a_lits x) = true) /\
  (forall v u, unit_of cl v = Some u -> a v = uc_value u).

Lemma irr_perm a cl cl' : Permutation (aclauses cl') (aclauses cl) -> (forall v, unit_of cl' v = unit_of cl v) -> irr_sat a cl' -> irr_sat a cl.
Proof.
  intros P U [S1 S2]. split; [|intros v u Hv; apply S2; congruence]. intros x Hx. apply S1. apply (perm_in _ _ _ (Permutation_sym P) Hx).
Qed.
Lemma irr_same a cl cl' : same_db cl cl' -> irr_sat a cl' -> irr_sat a cl.
Proof. intros [s1 s2 _ _]. apply irr_perm; assumption. Qed.

Lemma store_back a st cl lits (red : bool) st' cl' id r : store_eff st cl lits red st' cl' id r ->
  s_unsat st' = false -> irr_sat a cl' ->
  s_unsat st = false /\ irr_sat a cl /\ (red = false \/ (length lits < 2)%nat -> clause_holds a lits = true).
Proof.
  intros H US S. destruct H; subst; try discriminate.
  - split; [assumption|]. assert (S' : irr_sat a cl) by (eapply irr_perm; eassumption). split; [exact S'|]. intros _.
    destruct S' as [_ S2]. apply S2 in H4. apply clause_holds_in. exists l. split; [left; reflexivity|]. apply lit_holds_eq. exact H4.
  - split; [assumption|]. destruct S as [S1 S2]. split.
    + split; [intros x Hx; apply S1; apply (perm_in _ _ _ (Permutation_sym H1) Hx)|].
      intros v u Hv. apply S2. rewrite H3. destruct (N.eqb_spec (lit_var l) v) as [<-|]; [congruence|exact Hv].
    + intros _. apply clause_holds_in. exists l. split; [left; reflexivity|]. apply lit_holds_eq.
      apply (S2 (lit_var l) (UC (Global (next_clause_id cl)) (is_positive l))). rewrite H3, N.eqb_refl. reflexivity.
  - split; [assumption|]. destruct S as [S1 S2]. split.
    + split; [|intros v u Hv; apply S2; congruence]. intros x Hx Hi. apply (perm_in _ _ _ H1) in Hx as [<-|Hx].
      * replace (a_lits a0) with (a_lits (abump red a0)) by (destruct red; reflexivity).
        apply S1; [apply (perm_in _ _ _ (Permutation_sym H3)); left; reflexivity|]. destruct red; cbn [abump a_irr]; lia.
      * apply S1; [apply (perm_in _ _ _ (Permutation_sym H3)); right; exact Hx|exact Hi].
    + intros [->|L]; [|lia]. apply (S1 (abump false a0)); [apply (perm_in _ _ _ (Permutation_sym H3)); left; reflexivity|]. cbn [abump a_irr]. lia.
  - split; [assumption|]. destruct S as [S1 S2]. split.
    + split; [|intros v u Hv; apply S2; congruence]. intros x Hx Hi.
      apply S1; [apply (perm_in _ _ _ (Permutation_sym H2)); right; exact Hx|exact Hi].
    + intros [->|L]; [|lia]. apply (S1 (AC (next_clause_id cl) 1 0 lits)); [apply (perm_in _ _ _ (Permutation_sym H2)); left; reflexivity|].
      cbn [a_irr]. lia.
Qed.

Lemma add_back a c clause c' : add_eff c clause c' -> s_unsat (c_state c') = false -> irr_sat a (c_clauses c') ->
  s_unsat (c_state c) = false /\ s_prev_id (c_state c') = s_prev_id (c_state c) /\ s_prev_lits (c_state c') = s_prev_lits (c_state c) /\
  irr_sat a (c_clauses c) /\ clause_holds a clause = true.
Proof.
  intros H US S. destruct H as [E ->|E T S1 V1 C1 _|cl1 id r E T SE R]; [congruence| |].
  - rewrite S1 in *. rewrite C1 in S. split; [exact E|]. split; [reflexivity|]. split; [reflexivity|]. split; [exact S|apply clause_holds_taut; exact T].
  - assert (S' : irr_sat a cl1) by (destruct r; destruct R as [R _]; rewrite R in S; exact S).
    destruct (store_back _ _ _ _ _ _ _ _ _ SE US S') as (A&B&C). split; [exact A|].
    assert (ST : c_state c' = c_state c \/ c_state c' = with_unsat (c_state c)) by (eapply store_eff_state; exact SE).
    split; [destruct ST as [-> | ->]; reflexivity|]. split; [destruct ST as [-> | ->]; reflexivity|]. split; [exact B|].
    rewrite <- clause_holds_canon. apply C. left. reflexivity.
Qed.

Lemma units_back a us : forall c c', unit_chain c us c' -> s_unsat (c_state c') = false -> irr_sat a (c_clauses c') ->
  s_unsat (c_state c) = false /\ s_prev_id (c_state c') = s_prev_id (c_state c) /\ s_prev_lits (c_state c') = s_prev_lits (c_state c) /\
  irr_sat a (c_clauses c).
Proof.
  intros c c' H. induction H as [c c' Q _|c l hash rest c1 c' id r hints IMP _ SE _ _ IH]; intros US S.
  - destruct Q as [q1 q2 _ _]. rewrite q2 in *. split; [exact US|]. split; [reflexivity|]. split; [reflexivity|]. eapply irr_same; eassumption.
  - destruct (IH US S) as (A&B&C&D). destruct (store_back _ _ _ _ _ _ _ _ _ SE A D) as (E&F&_).
    assert (ST : c_state c1 = c_state c \/ c_state c1 = with_unsat (c_state c)) by (eapply store_eff_state; exact SE).
    split; [exact E|]. rewrite B, C. split; [destruct ST as [-> | ->]; reflexivity|]. split; [destruct ST as [-> | ->]; reflexivity|]. exact F.
Qed.

Lemma del_back a c clause proof c' : del_eff c clause proof c' -> irr_sat a (c_clauses c') ->
  (forall s, removal_ok c proof (canon clause) s -> clause_holds a (canon clause) = true) -> irr_sat a (c_clauses c).
Proof.
  intros [id r T DE U UC NX ST R] [S1 S2] C. split; [|intros v u Hv; apply S2; congruence]. intros x Hx Hi.
  inversion DE; subst;
    match goal with P : Permutation (aclauses (c_clauses c)) (?a :: _), P' : Permutation (aclauses (c_clauses c')) _ |- _ =>
      rename a into a0; rename P into P0; rename P' into P1 end.
  - destruct (perm_in _ _ _ P0 Hx) as [EQ|Hy]; [|apply S1; [apply (perm_in _ _ _ (Permutation_sym P1) Hy)|exact Hi]].
    subst x. destruct (is_red proof) eqn:RD.
    + exfalso. match goal with A : acopies (negb true) _ = 0 |- _ => cbn [negb acopies] in A; contradiction end.
    + destruct R as (s&RS&_). match goal with A : a_lits _ = canon clause |- _ => rewrite A end. apply (C s RS).
  - destruct (perm_in _ _ _ P0 Hx) as [EQ|Hy].
    2: apply S1; [apply (perm_in _ _ _ (Permutation_sym P1)); right; exact Hy|exact Hi].
    subst x. destruct (is_red proof) eqn:RD.
    + change (a_lits a0) with (a_lits (adrop true a0)).
      apply S1; [apply (perm_in _ _ _ (Permutation_sym P1)); left; reflexivity|exact Hi].
    + destruct R as (s&RS&_). match goal with A : a_lits _ = canon clause |- _ => rewrite A end. apply (C s RS).
Qed.

(** the clause is stored as irredundant *)
Definition kept (cl : clauses) (lits : list N) : Prop :=
  (exists x, In x (aclauses cl) /\ a_irr x <> 0 /\ a_lits x = lits) \/
  (exists l u, lits = [l] /\ unit_of cl (lit_var l) = Some u /\ uc_value u = is_positive l).

Lemma kept_holds a cl lits : kept cl lits -> irr_sat a cl -> clause_holds a lits = true.
Proof.
  intros [(x&H1&H2&<-)|(l&u&->&H2&H3)] [S1 S2]; [auto|]. apply clause_holds_in. exists l. split; [left; reflexivity|].
  apply lit_holds_eq. rewrite <- H3. apply S2. exact H2.
Qed.
Lemma kept_perm cl cl' lits : Permutation (aclauses cl') (aclauses cl) -> (forall v, unit_of cl' v = unit_of cl v) -> kept cl lits -> kept cl' lits.
Proof.
  intros P U [(x&H1&H2)|(l&u&E&H2)]; [left; exists x; split; [apply (perm_in _ _ _ (Permutation_sym P) H1)|exact H2]|].
  right. exists l, u. rewrite U. auto.
Qed.

Lemma store_kept st cl lits (red : bool) st' cl' id r p : store_eff st cl lits red st' cl' id r -> kept cl p -> kept cl' p.
Proof.
  intros H K. destruct H; subst; try (eapply kept_perm; eassumption).
  - destruct K as [(x&K1&K2)|(l'&u&E&K1&K2)]; [left; exists x; split; [apply (perm_in _ _ _ (Permutation_sym H1) K1)|exact K2]|].
    right. exists l', u. rewrite H3. destruct (N.eqb_spec (lit_var l) (lit_var l')) as [EQ|]; [rewrite EQ in H2; congruence|auto].
  - destruct K as [(x&K1&K2&K3)|(l'&u&E&K1&K2)]; [left|right; exists l', u; rewrite H4; auto].
    destruct (perm_in _ _ _ H1 K1) as [<-|Hx].
    + exists (abump red a). split; [apply (perm_in _ _ _ (Permutation_sym H3)); left; reflexivity|]. destruct red; cbn [abump a_irr a_lits]; split; auto; lia.
    + exists x. split; [apply (perm_in _ _ _ (Permutation_sym H3)); right; exact Hx|auto].
  - destruct K as [(x&K1&K2&K3)|(l'&u&E&K1&K2)]; [left|right; exists l', u; rewrite H3; auto].
    exists x. split; [apply (perm_in _ _ _ (Permutation_sym H2)); right; exact K1|auto].
Qed.

Lemma store_kept_new st cl lits st' cl' id r : store_eff st cl lits false st' cl' id r -> s_unsat st' = false -> kept cl' lits.
Proof.
  intros H US. destruct H; subst; try discriminate.
  - right. exists l, (UC (Global id) (is_positive l)). rewrite H2. auto.
  - right. exists l, (UC (Global (next_clause_id cl)) (is_positive l)). rewrite H3, N.eqb_refl. auto.
  - left. exists (abump false a). split; [apply (perm_in _ _ _ (Permutation_sym H3)); left; reflexivity|]. cbn [abump a_irr a_lits]. split; [lia|reflexivity].
  - left. exists (AC (next_clause_id cl) 1 0 lits). split; [apply (perm_in _ _ _ (Permutation_sym H2)); left; reflexivity|]. cbn [a_irr a_lits]. split; [lia|reflexivity].
Qed.

(** The last clause that the checker keeps as "previous irredundant clause", from the events alone. *)
Definition irred_event (last : option (list N)) (e : event) : option (list N) :=
  match e with
  | Step (AtClause false cl _) => Some cl
  | Step (DeleteClause _ _) => None
  | _ => last
  end.
Definition last_irred (es : list event) : option (list N) := fold_left irred_event es None.

(** No variable of the last irredundant derived clause is deleted before a
    clause is deleted or another irredundant clause is derived. *)
Definition keeps_irred (es : list event) : Prop :=
  forall es1 v es2 cl, es = es1 ++ Step (DeleteVar v) :: es2 -> last_irred es1 = Some cl -> forall l, In l cl -> N.div2 l <> v.

Lemma last_irred_snoc es e : last_irred (es ++ [e]) = irred_event (last_irred es) e.
Proof. unfold last_irred. rewrite fold_left_app. reflexivity. Qed.
Lemma keeps_irred_snoc es e : keeps_irred (es ++ [e]) -> keeps_irred es /\
  (forall v cl, e = Step (DeleteVar v) -> last_irred es = Some cl -> forall l, In l cl -> N.div2 l <> v).
Proof.
  intros K. split.
  - intros es1 v es2 cl E. apply (K es1 v (es2 ++ [e]) cl). rewrite E, <- app_assoc. reflexivity.
  - intros v cl ->. apply (K es v [] cl). reflexivity.
Qed.

Definition g0 : N -> nat := fun _ => O.

Record Back (es : list event) (c : ctx) : Prop := {
  bk_model : s_unsat (c_state c) = false -> forall a, irr_sat a (c_clauses c) ->
      exists W, (forall v, W v (gens g0 es v) = a v) /\ sat_events W g0 es = true;
  bk_some : s_prev_id (c_state c) <> None -> exists cl, last_irred es = Some cl /\ s_prev_lits (c_state c) = canon cl;
  bk_prev : s_unsat (c_state c) = false -> s_prev_id (c_state c) <> None -> kept (c_clauses c) (s_prev_lits (c_state c));
}.

Lemma gen_mono e g v : (g v <= gen_event g e v)%nat.
Proof. destruct e as [|s]; cbn [gen_event]; [lia|]. destruct s; try lia. unfold next_gen. destruct (v =? _); lia. Qed.
Lemma gens_mono es : forall g v, (g v <= gens g es v)%nat.
Proof. induction es as [|e es IH]; intros g v; cbn [gens]; [lia|]. specialize (IH (gen_event g e) v). pose proof (gen_mono e g v). lia. Qed.

Lemma sat_events_local W W' es : forall g, (forall v k, (k <= gens g es v)%nat -> W v k = W' v k) ->
  sat_events W g es = sat_events W' g es.
Proof.
  induction es as [|e es IH]; intros g H; [reflexivity|]. cbn [sat_events gens] in *. rewrite (IH _ H). f_equal.
  assert (X : forall cl, clause_holds (at_gen W g) cl = clause_holds (at_gen W' g) cl).
  { intros cl. apply clause_holds_ext. intros l _. unfold at_gen. apply H. pose proof (gens_mono es (gen_event g e) (lit_var l)).
    pose proof (gen_mono e g (lit_var l)). lia. }
  destruct e as [cl|s]; [apply X|]. destruct s; cbn [sat_event]; auto.
Qed.

Lemma at_back a c (red : bool) clause c' : at_eff c red clause c' -> s_unsat (c_state c') = false -> irr_sat a (c_clauses c') ->
  s_unsat (c_state c) = false /\ irr_sat a (c_clauses c) /\ (red = false -> clause_holds a clause = true) /\
  (red = true -> s_prev_id (c_state c') = s_prev_id (c_state c) /\ s_prev_lits (c_state c') = s_prev_lits (c_state c)).
Proof.
  intros [st1 id r hints T IMP _ SE ST _] US S.
  assert (US1 : s_unsat st1 = false) by (rewrite ST in US; destruct red; exact US).
  destruct (store_back _ _ _ _ _ _ _ _ _ SE US1 S) as (A&B&C). split; [exact A|]. split; [exact B|]. split.
  - intros R. rewrite <- clause_holds_canon. apply C. left. exact R.
  - intros ->. rewrite ST. destruct (store_eff_state _ _ _ _ _ _ _ _ SE) as [-> | ->]; split; reflexivity.
Qed.

Lemma back_step es c e c' : Inv c -> event_u32 e -> tr c e c' ->
  (forall v cl, e = Step (DeleteVar v) -> last_irred es = Some cl -> forall l, In l cl -> N.div2 l <> v) ->
  Back es c -> Back (es ++ [e]) c'.
Proof.
  intros I U T K [B1 B2 B3].
  (* steps that keep the generation and only shrink the set of models *)
  assert (KEEP : (forall a, s_unsat (c_state c') = false -> irr_sat a (c_clauses c') ->
      s_unsat (c_state c) = false /\ irr_sat a (c_clauses c) /\ forall W, (forall v, W v (gens g0 es v) = a v) -> sat_event W (gens g0 es) e = true) ->
    (forall g, gen_event g e = g) ->
    forall a, s_unsat (c_state c') = false -> irr_sat a (c_clauses c') ->
      exists W, (forall v, W v (gens g0 (es ++ [e]) v) = a v) /\ sat_events W g0 (es ++ [e]) = true).
  { intros H1 H2 a US S. destruct (H1 a US S) as (X&Y&Z). destruct (B1 X a Y) as (W&E1&E2). exists W.
    rewrite gens_app, sat_events_app. cbn [gens sat_events]. rewrite H2. split; [exact E1|]. rewrite E2, (Z W E1). reflexivity. }
  assert (HOLD : forall W a cl, (forall v, W v (gens g0 es v) = a v) -> clause_holds (at_gen W (gens g0 es)) cl = clause_holds a cl).
  { intros W a cl E. apply clause_holds_ext. intros l _. apply E. }
  assert (ADD : forall cl, add_eff c cl c' \/ add_eff (next_step c) cl c' -> (e = Load cl \/ e = Step (AddClause cl)) -> Back (es ++ [e]) c').
  { intros cl AE EE. constructor.
    - intros US a. apply KEEP; [|intros g; destruct EE as [-> | ->]; reflexivity|exact US]. clear a. intros a _ S.
      destruct AE as [AE|AE]; destruct (add_back _ _ _ _ AE US S) as (X1&X2&X3&X4&X5); (split; [exact X1|]; split; [exact X4|]);
        intros W E; destruct EE as [-> | ->]; cbn [sat_event]; rewrite (HOLD W a cl E); exact X5.
    - assert (ST : s_prev_id (c_state c') = s_prev_id (c_state c) /\ s_prev_lits (c_state c') = s_prev_lits (c_state c)).
      { destruct AE as [AE|AE]; (destruct AE as [E ->|E T' S1 V1 C1 _|cl1 id r E T' SE R];
          [split; reflexivity|rewrite S1; split; reflexivity|]);
        destruct (store_eff_state _ _ _ _ _ _ _ _ SE) as [EQ|EQ]; rewrite EQ; split; reflexivity. }
      destruct ST as [-> ->]. rewrite last_irred_snoc. intros N. destruct (B2 N) as (cl'&A&B). exists cl'. split; [|exact B].
      destruct EE as [-> | ->]; exact A.
    - intros US. destruct AE as [AE|AE]; (destruct AE as [E ->|E T' S1 V1 C1 _|cl1 id r E T' SE R];
        [change (s_unsat (c_state c) = true) in E; change (s_unsat (c_state c) = false) in US; congruence
        |rewrite S1 in *; rewrite C1; exact (B3 US)
        |change (s_unsat (c_state c) = false) in E;
         assert (KK : s_prev_id (c_state c) <> None -> kept cl1 (s_prev_lits (c_state c))) by (intros N; eapply store_kept; [exact SE|auto]);
         assert (KK2 : s_prev_id (c_state c) <> None -> kept (c_clauses c') (s_prev_lits (c_state c))) by (destruct r; destruct R as [-> _]; exact KK);
         destruct (store_eff_state _ _ _ _ _ _ _ _ SE) as [EQ|EQ]; rewrite EQ; exact KK2]). }
  assert (SAME : same_db (c_clauses c) (c_clauses c') -> s_unsat (c_state c') = s_unsat (c_state c) ->
      s_prev_id (c_state c') = s_prev_id (c_state c) -> s_prev_lits (c_state c') = s_prev_lits (c_state c) ->
      (forall g, gen_event g e = g) -> (forall W g, sat_event W g e = true) -> (forall x, irred_event x e = x) -> Back (es ++ [e]) c').
  { intros D X1 X2 X3 G1 G2 G3. constructor; rewrite ?X1, ?X2, ?X3, ?last_irred_snoc, ?G3; auto.
    - intros US a. apply KEEP; [|exact G1|congruence]. clear a. intros a _ S. split; [exact US|]. split; [eapply irr_same; eassumption|auto].
    - intros US N. eapply kept_perm; [apply D|apply D|auto]. }
  destruct e as [cl|s]; cbn [tr] in T; [apply (ADD cl); auto|].
  destruct s as [gl so|gl us|v|v sm|cl|red cl hs|us|cl pf|b|m|l|core hs| ]; cbn [step_eff] in T;
    try (destruct T as (A&B&_); apply SAME; [exact A|rewrite B; reflexivity|rewrite B; reflexivity|rewrite B; reflexivity|reflexivity|reflexivity|reflexivity]).
  - (* DeleteVar *)
    pose proof (delvar_fresh _ _ _ (inv_next _ I) T) as F. destruct T as [_ P UN _ _ ST _].
    change (c_clauses (next_step c)) with (c_clauses c) in *. change (c_state c' = with_step (c_state c) (s_step (c_state c) + 1)) in ST.
    assert (LIFT : forall a, irr_sat a (c_clauses c') -> exists a0, irr_sat a0 (c_clauses c) /\ forall w, w <> v -> a0 w = a w).
    { intros a [S1 S2]. exists (fun w => if w =? v then match unit_of (c_clauses c) v with Some u => uc_value u | None => a v end else a w). split.
      - split.
        + intros x Hx Hi. rewrite (clause_holds_ext _ a); [apply S1; [apply (perm_in _ _ _ (Permutation_sym P) Hx)|exact Hi]|].
          intros l Hl. destruct (N.eqb_spec (lit_var l) v); [exfalso; eapply F; eassumption|reflexivity].
        + intros w u Hw. destruct (N.eqb_spec w v) as [->|NE]; [rewrite Hw; reflexivity|]. apply S2. rewrite UN.
          destruct (N.eqb_spec v w); [congruence|exact Hw].
      - intros w Hw. destruct (N.eqb_spec w v); [contradiction|reflexivity]. }
    constructor; rewrite ?ST, ?last_irred_snoc; cbn [with_step s_unsat s_prev_id s_prev_lits irred_event]; auto.
    + intros US a S. destruct (LIFT a S) as (a0&S0&E0). destruct (B1 US a0 S0) as (W&W1&W2).
      exists (fun w k => if (w =? v) && (Nat.eqb k (Datatypes.S (gens g0 es v))) then a v else W w k).
      rewrite gens_app, sat_events_app. cbn [gens sat_events sat_event gen_event]. split.
      * intros w. unfold next_gen. destruct (N.eqb_spec w v) as [->|NE]; cbn [andb]; [rewrite Nat.eqb_refl; reflexivity|].
        rewrite W1. apply E0. exact NE.
      * rewrite ?andb_true_r. rewrite <- W2. apply sat_events_local. intros w k Hk.
        destruct (N.eqb_spec w v) as [->|NE]; cbn [andb]; [|reflexivity]. destruct (Nat.eqb_spec k (Datatypes.S (gens g0 es v))); [lia|reflexivity].
    + intros US N. destruct (B2 N) as (cl&L&E). destruct (B3 US N) as [(x&K1&K2)|(l&u&EL&K1&K2)].
      * left. exists x. split; [apply (perm_in _ _ _ (Permutation_sym P) K1)|exact K2].
      * right. exists l, u. rewrite UN. split; [exact EL|]. destruct (N.eqb_spec v (lit_var l)) as [EV|]; [|auto]. exfalso.
        apply (K v cl eq_refl L l); [|symmetry; exact EV]. apply canonical_in. change (In l (canon cl)). rewrite <- E, EL. left. reflexivity.
  - (* AddClause *) apply (ADD cl); auto.
  - (* AtClause *) constructor; rewrite ?last_irred_snoc; cbn [irred_event].
    + intros US a. apply KEEP; [|reflexivity|exact US]. clear a. intros a _ S. destruct (at_back _ _ _ _ _ T US S) as (X1&X2&_&_).
      split; [exact X1|]. split; [exact X2|reflexivity].
    + destruct red.
      * destruct T as [st1 id r hints T IMP _ SE ST _]. rewrite ST. destruct (store_eff_state _ _ _ _ _ _ _ _ SE) as [-> | ->]; exact B2.
      * intros _. exists cl. split; [reflexivity|]. destruct T as [st1 id r hints T IMP _ SE ST _]. rewrite ST. reflexivity.
    + destruct T as [st1 id r hints T IMP _ SE ST _]. rewrite ST. destruct red.
      * intros US N. eapply store_kept; [exact SE|].
        destruct (store_eff_state _ _ _ _ _ _ _ _ SE) as [EQ|EQ]; rewrite EQ in *; [|discriminate]. apply (B3 US N).
      * intros US _. apply (store_kept_new _ _ _ _ _ _ _ SE). exact US.
  - (* UnitClauses *) constructor; rewrite ?last_irred_snoc; cbn [irred_event].
    + intros US a. apply KEEP; [|reflexivity|exact US]. clear a. intros a _ S. destruct (units_back _ _ _ _ T US S) as (X1&_&_&X2).
      split; [exact X1|]. split; [exact X2|reflexivity].
    + assert (ST : s_prev_id (c_state c') = s_prev_id (c_state (next_step c)) /\ s_prev_lits (c_state c') = s_prev_lits (c_state (next_step c))).
      { clear - T. induction T as [x x' Q _|x l h rest x1 x' id r hints _ _ SE _ _ IH]; [destruct Q as [_ -> _ _]; auto|].
        destruct IH as [-> ->]. destruct (store_eff_state _ _ _ _ _ _ _ _ SE) as [-> | ->]; split; reflexivity. }
      destruct ST as [-> ->]. exact B2.
    + assert (G : (s_unsat (c_state (next_step c)) = false -> s_prev_id (c_state (next_step c)) <> None ->
                     kept (c_clauses (next_step c)) (s_prev_lits (c_state (next_step c)))) ->
                  s_unsat (c_state c') = false -> s_prev_id (c_state c') <> None -> kept (c_clauses c') (s_prev_lits (c_state c'))).
      { clear - T. induction T as [x x' Q _|x l h rest x1 x' id r hints _ _ SE _ _ IH]; intros H.
        - destruct Q as [q1 -> _ _]. intros US N. eapply kept_perm; [apply q1|apply q1|auto].
        - apply IH. intros US N. eapply store_kept; [exact SE|].
          destruct (store_eff_state _ _ _ _ _ _ _ _ SE) as [EQ|EQ]; rewrite EQ in *; [|discriminate]. auto. }
      apply G. exact B3.
  - (* DeleteClause *) pose proof T as T0. destruct T as [id r T DE UN UC NX ST R].
    constructor; rewrite ?ST; cbn [with_prev s_unsat s_prev_id next_step with_state c_state with_step]; try congruence.
    intros US a. apply KEEP; [|reflexivity|rewrite ST; exact US]. clear a. intros a _ S. split; [exact US|]. split; [|reflexivity].
    apply (del_back a _ _ _ _ T0 S). intros s RO. destruct pf; cbn [removal_ok] in RO; [contradiction| |].
    + destruct RO as (P1&P2&P3). change (s_prev_id (c_state c) = Some s) in P1. change (s_prev_lits (c_state c) <> canon cl) in P2.
      change (forall l, In l (s_prev_lits (c_state c)) -> In l (canon cl)) in P3.
      assert (KP : kept (c_clauses c') (s_prev_lits (c_state c))).
      { assert (N : s_prev_id (c_state c) <> None) by congruence.
        destruct (B3 US N) as [(x&K1&K2&K3)|(l&u&EL&K1&K2)]; [left|right; exists l, u; rewrite UN; auto].
        exists x. split; [|auto]. change (c_clauses (next_step c)) with (c_clauses c) in DE.
        inversion DE; subst;
          match goal with P : Permutation (aclauses (c_clauses c)) (?a :: _), P' : Permutation (aclauses (c_clauses c')) _ |- _ =>
            destruct (perm_in _ _ _ P K1) as [EQ|Hy]; [subst a; congruence|]; apply (perm_in _ _ _ (Permutation_sym P')); auto; right; exact Hy end. }
      pose proof (kept_holds a _ _ KP S) as H. apply clause_holds_in in H as (l&H1&H2). apply clause_holds_in. exists l. auto.
    + destruct RO as (l&H1&H2). apply clause_holds_in. exists l. split; [exact H1|]. apply lit_holds_eq.
      rewrite <- UN in H2.
      destruct S as [_ S2]. apply (S2 _ _ H2).
Qed.

Lemma back_run c0 : Inv c0 -> Back [] c0 -> forall es c' u, Forall event_u32 es -> keeps_irred es -> run c0 es = ROk u c' -> Back es c'.
Proof.
  intros I0 B0 es c' u F K R. revert K.
  refine (run_ind_r (fun es c => keeps_irred es -> Back es c) c0 I0 (fun _ => B0) _ es c' u F R).
  intros es1 c e c1 I U I1 T IH K. apply keeps_irred_snoc in K as [K1 K2]. exact (back_step es1 c e c1 I U T K2 (IH K1)).
Qed.

Lemma new_back p t pf tf sh : Back [] (checker_new p t pf tf sh).
Proof.
  constructor; cbn; try congruence. intros _ a _. exists (const_world a). split; reflexivity.
Qed.

(** a model accepted by the checker extends to a model of the stored clauses *)
Lemma model_extends c m : model_ok c m -> exists a, cube_holds a m = true /\ sat_store a (c_clauses c).
Proof.
  intros (M1&M2&M3&M4).
  exists (fun v => match unit_of (c_clauses c) v with Some u => uc_value u | None => existsb (N.eqb (2 * v)) m end).
  assert (L : forall l, In l m -> lit_holds (fun v => match unit_of (c_clauses c) v with Some u => uc_value u | None => existsb (N.eqb (2 * v)) m end) l = true).
  { intros l Hl. apply lit_holds_eq. destruct (unit_of (c_clauses c) (lit_var l)) as [u|] eqn:E; [apply (M2 l Hl u E)|].
    assert (DEC : l = 2 * lit_var l + (if is_positive l then 0 else 1)).
    { change (lit_var l) with (N.div2 l). rewrite is_pos_neg, is_negative_odd. pose proof (N.div2_odd l). destruct (N.odd l); cbn [negb N.b2n] in *; lia. }
    destruct (is_positive l) eqn:P.
    - apply existsb_exists. exists l. split; [exact Hl|]. apply N.eqb_eq. lia.
    - destruct (existsb _ m) eqn:X; [|reflexivity]. exfalso. apply existsb_exists in X as (y&Hy&EY). apply N.eqb_eq in EY. subst y.
      apply (M1 l Hl). replace (lnot l) with (2 * lit_var l); [exact Hy|]. rewrite lnot_val2.
      rewrite is_pos_neg, is_negative_odd in P. destruct (N.odd l); [|discriminate]. lia. }
  split.
  - apply forallb_forall. exact L.
  - split; [|intros v u Hv; rewrite Hv; reflexivity]. intros x Hx. destruct (M4 x Hx) as (l&H1&H2). apply clause_holds_in. exists l. auto.
Qed.
Lemma sat_irr a cl : sat_store a cl -> irr_sat a cl.
Proof. intros [S1 S2]. split; auto. Qed.

(** * Observable refutations *)
(** the empty clause was reported as derived *)
Definition refuted (log : list checked_step) : Prop :=
  exists id red hints, In (KAtClause id red [] hints) log \/ In (KAddClause id []) log.

Record Obs (c : ctx) : Prop := {
  ob_log : refuted (proc_log (c_proc c)) -> s_unsat (c_state c) = true;
  ob_conflict : unit_conflict (c_clauses c) <> None -> s_unsat (c_state c) = true;
}.

Lemma refuted_app l ks : refuted (l ++ ks) -> refuted l \/ refuted ks.
Proof. intros (id&red&h&[H|H]); apply in_app_or in H as [H|H]; [left|right|left|right]; exists id, red, h; auto. Qed.
Lemma not_refuted ks : (forall k, In k ks -> match k with KAtClause _ _ [] _ | KAddClause _ [] => False | _ => True end) -> ~ refuted ks.
Proof. intros H (id&red&h&[X|X]); apply H in X; exact X. Qed.

Lemma store_unsat st cl lits red st' cl' id r : store_eff st cl lits red st' cl' id r ->
  (s_unsat st = true -> s_unsat st' = true) /\ (lits = [] -> s_unsat st' = true) /\
  (unit_conflict cl' <> None -> s_unsat st' = true \/ unit_conflict cl <> None).
Proof.
  intros H. destruct H; subst; (split; [auto|]); (split; [try discriminate; auto|]).
  all: try (intros X; right; congruence). all: try (intros X; left; reflexivity).
  all: intros X; exfalso; rewrite X in H; cbn in H; lia.
Qed.

Lemma obs_step c e c' : Obs c -> tr c e c' -> Obs c' /\ (s_unsat (c_state c) = true -> s_unsat (c_state c') = true).
Proof.
  intros [O1 O2] T.
  assert (QUIET : forall ks, proc_log (c_proc c') = proc_log (c_proc c) ++ ks -> (forall k, In k ks -> match k with KAtClause _ _ [] _ | KAddClause _ [] => False | _ => True end) ->
    unit_conflict (c_clauses c') = unit_conflict (c_clauses c) -> s_unsat (c_state c') = s_unsat (c_state c) ->
    Obs c' /\ (s_unsat (c_state c) = true -> s_unsat (c_state c') = true)).
  { intros ks E NK UC US. split; [|rewrite US; auto]. constructor; rewrite US, ?UC; auto. rewrite E. intros H.
    apply refuted_app in H as [H|H]; [auto|]. exfalso. revert H. apply not_refuted. exact NK. }
  assert (ADD : forall cl, add_eff c cl c' \/ add_eff (next_step c) cl c' -> Obs c' /\ (s_unsat (c_state c) = true -> s_unsat (c_state c') = true)).
  { intros cl [AE|AE]; (destruct AE as [E ->|E T' S1 V1 C1 EM|cl1 id r E T' SE R];
      [split; [constructor; [exact O1|exact O2]|auto]| |]).
    1,3: apply (QUIET _ (em_log _ _ _ EM)); [intros k [<-|[]]; exact Logic.I|rewrite C1; reflexivity|rewrite S1; reflexivity].
    all: destruct (store_unsat _ _ _ _ _ _ _ _ SE) as (U1&U2&U3); split; [|exact U1]; constructor.
    1,3: intros RF; assert (RF' : refuted (proc_log (c_proc c)) \/ canon cl = []);
      [|destruct RF' as [X|X]; [apply U1, O1, X|apply U2, X]].
    1,2: destruct r; destruct R as [_ [EM _ _ _]]; rewrite EM in RF; apply refuted_app in RF as [RF|RF]; [left; exact RF| |left; exact RF| |left; exact RF|];
      right; destruct RF as (i&rd&h&[X|X]); cbn [app In] in X; destruct X as [X|X]; try discriminate; try contradiction;
      try (destruct X as [X|X]; try discriminate; contradiction); inversion X; reflexivity.
    all: intros X; assert (X' : unit_conflict cl1 <> None) by (destruct r; destruct R as [R _]; rewrite R in X; exact X);
      destruct (U3 X') as [Y|Y]; [exact Y|apply U1, O2, Y]. }
  destruct e as [cl|s]; cbn [tr] in T; [apply (ADD cl); auto|].
  destruct s as [gl so|gl us|v|v sm|cl|red cl hs|us|cl pf|b|m|l|core hs| ]; cbn [step_eff] in T.
  1,2,4,9: destruct T as (A&B&ks&EM&KS); apply (QUIET ks (em_log _ _ _ EM)); [|apply A|rewrite B; reflexivity];
    intros k Hk; rewrite Forall_forall in KS; specialize (KS k Hk); destruct k; try contradiction; exact Logic.I.
  - destruct T as [_ _ _ UC _ ST EM]. apply (QUIET _ (em_log _ _ _ EM)); [|exact UC|rewrite ST; reflexivity].
    intros k Hk. destruct (unit_of _ v) as [[[] ?]|] in Hk; cbn [In] in Hk; try contradiction; destruct Hk as [<-|[]]; exact Logic.I.
  - apply (ADD cl); auto.
  - destruct T as [st1 id r hints T IMP _ SE ST EM]. destruct (store_unsat _ _ _ _ _ _ _ _ SE) as (U1&U2&U3).
    assert (US : s_unsat (c_state c') = s_unsat st1) by (rewrite ST; destruct red; reflexivity). rewrite US. split; [|exact U1].
    constructor; rewrite US.
    + destruct EM as [EM _ _ _]. rewrite EM. intros RF. apply refuted_app in RF as [RF|RF]; [apply U1, O1, RF|]. apply U2.
      destruct RF as (i&rd&h&[X|X]); destruct r; cbn [In] in X; try contradiction; destruct X as [X|[]]; try discriminate; inversion X; reflexivity.
    + intros X. destruct (U3 X) as [Y|Y]; [exact Y|apply U1, O2, Y].
  - assert (G : forall x x', unit_chain x us x' -> Obs x -> Obs x' /\ (s_unsat (c_state x) = true -> s_unsat (c_state x') = true)).
    { clear. intros x x' T. induction T as [x x' Q P|x l h rest x1 x' id r hints _ _ SE EM _ IH]; intros [O1 O2].
      - destruct Q as [q1 q2 _ _]. split; [|rewrite q2; auto]. constructor; rewrite q2, ?P; [exact O1|]. destruct q1 as [_ _ _ ->]. exact O2.
      - destruct (store_unsat _ _ _ _ _ _ _ _ SE) as (U1&U2&U3). destruct IH as [A B]; [|split; [exact A|auto]]. constructor.
        + destruct EM as [EM _ _ _]. rewrite EM. intros RF. apply refuted_app in RF as [RF|RF]; [apply U1, O1, RF|]. exfalso. revert RF.
          apply not_refuted. intros k Hk. destruct r; cbn [In] in Hk; try contradiction. destruct Hk as [<-|[]]. exact Logic.I.
        + intros X. destruct (U3 X) as [Y|Y]; [exact Y|apply U1, O2, Y]. }
    apply (G _ _ T). constructor; [exact O1|exact O2].
  - destruct T as [id r T DE UN UC NX ST R].
    assert (EX : exists ks, emits (next_step c) c' ks /\ forall k, In k ks -> match k with KAtClause _ _ [] _ | KAddClause _ [] => False | _ => True end).
    { destruct (is_red pf); [|destruct R as (s&_&R)]; (eexists; split; [exact R|]); intros k Hk; destruct r; cbn [In] in Hk; try contradiction;
        destruct Hk as [<-|[]]; exact Logic.I. }
    destruct EX as (ks&EM&NK). apply (QUIET ks (em_log _ _ _ EM) NK UC). rewrite ST. reflexivity.
  - destruct T as (A&B&EM&_). apply (QUIET _ (em_log _ _ _ EM)); [intros k [<-|[]]; exact Logic.I|apply A|rewrite B; reflexivity].
  - destruct T as (A&B&EM). apply (QUIET _ (em_log _ _ _ EM)); [intros k [<-|[]]; exact Logic.I|apply A|rewrite B; reflexivity].
  - destruct T as (A&B&_&_&hints&EM&_). apply (QUIET _ (em_log _ _ _ EM)); [intros k [<-|[]]; exact Logic.I|apply A|rewrite B; reflexivity].
  - destruct T as (A&B&EM). apply (QUIET _ (em_log _ _ _ EM)); [intros k []|apply A|rewrite B; reflexivity].
Qed.

Lemma obs_run : forall es c c' u, Inv c -> Forall event_u32 es -> run c es = ROk u c' ->
  Obs c -> Obs c' /\ (s_unsat (c_state c) = true -> s_unsat (c_state c') = true).
Proof.
  apply (run_ind (fun c es c' => Obs c -> Obs c' /\ (s_unsat (c_state c) = true -> s_unsat (c_state c') = true))); auto.
  intros c e c1 es c' I U I1 T IH O. destruct (obs_step _ _ _ O T) as [A B]. destruct (IH A) as [C D]. auto.
Qed.

Lemma new_obs p t pf tf sh : Obs (checker_new p t pf tf sh).
Proof. constructor; cbn; [intros (id&red&h&[[]|[]])|congruence]. Qed.

(** the same for the transcript *)
Definition trans_obs (c : ctx) : Prop := In TUnsat (trans_log (c_proc c)) -> refuted (proc_log (c_proc c)).

Lemma emits_trans_obs c c' ks : emits c c' ks -> trans_obs c -> trans_obs c'.
Proof.
  intros [E _ _ (ts&T&H)] O X. rewrite T in X. rewrite E. apply in_app_or in X as [X|X].
  - destruct (O X) as (i&r&h&Y). exists i, r, h. rewrite !in_app_iff. tauto.
  - destruct (H _ X) as (vs&k&K1&K2). destruct k as [v [[u w n]|]|id cl|id s cl|id cl|id r cl h|id cl|id kp cl h|id kp cl pv|id cl|m|m|core h];
      cbn [transcript_step] in K2; try discriminate;
      try (destruct (map_user _ _); discriminate); try (destruct w, n; discriminate); try (destruct (user_from_proof_var _ _); discriminate).
    destruct cl; [|discriminate]. exists id, r, h. left. apply in_or_app. right. exact K1.
Qed.

Lemma tr_emits c e c' : tr c e c' -> exists ks, emits c c' ks.
Proof.
  intros T.
  assert (NS : forall ks, emits (next_step c) c' ks -> exists ks, emits c c' ks).
  { intros ks EM. exists ks. eapply emits_proc; [exact EM|reflexivity|reflexivity]. }
  assert (ADD : forall x cl, add_eff x cl c' -> exists ks, emits x c' ks).
  { intros x cl [E ->|E T' S1 V1 C1 EM|cl1 id r E T' SE R]; [exists []; apply emits_nil; reflexivity|eauto|].
    destruct r; destruct R as [_ R]; eauto. }
  destruct e as [cl|s]; cbn [tr] in T; [eauto|].
  destruct s as [gl so|gl us|v|v sm|cl|red cl hs|us|cl pf|b|m|l|core hs| ]; cbn [step_eff] in T.
  1,2,4,9: destruct T as (_&_&ks&EM&_); eauto.
  - destruct T as [_ _ _ _ _ _ EM]; eauto.
  - destruct (ADD _ _ T). eauto.
  - destruct T; eauto.
  - assert (G : forall x x', unit_chain x us x' -> exists ks, emits x x' ks).
    { clear. intros x x' T. induction T as [x x' Q P|x l h rest x1 x' id r hints _ _ SE EM _ [ks IH]]; [exists []; apply emits_nil; exact P|].
      eexists. eapply emits_trans; eassumption. }
    destruct (G _ _ T); eauto.
  - destruct T as [id r T DE UN UC NX ST R]. destruct (is_red pf); [eauto|]. destruct R as (s&_&R); eauto.
  - destruct T as (A&B&EM&_); eauto.
  - destruct T as (A&B&EM); eauto.
  - destruct T as (A&B&_&_&hints&EM&_); eauto.
  - destruct T as (A&B&EM); eauto.
Qed.

Lemma trans_obs_run : forall es c c' u, Inv c -> Forall event_u32 es -> run c es = ROk u c' -> trans_obs c -> trans_obs c'.
Proof.
  apply (run_ind (fun c es c' => trans_obs c -> trans_obs c')); auto.
  intros c e c1 es c' I U I1 T IH O. apply IH. destruct (tr_emits _ _ _ T) as [ks EM]. eapply emits_trans_obs; eassumption.
Qed.

(** conversely, the checker's flag is only set when a refutation was or will be reported *)
Definition will_report (c : ctx) : Prop := refuted (proc_log (c_proc c)) \/ unit_conflict (c_clauses c) <> None.

Lemma refuted_grow l ks : refuted l -> refuted (l ++ ks).
Proof. intros (i&r&h&X). exists i, r, h. rewrite !in_app_iff. tauto. Qed.

Lemma store_flag st cl lits red st' cl' id r : store_eff st cl lits red st' cl' id r -> s_unsat st' = true ->
  (unit_conflict cl <> None -> unit_conflict cl' <> None) /\ (s_unsat st = true \/ (lits = [] /\ r = SNew) \/ unit_conflict cl' <> None).
Proof. intros H US. destruct H; subst; (split; [congruence|]); auto. right. right. congruence. Qed.

Lemma flag_step c e c' : tr c e c' -> (s_unsat (c_state c) = true -> will_report c) -> s_unsat (c_state c') = true -> will_report c'.
Proof.
  intros T O.
  assert (QUIET : (exists ks, emits c c' ks) ->
    unit_conflict (c_clauses c') = unit_conflict (c_clauses c) -> s_unsat (c_state c') = s_unsat (c_state c) ->
    s_unsat (c_state c') = true -> will_report c').
  { intros (ks&[E _ _ _]) UC US X. rewrite US in X. destruct (O X) as [R|R]; [left; rewrite E; apply refuted_grow; exact R|right; congruence]. }
  pose proof (tr_emits _ _ _ T) as EX.
  assert (ADD : forall x cl, c_state x = c_state c \/ x = next_step c -> c_clauses x = c_clauses c -> c_proc x = c_proc c -> add_eff x cl c' -> s_unsat (c_state c') = true -> will_report c').
  { intros x cl SX CX PX AE US. assert (SU : s_unsat (c_state x) = s_unsat (c_state c)) by (destruct SX as [-> | ->]; reflexivity).
    destruct AE as [E ->|E T' S1 V1 C1 EM|cl1 id r E T' SE R].
    - unfold will_report. rewrite CX, PX. apply O. congruence.
    - rewrite S1 in US. congruence.
    - destruct (store_flag _ _ _ _ _ _ _ _ SE US) as [_ [X|[[X1 ->]|X]]]; [congruence| |].
      + destruct R as [_ [EM _ _ _]]. left. exists id, false, []. right. rewrite EM, X1. apply in_or_app. right. left. reflexivity.
      + right. destruct r; destruct R as [-> _]; exact X. }
  destruct e as [cl|s]; cbn [tr] in T; [eapply ADD with (x := c); eauto|].
  destruct s as [gl so|gl us|v|v sm|cl|red cl hs|us|cl pf|b|m|l|core hs| ]; cbn [step_eff] in T;
    try (destruct T as (A&B&_); apply QUIET; [exact EX|apply A|rewrite B; reflexivity]).
  - destruct T as [_ _ _ UC _ ST _]. apply QUIET; [exact EX|exact UC|rewrite ST; reflexivity].
  - eapply ADD with (x := next_step c); eauto.
  - destruct T as [st1 id r hints T IMP _ SE ST EM]. intros US.
    assert (US1 : s_unsat st1 = true) by (rewrite ST in US; destruct red; exact US).
    destruct (store_flag _ _ _ _ _ _ _ _ SE US1) as [U1 [X|[[X1 ->]|X]]].
    + destruct EM as [EM _ _ _]. destruct (O X) as [R|R]; [left; rewrite EM; apply refuted_grow; exact R|right; apply U1; exact R].
    + destruct EM as [EM _ _ _]. left. exists id, red, hints. left. rewrite EM, X1. apply in_or_app. right. left. reflexivity.
    + right. exact X.
  - assert (G : forall x x', unit_chain x us x' -> (s_unsat (c_state x) = true -> will_report x) -> s_unsat (c_state x') = true -> will_report x').
    { clear. intros x x' T. induction T as [x x' Q P|x l h rest x1 x' id r hints _ _ SE EM _ IH]; intros O.
      - destruct Q as [q1 q2 _ _]. unfold will_report. rewrite q2, P. destruct q1 as [_ _ _ ->]. exact O.
      - apply IH. intros US. destruct (store_flag _ _ _ _ _ _ _ _ SE US) as [U1 [X|[[X1 _]|X]]]; [|discriminate|right; exact X].
        destruct EM as [EM _ _ _]. destruct (O X) as [R|R]; [left; rewrite EM; apply refuted_grow; exact R|right; apply U1; exact R]. }
    apply (G _ _ T). exact O.
  - destruct T as [id r T DE UN UC NX ST R]. apply QUIET; [exact EX|exact UC|rewrite ST; reflexivity].
Qed.

Lemma flag_run : forall es c c' u, Inv c -> Forall event_u32 es -> run c es = ROk u c' ->
  (s_unsat (c_state c) = true -> will_report c) -> s_unsat (c_state c') = true -> will_report c'.
Proof.
  apply (run_ind (fun c es c' => (s_unsat (c_state c) = true -> will_report c) -> s_unsat (c_state c') = true -> will_report c')); auto.
  intros c e c1 es c' I U I1 T IH O. apply IH. eapply flag_step; eassumption.
Qed.

(** * Assumptions in force, from the events alone *)
Definition assume_event (cur : list N) (e : event) : list N := match e with Step (Assumptions l) => l | _ => cur end.
Definition assumed (es : list event) : list N := fold_left assume_event es [].

Lemma prev_assume c s c' : step_eff c s c' -> s_assumptions (c_state c') = match s with Assumptions l => canon l | _ => s_assumptions (c_state c) end.
Proof.
  assert (SE : forall st cl lits red st' cl' id r, store_eff st cl lits red st' cl' id r -> s_assumptions st' = s_assumptions st).
  { intros st cl lits red st' cl' id r H. destruct (store_eff_state _ _ _ _ _ _ _ _ H) as [-> | ->]; reflexivity. }
  intros T. destruct s as [gl so|gl us|v|v sm|cl|red cl hs|us|cl pf|b|m|l|core hs| ]; cbn [step_eff] in T;
    try (destruct T as (A&B&_); rewrite B; reflexivity).
  - destruct T as [_ _ _ UC _ ST _]. rewrite ST. reflexivity.
  - destruct T as [E ->|E T' S1 V1 C1 EM|cl1 id r E T' S R]; [reflexivity|rewrite S1; reflexivity|]. apply (SE _ _ _ _ _ _ _ _ S).
  - destruct T as [st1 id r hints T IMP _ S ST EM]. rewrite ST. destruct red; apply (SE _ _ _ _ _ _ _ _ S).
  - induction T as [x x' Q P|x l h rest x1 x' id r hints _ _ S EM _ IH]; [destruct Q as [_ -> _ _]; reflexivity|].
    rewrite IH. apply (SE _ _ _ _ _ _ _ _ S).
  - destruct T as [id r T DE UN UC NX ST R]. rewrite ST. reflexivity.
Qed.

Lemma assumed_run c0 es c u : Inv c0 -> s_assumptions (c_state c0) = [] -> Forall event_u32 es -> run c0 es = ROk u c ->
  s_assumptions (c_state c) = canon (assumed es).
Proof.
  intros I0 E0 F R. refine (run_ind_r (fun es c => s_assumptions (c_state c) = canon (assumed es)) c0 I0 E0 _ es c u F R).
  intros es1 c1 e c2 I U I1 T IH. unfold assumed in *. rewrite fold_left_app. cbn [fold_left].
  destruct e as [cl|s]; cbn [tr assume_event] in *.
  - destruct T as [E ->|E T' S1 V1 C1 EM|cl1 id r E T' S RR]; [exact IH|rewrite S1; exact IH|].
    destruct (store_eff_state _ _ _ _ _ _ _ _ S) as [-> | ->]; exact IH.
  - rewrite (prev_assume _ _ _ T). destruct s; try exact IH. reflexivity.
Qed.
