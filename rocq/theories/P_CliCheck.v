(** C49: the exit code and the output of [varisat --check]. *)
From Coq Require Import Arith ZArith String ZifyBool ZifyNat ZifyN Permutation Sorted.
From Verif Require Import Spec Lit LitProofs Vec SortedLits SortedLitsProofs Hash HashProofs Vli BinFormat Checker CheckerStore CheckerInv CheckerOps CheckerRup CheckerSteps CheckerRun P_Checker CliCheck.
From Verif Require CheckerSafe P_CheckerSafe Cnf Dimacs DimacsSpec DimacsRoundProofs Cli P_Cli P_Dimacs.
Import ListNotations.
Local Open Scope N_scope.

(** * The lines of the output *)
Definition out_lines (text : list N) : list (list N) := DimacsSpec.split Dimacs.is_nl text.
Definition says (text : list N) (s : string) : Prop := In (Cli.bytes s) (out_lines text).

Definition no_nl (w : list N) : Prop := forallb (fun b => negb (Dimacs.is_nl b)) w = true.
Definition unlines (ls : list (list N)) : list N := flat_map (fun w => w ++ [10]) ls.
Lemma lines_unlines ls : Forall no_nl ls -> out_lines (unlines ls) = ls ++ [[]].
Proof.
  unfold out_lines. induction 1 as [|w ls H _ IH]; cbn [unlines flat_map app]; [reflexivity|].
  fold (unlines ls). rewrite <- app_assoc. cbn [app]. rewrite (DimacsRoundProofs.split_piece Dimacs.is_nl w 10 _ H eq_refl), IH. reflexivity.
Qed.
Lemma unlines_app a b : unlines (a ++ b) = unlines a ++ unlines b.
Proof. apply flat_map_app. Qed.
Lemma line_unlines s : Cli.line s = unlines [Cli.bytes s].
Proof. unfold unlines, Cli.line. cbn [flat_map]. rewrite app_nil_r. reflexivity. Qed.

Record shown (ls : list (list N)) (log : list transcript_item) : Prop := {
  sh_nl : Forall no_nl ls;
  sh_t : Forall (fun w => exists v, w = Cli.bytes "t " ++ v) ls;
  sh_unsat : In (Cli.bytes "t UNSAT") ls <-> In TUnsat log;
  sh_sat : In (Cli.bytes "t SAT") ls <-> exists m, In (TModel m) log;
}.
Lemma number_no_nl n : no_nl (number n).
Proof. apply (proj2 (P_Cli.itoa_no_sep _)). Qed.
Lemma no_nl_app a b : no_nl a -> no_nl b -> no_nl (a ++ b).
Proof. unfold no_nl. intros A B. rewrite forallb_app, A, B. reflexivity. Qed.

(** A line that is neither of the two verdicts *)
Definition plain (w : list N) : Prop := no_nl w /\ (exists v, w = Cli.bytes "t " ++ v) /\ w <> Cli.bytes "t UNSAT" /\ w <> Cli.bytes "t SAT".
Lemma numbered a n b : no_nl a -> no_nl b -> (exists v, a = Cli.bytes "t " ++ v) ->
  (forall x, a ++ x ++ b <> Cli.bytes "t UNSAT") -> (forall x, a ++ x ++ b <> Cli.bytes "t SAT") -> plain (a ++ number n ++ b).
Proof.
  intros A B (v&->) C D. split; [apply no_nl_app; [exact A|apply no_nl_app; [apply number_no_nl|exact B]]|].
  split; [exists (v ++ number n ++ b); apply app_assoc_reverse|]. auto.
Qed.
Lemma summary_plain s n : exists w, summary_line s n = unlines [w] /\ plain w.
Proof.
  assert (G : forall a b, no_nl (Cli.bytes a) -> no_nl (Cli.bytes b) -> (exists v, Cli.bytes a = Cli.bytes "t " ++ v) ->
    (forall x, Cli.bytes a ++ x ++ Cli.bytes b <> Cli.bytes "t UNSAT") -> (forall x, Cli.bytes a ++ x ++ Cli.bytes b <> Cli.bytes "t SAT") ->
    exists w, Cli.bytes a ++ number n ++ Cli.line b = unlines [w] /\ plain w).
  { intros a b A B C D E. exists (Cli.bytes a ++ number n ++ Cli.bytes b). split; [|apply numbered; assumption].
    unfold unlines, Cli.line. cbn [flat_map]. rewrite app_nil_r, <- !app_assoc. reflexivity. }
  destruct s; cbn [summary_line]; apply G; try reflexivity; try (intros x; discriminate); eexists; reflexivity.
Qed.

Lemma shown_add ls log w t : shown ls log -> plain w -> (forall m, t <> TModel m) -> t <> TUnsat -> shown (ls ++ [w]) (log ++ [t]).
Proof.
  intros [A B C D] (P1&P2&P3&P4) M U. constructor.
  - apply Forall_app. auto.
  - apply Forall_app. auto.
  - rewrite !in_app_iff, C. cbn [In]. intuition congruence.
  - rewrite in_app_iff, D. cbn [In]. split.
    + intros [(m&H)|[H|[]]]; [exists m; apply in_or_app; auto|congruence].
    + intros (m&H). apply in_app_or in H as [H|[H|[]]]; [eauto|destruct (M m H)].
Qed.
Lemma shown_quiet ls log t : shown ls log -> (forall m, t <> TModel m) -> t <> TUnsat -> shown ls (log ++ [t]).
Proof.
  intros [A B C D] M U. constructor; auto.
  - rewrite in_app_iff, C. cbn [In]. intuition congruence.
  - rewrite D. split.
    + intros (m&H). exists m. apply in_or_app; auto.
    + intros (m&H). apply in_app_or in H as [H|[H|[]]]; [eauto|destruct (M m H)].
Qed.
Lemma shown_more ls log w : shown ls log -> plain w -> shown (ls ++ [w]) log.
Proof.
  intros [A B C D] (P1&P2&P3&P4). constructor; rewrite ?in_app_iff; cbn [In]; [apply Forall_app; auto..| |]; tauto || intuition congruence.
Qed.
Lemma summary_shown s t ls log : t_out t = unlines ls -> shown ls log -> exists ls', t_out (print_summary s t) = unlines ls' /\ shown ls' log.
Proof.
  intros E H. unfold print_summary. destruct (same_summary _ _); cbn [t_out]; [eauto|]. destruct (t_last t) as [s0|].
  - destruct (summary_plain s0 (t_counter t)) as (w&W&P). exists (ls ++ [w]). rewrite W, E, unlines_app. split; [reflexivity|]. apply shown_more; assumption.
  - exists ls. rewrite app_nil_r. auto.
Qed.
Lemma step_shown t log i ls : t_out t = unlines ls -> shown ls log -> exists ls', t_out (print_step t i) = unlines ls' /\ shown ls' (log ++ [i]).
Proof.
  intros E H.
  assert (S : forall s, exists ls', t_out (print_summary s t) = unlines ls' /\ shown ls' log) by (intros s; apply summary_shown with (ls := ls); assumption).
  assert (N : forall a n b, (forall m, i <> TModel m) -> i <> TUnsat -> no_nl (Cli.bytes a) -> no_nl (Cli.bytes b) -> (exists v, Cli.bytes a = Cli.bytes "t " ++ v) ->
    (forall x, Cli.bytes a ++ x ++ Cli.bytes b <> Cli.bytes "t UNSAT") -> (forall x, Cli.bytes a ++ x ++ Cli.bytes b <> Cli.bytes "t SAT") ->
    exists ls', t_out (print (Cli.bytes a ++ number n ++ Cli.line b) (print_summary None t)) = unlines ls' /\ shown ls' (log ++ [i])).
  { intros a n b M U A B C D F. destruct (S None) as (ls1&E1&H1). exists (ls1 ++ [Cli.bytes a ++ number n ++ Cli.bytes b]). cbn [print t_out].
    split; [|apply shown_add; auto; apply numbered; assumption]. rewrite E1, unlines_app. unfold unlines, Cli.line. cbn [flat_map]. rewrite app_nil_r, <- !app_assoc. reflexivity. }
  destruct i; cbn [print_step].
  1-5: match goal with |- context [print_summary ?s _] => destruct (S s) as (ls1&E1&H1) end; exists ls1; (split; [exact E1|]); apply shown_quiet; [exact H1|discriminate|discriminate].
  3,4: apply N; try reflexivity; try discriminate; try (intros x; discriminate); eexists; reflexivity.
  - destruct (S None) as (ls1&E1&H1). exists (ls1 ++ [Cli.bytes "t UNSAT"]). cbn [print t_out]. rewrite E1, unlines_app, <- line_unlines. split; [reflexivity|].
    destruct H1 as [A B C D]. constructor.
    + apply Forall_app. split; [exact A|repeat constructor].
    + apply Forall_app. split; [exact B|]. constructor; [eexists; reflexivity|constructor].
    + rewrite !in_app_iff. cbn [In]. tauto.
    + rewrite in_app_iff, D. cbn [In]. split; [intros [(m&H0)|[H0|[]]]; [exists m; apply in_or_app; auto|discriminate]|].
      intros (m&H0). apply in_app_or in H0 as [H0|[H0|[]]]; [eauto|discriminate].
  - destruct (S None) as (ls1&E1&H1). exists (ls1 ++ [Cli.bytes "t SAT"]). cbn [print t_out]. rewrite E1, unlines_app, <- line_unlines. split; [reflexivity|].
    destruct H1 as [A B C D]. constructor.
    + apply Forall_app. split; [exact A|repeat constructor].
    + apply Forall_app. split; [exact B|]. constructor; [eexists; reflexivity|constructor].
    + rewrite !in_app_iff, C. cbn [In]. split; intros [H0|[H0|[]]]; auto; discriminate.
    + rewrite in_app_iff. cbn [In]. split; [intros _; exists assignment; apply in_or_app; right; left; reflexivity|auto].
Qed.
Lemma printed_shown c : exists ls, printed c = unlines ls /\ shown ls (trans_log (c_proc c)).
Proof.
  unfold printed. generalize (trans_log (c_proc c)). induction l as [|i l IH] using rev_ind.
  - exists []. split; [reflexivity|]. constructor; cbn; [constructor|constructor|tauto|]. split; [intros []|intros (m&[])].
  - destruct IH as (ls&E&H). rewrite fold_left_app. cbn [fold_left]. apply step_shown with (ls := ls); assumption.
Qed.

(** The lines of a run: those of the transcript and perhaps the verdict *)
Lemma text_lines c vs : Forall no_nl vs -> Forall (fun w => forall v, w <> Cli.bytes "t " ++ v) vs ->
  exists ls, out_lines (printed c ++ unlines vs) = ls ++ vs ++ [[]] /\ shown ls (trans_log (c_proc c)) /\
    (says (printed c ++ unlines vs) "t UNSAT" <-> In TUnsat (trans_log (c_proc c))) /\
    (says (printed c ++ unlines vs) "t SAT" <-> exists m, In (TModel m) (trans_log (c_proc c))).
Proof.
  intros V W. destruct (printed_shown c) as (ls&E&H). exists ls.
  assert (L : out_lines (printed c ++ unlines vs) = ls ++ vs ++ [[]]).
  { rewrite E, <- unlines_app, lines_unlines; [symmetry; apply app_assoc|]. apply Forall_app. split; [apply H|exact V]. }
  split; [exact L|]. split; [exact H|]. unfold says. rewrite L, !in_app_iff, (sh_unsat _ _ H), (sh_sat _ _ H). cbn [In].
  rewrite Forall_forall in W. split; (split; [|tauto]); (intros [X|[X|[X|[]]]]; [exact X| |discriminate]); exfalso; apply (W _ X (skipn 2 (Cli.bytes "t UNSAT"))) + apply (W _ X (skipn 2 (Cli.bytes "t SAT"))); reflexivity.
Qed.

(** * The run of the tool *)
Lemma add_formulas_concat fs : forall pieces c, map Cnf.cnf_iter fs = map Some pieces -> add_formulas c fs = add_formula c (concat pieces).
Proof.
  assert (A : forall a b c, add_formula c (a ++ b) = bind (add_formula c a) (fun _ c => add_formula c b)).
  { intros a b c. rewrite !add_formula_run, map_app, run_app. destruct (run c (map Load a)) as [[] c1| |]; cbn [bind]; [|reflexivity..]. symmetry. apply add_formula_run. }
  induction fs as [|f fs IH]; intros [|p ps] c E; cbn [map] in E; try discriminate; cbn [add_formulas concat]; [reflexivity|].
  injection E as E1 E2. rewrite E1, A. destruct (add_formula c p) as [[] c1| |]; cbn [bind]; [apply IH; exact E2|reflexivity..].
Qed.
Definition the_checker (o : check_options) (pf : nat -> bool) sh : ctx := checker_new (k_lrat o || k_clrat o) true pf (fun _ => false) sh.
Lemma check_eq o pf sh chunks proof : check_main o pf sh chunks proof =
  match add_formula (the_checker o pf sh) (P_Cli.loaded chunks) with
  | RPanic => Some Panics
  | RErr _ c => Some (exit_with o 1 [] c)
  | ROk _ c =>
      match Dimacs.parse chunks with
      | inr _ => Some (exit_with o 1 [] c)
      | inl _ =>
          match check_proof c proof with
          | None => None
          | Some RPanic => Some Panics
          | Some (ROk _ c) => Some (exit_with o 0 (unlines [Cli.bytes "s VERIFIED"]) c)
          | Some (RErr _ c) => Some (exit_with o 1 (unlines [Cli.bytes "s NOT VERIFIED"]) c)
          end
      end
  end.
Proof.
  rewrite <- !line_unlines. pose proof (P_Cli.pieces_of chunks) as H. unfold check_main. fold (the_checker o pf sh). unfold add_dimacs_cnf, P_Cli.loaded in *.
  destruct (Dimacs.parse_incremental (fun _ => true) chunks) as [[p fs] e]. destruct H as [(pieces&Hp) H].
  rewrite (P_Cli.flat_pieces _ _ Hp) in *. rewrite (add_formulas_concat _ _ _ Hp). destruct (add_formula _ (concat pieces)) as [[] c| |]; cbn [bind]; [|reflexivity..].
  destruct e as [e|]; [rewrite H; reflexivity|]. destruct H as (f&Hf&_). rewrite Hf. reflexivity.
Qed.

(** * What the steps tell the processors and the transcript *)
Definition from_event (e : event) (k : checked_step) : Prop :=
  match k with
  | KAddClause _ lits => exists cl, (e = Load cl \/ e = Step (AddClause cl)) /\ lits = canon cl
  | KModel m => e = Step (Model m)
  | KAtClause _ _ lits _ => (exists red cl hs, e = Step (AtClause red cl hs) /\ lits = canon cl) \/ exists us l h, e = Step (UnitClauses us) /\ In (l, h) us /\ lits = [l]
  | _ => True
  end.
Lemma tr_from c e c' : tr c e c' -> exists ks, emits c c' ks /\ Forall (from_event e) ks /\ forall m, e = Step (Model m) -> In (KModel m) ks.
Proof.
  intros T.
  assert (NS : forall ks, emits (next_step c) c' ks -> Forall (from_event e) ks -> (forall m, e <> Step (Model m)) ->
    exists ks, emits c c' ks /\ Forall (from_event e) ks /\ forall m, e = Step (Model m) -> In (KModel m) ks).
  { intros ks EM F M. exists ks. split; [eapply emits_proc; [exact EM|reflexivity|reflexivity]|]. split; [exact F|]. intros m H. destruct (M m H). }
  assert (ADD : forall x cl, e = Load cl \/ e = Step (AddClause cl) -> add_eff x cl c' -> exists ks, emits x c' ks /\ Forall (from_event e) ks).
  { intros x cl He [E ->|E T' S1 V1 C1 EM|cl1 id r E T' SE R]; [exists []; split; [apply emits_nil; reflexivity|constructor]|eexists; split; [exact EM|repeat constructor]|].
    destruct r; destruct R as [_ R]; (eexists; split; [exact R|]); cbn [app]; try (repeat constructor; fail). constructor; [|constructor]. exists cl. auto. }
  destruct e as [cl|s]; cbn [tr] in T; [destruct (ADD c cl (or_introl eq_refl) T) as (ks&A&B); exists ks; split; [exact A|]; split; [exact B|]; discriminate|].
  destruct s as [gl so|gl us|v|v sm|cl|red cl hs|us|cl pf|b|m|l|core hs| ]; cbn [step_eff] in T.
  1,2,4,9: destruct T as (_&_&ks&EM&F); (apply (NS ks EM); [|discriminate]); (eapply Forall_impl; [|exact F]); intros [] H; destruct H; exact Logic.I.
  - destruct T as [_ _ _ _ _ _ EM]. apply (NS _ EM); [|discriminate]. destruct (unit_of _ _) as [[[] ?]|]; repeat constructor.
  - destruct (ADD _ cl (or_intror eq_refl) T) as (ks&A&B). apply (NS _ A B). discriminate.
  - destruct T as [st1 id r hints _ _ _ _ _ EM]. apply (NS _ EM); [|discriminate]. destruct r; try (repeat constructor; fail). constructor; [|constructor]. left. exists red, cl, hs. auto.
  - assert (G : forall x us0 x', unit_chain x us0 x' -> incl us0 us -> exists ks, emits x x' ks /\ Forall (from_event (Step (UnitClauses us))) ks).
    { clear. intros x us0 x' T. induction T as [x x' Q P|x l h rest x1 x' id r hints _ _ SE EM _ IH]; intros I; [exists []; split; [apply emits_nil; exact P|constructor]|].
      destruct IH as (ks&A&B); [intros y Hy; apply I; right; exact Hy|]. eexists. split; [eapply emits_trans; eassumption|]. apply Forall_app. split; [|exact B].
      destruct r; try (repeat constructor; fail). constructor; [|constructor]. right. exists us, l, h. split; [reflexivity|]. split; [apply I; left; reflexivity|reflexivity]. }
    destruct (G _ _ _ T (incl_refl us)) as (ks&A&B). apply (NS _ A B). discriminate.
  - destruct T as [id r T DE UN UC NX ST R]. destruct (is_red pf); [|destruct R as (s&_&R)]; (apply (NS _ R); [|discriminate]); destruct r; repeat constructor.
  - destruct T as (A&B&EM&_). exists [KModel m]. split; [eapply emits_proc; [exact EM|reflexivity|reflexivity]|]. split; [repeat constructor|]. intros m' H. injection H as <-. left. reflexivity.
  - destruct T as (A&B&EM). apply (NS _ EM); [repeat constructor|discriminate].
  - destruct T as (A&B&_&_&hints&EM&_). apply (NS _ EM); [repeat constructor|discriminate].
  - destruct T as (A&B&EM). apply (NS _ EM); [repeat constructor|discriminate].
Qed.

(** The transcript has an item for each step that calls for one, and no other items. *)
Record told_log (c : ctx) : Prop := {
  tl_items : forall t, In t (trans_log (c_proc c)) -> exists vs k, In k (proc_log (c_proc c)) /\ transcript_step vs k = Some (Some t);
  tl_told : has_transcripts (c_proc c) = true -> forall k, In k (proc_log (c_proc c)) -> exists vs o, transcript_step vs k = Some o /\ forall t, o = Some t -> In t (trans_log (c_proc c));
}.
Lemma told_emits c c' ks : emits c c' ks -> told_log c -> told_log c'.
Proof.
  intros [E _ HT (ts&T&H) TO] [A B]. constructor; rewrite E, T.
  - intros t I. apply in_app_or in I as [I|I].
    + destruct (A t I) as (vs&k&K1&K2). exists vs, k. split; [apply in_or_app; auto|exact K2].
    + destruct (H t I) as (vs&k&K1&K2). exists vs, k. split; [apply in_or_app; auto|exact K2].
  - rewrite HT. intros TR k I. apply in_app_or in I as [I|I].
    + destruct (B TR k I) as (vs&o&O1&O2). exists vs, o. split; [exact O1|]. intros t Ht. apply in_or_app. auto.
    + destruct (TO TR k I) as (vs&o&O1&O2). exists vs, o. split; [exact O1|]. intros t Ht. rewrite <- T. auto.
Qed.
Record logged (es : list event) (c : ctx) : Prop := {
  lg_told : told_log c;
  lg_from : forall k, In k (proc_log (c_proc c)) -> exists e, In e es /\ from_event e k;
  lg_model : forall m, In (Step (Model m)) es -> In (KModel m) (proc_log (c_proc c));
}.
Lemma logged_run : forall es c c' u, Inv c -> Forall event_u32 es -> run c es = ROk u c' -> forall es0, logged es0 c ->
  logged (es0 ++ es) c' /\ has_transcripts (c_proc c') = has_transcripts (c_proc c).
Proof.
  apply (run_ind (fun c es c' => forall es0, logged es0 c -> logged (es0 ++ es) c' /\ has_transcripts (c_proc c') = has_transcripts (c_proc c))).
  - intros c _ es0 L. rewrite app_nil_r. auto.
  - intros c e c1 es c' I U I1 T IH es0 [A B C]. destruct (tr_from _ _ _ T) as (ks&EM&F&M).
    replace (es0 ++ e :: es) with ((es0 ++ [e]) ++ es) by (rewrite <- app_assoc; reflexivity). rewrite <- (em_trans _ _ _ EM). apply IH. constructor.
    + eapply told_emits; eassumption.
    + rewrite (em_log _ _ _ EM). intros k K. apply in_app_or in K as [K|K].
      * destruct (B k K) as (e0&E1&E2). exists e0. split; [apply in_or_app; auto|exact E2].
      * exists e. split; [apply in_or_app; right; left; reflexivity|]. rewrite Forall_forall in F. auto.
    + rewrite (em_log _ _ _ EM). intros m K. apply in_or_app. apply in_app_or in K as [K|[K|[]]]; [left; auto|right; auto].
Qed.
Lemma logged_new procs trans pf tf sh : logged [] (checker_new procs trans pf tf sh).
Proof. constructor; [constructor|..]; cbn; intros; try contradiction. Qed.

(** After an accepted proof the transcript names a refutation exactly if one was found, and a model exactly for each step that gives one. *)
Record verdict (es : list event) (c : ctx) : Prop := {
  vd_unsat : In TUnsat (trans_log (c_proc c)) -> unsat (given es);
  vd_refuted : In TUnsat (trans_log (c_proc c)) -> refuted (proc_log (c_proc c));
  vd_told : In TUnsat (trans_log (c_proc c)) \/ In [] (given es) \/ s_unsat (c_state c) = false;
  vd_model : (exists m, In (TModel m) (trans_log (c_proc c))) <-> exists m, In (Step (Model m)) es;
}.
Lemma canon_nil cl : canon cl = [] -> cl = [].
Proof. destruct cl as [|x cl]; [reflexivity|]. intros H. exfalso. assert (X : In x (canon (x :: cl))) by (apply (canonical_in (x :: cl) x); left; reflexivity). rewrite H in X. destruct X. Qed.
Lemma given_in e es cl : In e es -> e = Load cl \/ e = Step (AddClause cl) -> In cl (given es).
Proof.
  induction es as [|x es IH]; [intros []|]. intros [->|I] H.
  - destruct H as [-> | ->]; left; reflexivity.
  - specialize (IH I H). destruct x as [c|[]]; cbn [given]; try exact IH; right; exact IH.
Qed.
Lemma run_verdict procs pf tf sh es c c' : (forall n l, Permutation (sh n l) l) -> Forall event_u32 es ->
  run (checker_new procs true pf tf sh) es = ROk tt c -> self_check_delayed_steps c = ROk tt c' -> verdict es c'.
Proof.
  intros SH U R D. assert (RC : reaches es c) by (exists procs, true, pf, tf, sh; auto).
  destruct (logged_run es _ _ _ (new_inv procs true pf tf sh SH) U R [] (logged_new procs true pf tf sh)) as [[A B C] HT]. cbn [app] in A, B, C.
  assert (E : exists ks, emits c c' ks /\ Forall (fun k => match k with KAtClause _ _ [] _ => True | _ => False end) ks /\ c_state c' = c_state c).
  { unfold self_check_delayed_steps, process_unit_conflicts in D. destruct (unit_conflict _) as [[a b]|].
    - destruct (process_step_spec _ _ _ _ D) as [Q EM]. eexists. split; [exact EM|]. split; [repeat constructor|]. rewrite Q. reflexivity.
    - inversion D; subst. exists []. split; [apply emits_nil; reflexivity|]. split; [constructor|reflexivity]. }
  destruct E as (ks&EM&K&ST). pose proof (told_emits _ _ _ EM A) as [A1 A2]. specialize (A2 (eq_trans (em_trans _ _ _ EM) HT)).
  assert (TU : In TUnsat (trans_log (c_proc c')) -> exists id red hints, In (KAtClause id red [] hints) (proc_log (c_proc c'))).
  { intros H. destruct (A1 _ H) as (vs&k&K1&K2). destruct k as [v [[u w n]|]|id cl|id s cl|id cl|id r cl h|id cl|id kp cl h|id kp cl pv|id cl|m|m|core h];
      cbn [transcript_step] in K2; try discriminate; try (destruct (map_user _ _); discriminate); try (destruct w, n; discriminate); try (destruct (user_from_proof_var _ _); discriminate).
    destruct cl; [eauto|discriminate]. }
  constructor.
  - intros H. destruct (TU H) as (id&red&h&X). apply (C10_delayed_sound es c c' RC D). left. exists id, red, h. left. exact X.
  - intros H. destruct (TU H) as (id&red&h&X). exists id, red, h. left. exact X.
  - destruct (s_unsat (c_state c')) eqn:SU; [|auto]. rewrite ST in SU.
    destruct (C10_refutation_delivered es c c' RC ltac:(right; right; right; exact SU) D) as (id&red&h&[X|X]).
    + left. destruct (A2 _ X) as (vs&o&O1&O2). cbn [transcript_step] in O1. injection O1 as <-. apply O2. reflexivity.
    + right. left. rewrite (em_log _ _ _ EM) in X. apply in_app_or in X as [X|X]; [|rewrite Forall_forall in K; destruct (K _ X)].
      destruct (B _ X) as (e&E1&cl&E2&E3). symmetry in E3. apply canon_nil in E3 as ->. eapply given_in; eassumption.
  - split; intros (m&H).
    + destruct (A1 _ H) as (vs&k&K1&K2). destruct k as [v [[u w n]|]|id cl|id s cl|id cl|id r cl h|id cl|id kp cl h|id kp cl pv|id cl|m0|m0|core h];
        cbn [transcript_step] in K2; try discriminate; try (destruct (map_user _ _); discriminate); try (destruct w, n; discriminate); try (destruct (user_from_proof_var _ _); discriminate); [destruct cl; discriminate|].
      rewrite (em_log _ _ _ EM) in K1. apply in_app_or in K1 as [K1|K1]; [|rewrite Forall_forall in K; destruct (K _ K1)].
      destruct (B _ K1) as (e&E1&E2). cbn [from_event] in E2. subst e. eauto.
    + pose proof (C m H) as X. destruct (A2 (KModel m)) as (vs&o&O1&O2); [rewrite (em_log _ _ _ EM); apply in_or_app; auto|].
      cbn [transcript_step] in O1. injection O1 as <-. eexists. apply O2. reflexivity.
Qed.

(** The steps of a proof file: everything in front of the first end marker *)
Definition contents (proof : reader) (ss : list proof_step) : Prop := exists rest, P_CheckerSafe.decodes_to proof (ss ++ [End]) rest /\ ~ In End ss.

Lemma ended_add x cl c' : add_eff x cl c' -> s_ended (c_state c') = s_ended (c_state x).
Proof.
  intros [E ->|E T' S1 V1 C1 EM|cl1 id r E T' SE R]; [reflexivity|congruence|]. destruct (store_eff_state _ _ _ _ _ _ _ _ SE) as [-> | ->]; reflexivity.
Qed.
Lemma ended_step c s c' : step_eff c s c' -> s_ended (c_state c') = match s with End => true | _ => s_ended (c_state c) end.
Proof.
  destruct s as [gl so|gl us|v|v sm|cl|red cl hs|us|cl pf|b|m|l|core hs| ]; cbn [step_eff]; intros T; try (destruct T as (_&->&_); reflexivity).
  - destruct T as [_ _ _ _ _ -> _]. reflexivity.
  - apply ended_add in T. exact T.
  - destruct T as [st1 id r hints _ _ _ SE -> EM]. destruct (store_eff_state _ _ _ _ _ _ _ _ SE) as [-> | ->]; destruct red; reflexivity.
  - induction T as [x x' Q P|x l h rest x1 x' id r hints _ _ SE EM _ IH]; [destruct Q as [_ -> _ _]; reflexivity|].
    rewrite IH. destruct (store_eff_state _ _ _ _ _ _ _ _ SE) as [-> | ->]; reflexivity.
  - destruct T as [id r _ _ _ _ _ -> _]. reflexivity.
Qed.
Lemma loads_ended f : forall c c', Inv c -> Forall lits_u32 f -> run c (map Load f) = ROk tt c' -> Inv c' /\ s_ended (c_state c') = s_ended (c_state c).
Proof.
  induction f as [|cl f IH]; intros c c' I U R; cbn [map run] in R; [inversion R; subst; auto|]. inversion U as [|? ? U1 U2]; subst.
  destruct (exec c (Load cl)) as [[] c1| |] eqn:E; try discriminate. cbn [bind] in R. destruct (exec_spec _ (Load cl) _ _ I U1 E) as [I1 T]. cbn [tr] in T.
  destruct (IH _ _ I1 U2 R) as [A B]. split; [exact A|]. rewrite B. apply ended_add in T. exact T.
Qed.
Lemma loop_contents fuel : forall c r c', Inv c -> s_ended (c_state c) = false -> check_proof_loop fuel c r = Some (ROk tt c') ->
  exists ss c1, contents r ss /\ run c (map Step (ss ++ [End])) = ROk tt c1 /\ self_check_delayed_steps c1 = ROk tt c'.
Proof.
  induction fuel as [|fuel IH]; intros c r c' I SE H; cbn [check_proof_loop] in H; rewrite SE in H; [discriminate|].
  destruct (parse_step r) as [[s rest]| | |] eqn:P; try discriminate. fold (next_step c) in H.
  destruct (check_step (next_step c) s) as [[] c2| |] eqn:CS; try discriminate.
  assert (U : event_u32 (Step s)) by (eapply parse_step_u32; exact P).
  assert (X : exec c (Step s) = ROk tt c2) by (cbn [exec]; unfold self_check_step; fold (next_step c); exact CS).
  destruct (exec_spec _ _ _ _ I U X) as [I2 T]. cbn [tr] in T. apply ended_step in T.
  assert (D : s = End \/ s <> End) by (destruct s; (left; reflexivity) || (right; discriminate)). destruct D as [->|D].
  - exists [], c2. split; [exists rest; split; [econstructor; [exact P|constructor]|intros []]|]. split; [cbn [app map run]; rewrite X; reflexivity|].
    destruct fuel; cbn [check_proof_loop] in H; rewrite T in H; injection H as H; exact H.
  - assert (S2 : s_ended (c_state c2) = false) by (rewrite T; destruct s; try exact SE; congruence).
    destruct (IH _ _ _ I2 S2 H) as (ss&c1&(rest'&A1&A2)&B&C). exists (s :: ss), c1. split; [exists rest'; split; [econstructor; eassumption|intros [->|Z]; auto]|].
    split; [|exact C]. cbn [app map run]. rewrite X. exact B.
Qed.
Lemma valid_u32 cls : Forall (Forall (fun l => valid_lit l = true)) cls -> Forall lits_u32 cls.
Proof. intros V. eapply Forall_impl; [|exact V]. intros cl H. eapply Forall_impl; [|exact H]. intros l V1. apply (code_roundtrip l V1). Qed.

(** * The theorems *)
Lemma vd_lines w : no_nl (Cli.bytes w) -> (forall v, Cli.bytes w <> Cli.bytes "t " ++ v) -> Forall no_nl [Cli.bytes w] /\ Forall (fun x => forall v, x <> Cli.bytes "t " ++ v) [Cli.bytes w].
Proof. intros A B. repeat constructor; auto. Qed.
Lemma last_line (ls : list (list N)) (x : list N) log : shown ls log -> (forall v, x <> Cli.bytes "t " ++ v) -> ~ In x ls.
Proof. intros H N I. pose proof (sh_t _ _ H) as T. rewrite Forall_forall in T. destruct (T _ I) as (v&E). exact (N v E). Qed.

(** The tool always comes to an end, if not by a panic then with the exit code 0 or 1.  The code is 0 exactly if the line "s VERIFIED" is
    printed, "s NOT VERIFIED" comes with the code 1, the verdict is the last line and all other lines start with "t ".  For the code 0
    the input was accepted by the parser. *)
Theorem C49_exit : forall o pf sh chunks proof, exists r, check_main o pf sh chunks proof = Some r /\
  match r with
  | Panics => True
  | Exit code text lrat clrat =>
      (code = 0 \/ code = 1) /\ (code = 0 <-> says text "s VERIFIED") /\ (says text "s NOT VERIFIED" -> code = 1) /\
      (code = 0 -> exists F, P_Cli.input chunks F) /\
      (exists ls vs, out_lines text = ls ++ vs ++ [[]] /\ Forall (fun w => exists v, w = Cli.bytes "t " ++ v) ls /\
         (vs = [] \/ vs = [Cli.bytes "s VERIFIED"] \/ vs = [Cli.bytes "s NOT VERIFIED"])) /\
      (lrat <> None <-> k_lrat o = true) /\ (clrat <> None <-> k_clrat o = true)
  end.
Proof.
  intros o pf sh chunks proof. rewrite check_eq.
  assert (FI : forall w b c, lrat_file w b c <> None <-> w = true) by (intros [] b c; cbn; split; congruence).
  assert (BAD : forall c, exists r, Some (exit_with o 1 [] c) = Some r /\ match r with Panics => True | Exit code text lrat clrat =>
      (code = 0 \/ code = 1) /\ (code = 0 <-> says text "s VERIFIED") /\ (says text "s NOT VERIFIED" -> code = 1) /\
      (code = 0 -> exists F, P_Cli.input chunks F) /\
      (exists ls vs, out_lines text = ls ++ vs ++ [[]] /\ Forall (fun w => exists v, w = Cli.bytes "t " ++ v) ls /\
         (vs = [] \/ vs = [Cli.bytes "s VERIFIED"] \/ vs = [Cli.bytes "s NOT VERIFIED"])) /\
      (lrat <> None <-> k_lrat o = true) /\ (clrat <> None <-> k_clrat o = true) end).
  { intros c. eexists. split; [reflexivity|]. cbn [exit_with].
    destruct (text_lines c [] ltac:(constructor) ltac:(constructor)) as (ls&L&H&_&_). change (unlines []) with (@nil N) in L.
    split; [auto|]. split; [split; [discriminate|]|].
    - intros X. exfalso. unfold says in X. rewrite L in X. apply in_app_or in X as [X|[X|[]]]; [|discriminate]. apply (last_line _ _ _ H) in X; [exact X|discriminate].
    - split; [reflexivity|]. split; [discriminate|]. split; [|auto]. exists ls, []. split; [exact L|]. split; [apply H|auto]. }
  destruct (add_formula _ _) as [[] c|e c|]; [|apply BAD|eexists; split; [reflexivity|exact Logic.I]].
  destruct (Dimacs.parse chunks) as [f|e] eqn:Ep; [|apply BAD].
  destruct (check_proof c proof) as [[x c'|e c'|]|] eqn:Ec; [| |eexists; split; [reflexivity|exact Logic.I]|destruct (P_CheckerSafe.C19_check_proof_ends c proof Ec)].
  - destruct (vd_lines "s VERIFIED" eq_refl ltac:(discriminate)) as [V1 V2]. destruct (text_lines c' _ V1 V2) as (ls&L&H&_&_).
    eexists. split; [reflexivity|]. cbn [exit_with]. split; [auto|]. split; [split; [intros _|reflexivity]|].
    { unfold says. rewrite L. apply in_or_app. right. left. reflexivity. }
    split. { intros X. exfalso. unfold says in X. rewrite L in X. apply in_app_or in X as [X|[X|[X|[]]]]; try discriminate. apply (last_line _ _ _ H) in X; [exact X|discriminate]. }
    split; [intros _; apply (P_Cli.input_of _ _ Ep)|]. split; [|auto]. exists ls, [Cli.bytes "s VERIFIED"]. split; [exact L|]. split; [apply H|auto].
  - destruct (vd_lines "s NOT VERIFIED" eq_refl ltac:(discriminate)) as [V1 V2]. destruct (text_lines c' _ V1 V2) as (ls&L&H&_&_).
    eexists. split; [reflexivity|]. cbn [exit_with]. split; [auto|]. split; [split; [discriminate|]|].
    { intros X. exfalso. unfold says in X. rewrite L in X. apply in_app_or in X as [X|[X|[X|[]]]]; try discriminate. apply (last_line _ _ _ H) in X; [exact X|discriminate]. }
    split; [reflexivity|]. split; [discriminate|]. split; [|auto]. exists ls, [Cli.bytes "s NOT VERIFIED"]. split; [exact L|]. split; [apply H|auto].
Qed.
Print Assumptions C49_exit.

(** What an accepted proof is *)
Lemma accepted o pf sh chunks proof text lrat clrat : (forall n l, Permutation (sh n l) l) -> check_main o pf sh chunks proof = Some (Exit 0 text lrat clrat) ->
  exists f ss c0 c1 c, Dimacs.parse chunks = inl f /\ contents proof ss /\
    run (the_checker o pf sh) (map Load (P_Cli.loaded chunks)) = ROk tt c0 /\ run c0 (map Step (ss ++ [End])) = ROk tt c1 /\ self_check_delayed_steps c1 = ROk tt c /\
    Forall event_u32 (map Load (P_Cli.loaded chunks) ++ map Step (ss ++ [End])) /\
    text = printed c ++ unlines [Cli.bytes "s VERIFIED"] /\ lrat = lrat_file (k_lrat o) false c /\ clrat = lrat_file (k_clrat o) true c.
Proof.
  intros SH H. rewrite check_eq in H. destruct (add_formula _ _) as [[] c0|e c0|] eqn:Ea; [| |discriminate].
  2:{ exfalso. revert H. unfold exit_with. discriminate. }
  destruct (Dimacs.parse chunks) as [f|e] eqn:Ep; [|exfalso; revert H; unfold exit_with; discriminate].
  destruct (check_proof c0 proof) as [[[] c|e c|]|] eqn:Ec; [|exfalso; revert H; unfold exit_with; discriminate|discriminate|discriminate].
  unfold exit_with in H. injection H as <- <- <-. rewrite add_formula_run in Ea. pose proof (valid_u32 _ (P_Cli.loaded_valid _ _ Ep)) as U.
  destruct (loads_ended _ _ _ (new_inv _ true pf (fun _ => false) sh SH) U Ea) as [I0 E0].
  destruct (loop_contents _ _ _ _ I0 E0 Ec) as (ss&c1&C&R&D). exists f, ss, c0, c1, c. split; [reflexivity|]. split; [exact C|]. split; [exact Ea|]. split; [exact R|]. split; [exact D|].
  split; [|auto]. apply Forall_app. split; [apply Forall_map; exact U|]. apply Forall_map. destruct C as (rest&C&_). clear - C. revert C. generalize (ss ++ [End]). intros l C.
  induction C; constructor; auto. eapply parse_step_u32. eassumption.
Qed.
Lemma given_loads f es : given (map Load f ++ es) = f ++ given es.
Proof. induction f as [|cl f IH]; cbn [map app given]; [reflexivity|]. rewrite IH. reflexivity. Qed.
Lemma given_steps ss : (forall cl, ~ In (AddClause cl) ss) -> given (map Step ss) = [].
Proof. induction ss as [|s ss IH]; intros H; cbn [map given]; [reflexivity|]. rewrite IH by (intros cl X; apply (H cl); right; exact X). destruct s; try reflexivity. destruct (H clause). left. reflexivity. Qed.
Lemma contents_unique a : forall r b, contents r a -> contents r b -> a = b.
Proof.
  induction a as [|s a IH]; intros r b (x&D1&N1) (y&D2&N2); cbn [app] in D1; inversion D1 as [|r0 s0 r1 ss0 r2 P1 D1']; subst.
  - destruct b as [|s b]; [reflexivity|]. exfalso. cbn [app] in D2. inversion D2 as [|r0 s0 r3 ss0 r4 P2 D2']; subst. rewrite P1 in P2. injection P2 as <- _. apply N2. left. reflexivity.
  - destruct b as [|s' b]; cbn [app] in D2; inversion D2 as [|r0 s0 r3 ss0 r4 P2 D2']; subst; rewrite P1 in P2; [injection P2 as -> _; exfalso; apply N1; left; reflexivity|injection P2 as <- <-].
    f_equal. apply (IH r1); [exists x|exists y]; (split; [assumption|]); intros X; [apply N1|apply N2]; right; exact X.
Qed.
Lemma no_add_end ss : (forall cl, ~ In (AddClause cl) ss) -> forall cl, ~ In (AddClause cl) (ss ++ [End]).
Proof. intros H cl X. apply in_app_or in X as [X|[X|[]]]; [exact (H cl X)|discriminate]. Qed.
Lemma loaded_input chunks f F : Dimacs.parse chunks = inl f -> P_Cli.input chunks F -> F = map (map lit_to_dimacs) (P_Cli.loaded chunks).
Proof. intros Ep (g&cls&Eg&Ec&->). assert (g = f) by congruence. subst g. rewrite (P_Cli.loaded_ok _ _ Ep) in Ec. congruence. Qed.

(** A verified "t UNSAT": the input together with the clauses that the proof file adds has no solution. *)
Theorem C49_unsat_sound : forall o pf sh chunks proof text lrat clrat, (forall n l, Permutation (sh n l) l) ->
  check_main o pf sh chunks proof = Some (Exit 0 text lrat clrat) -> says text "t UNSAT" ->
  exists f cls ss, Dimacs.parse chunks = inl f /\ Cnf.cnf_iter f = Some cls /\ contents proof ss /\ unsat (cls ++ given (map Step ss)) /\
    ((forall cl, ~ In (AddClause cl) ss) -> forall F, P_Cli.input chunks F -> ~ P_Cli.z_satisfiable F).
Proof.
  intros o pf sh chunks proof text lrat clrat SH H S. destruct (accepted _ _ _ _ _ _ _ _ SH H) as (f&ss&c0&c1&c&Ep&C&R0&R1&D&U&->&_&_).
  destruct (vd_lines "s VERIFIED" eq_refl ltac:(discriminate)) as [V1 V2]. destruct (text_lines c _ V1 V2) as (ls&_&_&TU&_). apply TU in S.
  assert (R : run (the_checker o pf sh) (map Load (P_Cli.loaded chunks) ++ map Step (ss ++ [End])) = ROk tt c1) by (rewrite run_app, R0; exact R1).
  pose proof (vd_unsat _ _ (run_verdict _ _ _ _ _ _ _ SH U R D) S) as X. rewrite given_loads, map_app, given_app in X. cbn [map given] in X. rewrite app_nil_r in X.
  exists f, (P_Cli.loaded chunks), ss. split; [exact Ep|]. split; [apply P_Cli.loaded_ok; exact Ep|]. split; [exact C|]. split; [exact X|].
  intros NA F IF (a&Ha). rewrite (given_steps ss NA), app_nil_r in X. rewrite (loaded_input _ _ _ Ep IF) in Ha. pose proof (proj1 (P_Cli.z_formula a _ (P_Cli.loaded_valid _ _ Ep)) Ha) as Hb.
  specialize (X (fun x => a (Z.of_N (x + 1)))). assert (Y : formula_holds (fun x => a (Z.of_N (x + 1))) (P_Cli.loaded chunks) = true) by (apply forallb_forall; exact Hb). congruence.
Qed.
Print Assumptions C49_unsat_sound.

(** A verified "t SAT" without "t UNSAT": the input has a solution, for a proof that adds no clauses and does not delete variables of the
    clause it derived last ([keeps_irred], C12). *)
Theorem C49_sat_sound_partial : forall o pf sh chunks proof text lrat clrat, (forall n l, Permutation (sh n l) l) ->
  check_main o pf sh chunks proof = Some (Exit 0 text lrat clrat) -> says text "t SAT" -> ~ says text "t UNSAT" ->
  exists ss, contents proof ss /\
    ((forall cl, ~ In (AddClause cl) ss) -> keeps_irred (map Step ss) -> forall F, P_Cli.input chunks F -> ~ In [] F -> P_Cli.z_satisfiable F).
Proof.
  intros o pf sh chunks proof text lrat clrat SH H S NS. destruct (accepted _ _ _ _ _ _ _ _ SH H) as (f&ss&c0&c1&c&Ep&C&R0&R1&D&U&->&_&_).
  destruct (vd_lines "s VERIFIED" eq_refl ltac:(discriminate)) as [V1 V2]. destruct (text_lines c _ V1 V2) as (ls&_&_&TU&TS). apply TS in S. rewrite TU in NS.
  assert (R : run (the_checker o pf sh) (map Load (P_Cli.loaded chunks) ++ map Step (ss ++ [End])) = ROk tt c1) by (rewrite run_app, R0; exact R1).
  pose proof (run_verdict _ _ _ _ _ _ _ SH U R D) as [_ _ VT VM]. exists ss. split; [exact C|]. intros NA KI F IF NE.
  pose proof (loaded_input _ _ _ Ep IF) as EF. rewrite EF in *. clear F EF IF.
  assert (NU : s_unsat (c_state c1) = false).
  { destruct VT as [X|[X|X]]; [contradiction| |].
    - exfalso. rewrite given_loads, (given_steps _ (no_add_end _ NA)), app_nil_r in X. apply NE. apply in_map_iff. exists []. split; [reflexivity|exact X].
    - unfold self_check_delayed_steps, process_unit_conflicts in D. destruct (unit_conflict _) as [[a b]|]; [|inversion D; subst; exact X].
      destruct (process_step_spec _ _ _ _ D) as [Q _]. rewrite Q in X. exact X. }
  apply VM in S. destruct S as (m&S). apply in_app_or in S as [S|S]; [apply in_map_iff in S; destruct S as (x&E&_); discriminate|].
  apply in_map_iff in S. destruct S as (s&E&S). injection E as ->. apply in_app_or in S as [S|[S|[]]]; [|discriminate]. apply in_split in S. destruct S as (pre&post&->).
  rewrite <- app_assoc in R1, U, R. cbn [app] in R1, U, R. rewrite map_app in R1, U, R. cbn [map] in R1, U, R.
  rewrite run_app in R1. destruct (run c0 (map Step pre)) as [[] c2| |] eqn:R2; cbn [bind run] in R1; try discriminate.
  destruct (exec c2 (Step (Model m))) as [[] c3| |] eqn:R3; cbn [bind] in R1; try discriminate.
  apply Forall_app in U as [U1 U2]. apply Forall_app in U2 as [U2 U3]. inversion U3 as [|? ? Um U4]; subst.
  assert (RC : reaches (map Load (P_Cli.loaded chunks) ++ map Step pre) c2).
  { exists (k_lrat o || k_clrat o), true, pf, (fun _ => false), sh. split; [exact SH|]. split; [apply Forall_app; auto|]. rewrite run_app. fold (the_checker o pf sh). rewrite R0. exact R2. }
  assert (NR : ~ reports_unsat c2).
  { intros X. apply (reaches_flag _ _ RC) in X. pose proof (reaches_inv _ _ RC) as I2. destruct RC as (p&t&pf0&tf0&sh0&SH0&UU&RR).
    destruct (obs_run _ _ _ _ (new_inv p t pf0 tf0 sh0 SH0) UU RR (new_obs p t pf0 tf0 sh0)) as [O _].
    assert (RT : run c2 (Step (Model m) :: map Step (post ++ [End])) = ROk tt c1) by (cbn [run]; rewrite R3; exact R1).
    destruct (obs_run _ _ _ _ I2 U3 RT O) as [_ M]. rewrite (M X) in NU. discriminate. }
  assert (KE : keeps_irred (map Load (P_Cli.loaded chunks) ++ map Step pre)).
  { intros es1 v es2 cl E LI l Hl.
    assert (SP : exists es3, es1 = map Load (P_Cli.loaded chunks) ++ es3 /\ map Step pre = es3 ++ Step (DeleteVar v) :: es2).
    { clear - E. revert es1 E. generalize (map Step pre). induction (P_Cli.loaded chunks) as [|x f IH]; intros l es1 E; cbn [map app] in E; [exists es1; auto|].
      destruct es1 as [|e es1]; cbn [app] in E; [discriminate|]. injection E as <- E. destruct (IH _ _ E) as (es3&->&Q). exists es3. auto. }
    destruct SP as (es3&->&SP). apply (KI es3 v (es2 ++ map Step (Model m :: post)) cl); [rewrite map_app, SP, <- app_assoc; reflexivity| |exact Hl].
    rewrite <- LI. unfold last_irred. rewrite fold_left_app. f_equal. clear. induction (P_Cli.loaded chunks) as [|x f IH]; [reflexivity|]. exact IH. }
  destruct (C12_model_extends_partial _ _ _ _ RC Um KE NR R3) as (W&SW&_).
  assert (GW : formula_holds (at_gen W g0) (P_Cli.loaded chunks) = true).
  { clear - SW. revert SW. generalize (map Step pre). induction (P_Cli.loaded chunks) as [|x f IH]; intros es SW; [reflexivity|]. cbn [map app sat_events sat_event gen_event] in SW.
    cbn [formula_holds forallb]. apply andb_prop in SW as [A B]. unfold formula_holds in IH. rewrite A, (IH _ B). reflexivity. }
  exists (fun z => at_gen W g0 (Z.to_N z - 1)). apply (P_Cli.z_formula _ _ (P_Cli.loaded_valid _ _ Ep)). unfold formula_holds in GW. rewrite forallb_forall in GW. intros C0 I0.
  specialize (GW C0 I0). rewrite <- GW. clear. unfold clause_holds. induction C0 as [|l C0 IH]; [reflexivity|]. cbn [existsb]. rewrite IH. f_equal.
  unfold lit_holds. replace (Z.to_N (Z.of_N (N.div2 l + 1)) - 1) with (N.div2 l) by lia. reflexivity.
Qed.
Print Assumptions C49_sat_sound_partial.

(** The condition on the empty clause in [C49_sat_sound_partial] cannot be dropped: for an input that contains the empty clause, the file
    with an empty model is verified with the line "t SAT", and "t UNSAT" is not printed. *)
Definition no_options : check_options := CheckOptions false false.
Definition keep_order (_ : N) (l : list (N * list clause)) := l.
Theorem C49_sat_refuted : exists chunks ss text F, check_main no_options (fun _ => false) keep_order chunks (flat_map write_step (ss ++ [End]), []) = Some (Exit 0 text None None) /\
  says text "t SAT" /\ ~ says text "t UNSAT" /\ P_Cli.input chunks F /\ ~ P_Cli.z_satisfiable F.
Proof.
  exists [Cli.bytes "0"], [Model []]. eexists. exists [[]]. split; [vm_compute; reflexivity|].
  split; [vm_compute; auto|]. split; [vm_compute; intuition discriminate|]. split.
  - do 2 eexists. split; [vm_compute; reflexivity|]. split; [vm_compute; reflexivity|reflexivity].
  - intros (a&H). destruct (H [] (or_introl eq_refl)) as (z&[]&_).
Qed.
Print Assumptions C49_sat_refuted.

(** "s VERIFIED" alone says nothing about the input: the file with only an end marker is verified for every formula that the checker can load. *)
Theorem C49_verified_refuted : exists chunks text F chunks' text' F',
  check_main no_options (fun _ => false) keep_order chunks (write_step End, []) = Some (Exit 0 text None None) /\ P_Cli.input chunks F /\ P_Cli.z_satisfiable F /\
  check_main no_options (fun _ => false) keep_order chunks' (write_step End, []) = Some (Exit 0 text' None None) /\ P_Cli.input chunks' F' /\ ~ P_Cli.z_satisfiable F'.
Proof.
  exists [Cli.bytes "1 2 0"]. eexists. exists [[1;2]%Z]. exists [Cli.bytes "1 2 0 -1 2 0 1 -2 0 -1 -2 0"]. eexists. exists [[1;2];[-1;2];[1;-2];[-1;-2]]%Z.
  split; [vm_compute; reflexivity|]. split; [do 2 eexists; split; [vm_compute; reflexivity|]; split; [vm_compute; reflexivity|reflexivity]|].
  split; [exists (fun _ => true); intros C [<-|[]]; exists 1%Z; split; [left; reflexivity|reflexivity]|].
  split; [vm_compute; reflexivity|]. split; [do 2 eexists; split; [vm_compute; reflexivity|]; split; [vm_compute; reflexivity|reflexivity]|].
  intros (a&H).
  assert (K : forall C, In C [[1;2];[-1;2];[1;-2];[-1;-2]]%Z -> existsb (P_Cli.z_true a) C = true) by (intros C I; destruct (H C I) as (z&Z1&Z2); apply existsb_exists; eauto).
  pose proof (K [1;2]%Z ltac:(cbn; auto)) as K1. pose proof (K [-1;2]%Z ltac:(cbn; auto)) as K2. pose proof (K [1;-2]%Z ltac:(cbn; auto)) as K3. pose proof (K [-1;-2]%Z ltac:(cbn; auto)) as K4.
  cbn [existsb P_Cli.z_true Z.ltb Z.compare Z.opp] in K1, K2, K3, K4. destruct (a 1%Z), (a 2%Z); discriminate.
Qed.
Print Assumptions C49_verified_refuted.

(** A tautology over a variable that did not occur before makes the tool panic (C19). *)
Theorem C49_tautology_refuted : exists chunks F, P_Cli.input chunks F /\ forall o proof, check_main o (fun _ => false) keep_order chunks proof = Some Panics.
Proof.
  exists [Cli.bytes "1 -1 0"]. eexists. split; [do 2 eexists; split; [vm_compute; reflexivity|]; split; [vm_compute; reflexivity|reflexivity]|].
  intros [[] []] proof; vm_compute; reflexivity.
Qed.
Print Assumptions C49_tautology_refuted.

(** The number of added clauses is only printed when something else follows. *)
Theorem C49_summary_refuted : exists chunks text, check_main no_options (fun _ => false) keep_order chunks (write_step End, []) = Some (Exit 0 text None None) /\
  (exists F, P_Cli.input chunks F /\ length F = 2%nat) /\ text = Cli.line "s VERIFIED".
Proof.
  exists [Cli.bytes "1 2 0 -1 2 0"]. eexists. split; [vm_compute; reflexivity|]. split; [|reflexivity].
  eexists. split; [do 2 eexists; split; [vm_compute; reflexivity|]; split; [vm_compute; reflexivity|reflexivity]|reflexivity].
Qed.

(** A refutation and a model, with the output *)
Example C49_case : check_main no_options (fun _ => false) keep_order [Cli.bytes "1 2 0 -1 2 0 1"; Cli.bytes " -2 0 -1 -2 0"] C10_file =
    Some (Exit 0 (Cli.line "t ADD 4 CLAUSES " ++ Cli.line "t UNSAT" ++ Cli.line "s VERIFIED") None None) /\
  check_main no_options (fun _ => false) keep_order [Cli.bytes "1 2 0 -1 2 0"] (flat_map write_step [Model [0;2]; End], []) =
    Some (Exit 0 (Cli.line "t ADD 2 CLAUSES " ++ Cli.line "t SAT" ++ Cli.line "s VERIFIED") None None) /\
  check_main no_options (fun _ => false) keep_order [Cli.bytes "1 2 0 -1 2 0"] (flat_map write_step [AtClause false [0] []; End], []) =
    Some (Exit 1 (Cli.line "s NOT VERIFIED") None None) /\
  check_main no_options (fun _ => false) keep_order [Cli.bytes "1 2 0 x"] (write_step End, []) = Some (Exit 1 [] None None).
Proof. repeat apply conj; vm_compute; reflexivity. Qed.
