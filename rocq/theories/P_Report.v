(** The progress report (C53). *)
From Coq Require Import Lia Arith PeanoNat Permutation ZArith ZifyBool ZifyNat ZifyN Sorted.
From Verif Require Import Spec Lit LitProofs BinFormat Hash F32 Vsids VsidsProofs VsidsWf Luby Config Search SearchBase
  Propagate P_Search ClauseDb DbProofs Analyze AnalyzeProofs P_Analyze SolverCtx CtxFrame VarsProofs Solver SolverInv SolverSimplify
  SolverAdd SolverLoad SolverFailed FailedHints SolverSearch P_Solver Terminate Report.
From Verif Require P_Terminate TerminateLoop.
Local Open Scope nat_scope.

(** * Without the reports *)
Lemma loop_erase fuel : forall n c, (do r <- schedule_loop_log fuel n c ; Ret (fst r)) = schedule_loop fuel n c.
Proof.
  induction n as [|n IH]; intros c; [reflexivity|]. cbn [schedule_loop schedule_loop_log]. cbv zeta.
  destruct (schedule_step fuel c) as [[c1 b]|p|]; cbn [bind]; try reflexivity. destruct b; [|reflexivity].
  rewrite <- (IH c1). destruct (schedule_loop_log fuel n c1) as [[c2 r2]|p|]; reflexivity.
Qed.
Lemma run_erase fuel k c : (do r <- run_log fuel k c ; Ret (fst r)) = run fuel k c.
Proof.
  destruct k; unfold run_log; try (match goal with |- context [bind (run ?f ?k ?c) _] => destruct (run f k c) as [[? ?]|p|]; reflexivity end).
  cbn [run]. unfold solve. cbv zeta. destruct (st_invalid _); [reflexivity|]. rewrite <- (loop_erase fuel fuel).
  destruct (schedule_loop_log _ _ _) as [[c1 r1]|p|]; cbn [bind fst]; try reflexivity.
  destruct (solve_finished c1) as [c2|p|]; cbn [bind]; try reflexivity. destruct (take_error c2) as [c3 []]; reflexivity.
Qed.

(** * Variables with a value that are not on the trail *)
Definition off (s : search) (x : N) : Prop := s_val s x <> None /\ ~ In x (map lit_var (s_trail s)).
Definition keeps (s s' : search) : Prop := s_removed s' = s_removed s /\ forall x, off s' x <-> off s x.
Lemma keeps_refl s : keeps s s.
Proof. split; [reflexivity|]. intros x. reflexivity. Qed.
Lemma keeps_trans a b c : keeps a b -> keeps b c -> keeps a c.
Proof. intros [E1 K1] [E2 K2]. split; [congruence|]. intros x. rewrite K2. apply K1. Qed.
Lemma keeps_eq s s' : s_val s' = s_val s -> s_trail s' = s_trail s -> s_removed s' = s_removed s -> keeps s s'.
Proof. intros E1 E2 E3. split; [exact E3|]. unfold off. rewrite E1, E2. reflexivity. Qed.
Lemma keeps_as s s0 s' : s_val s = s_val s0 -> s_trail s = s_trail s0 -> s_removed s = s_removed s0 -> keeps s s' -> keeps s0 s'.
Proof. intros E1 E2 E3 K. eapply keeps_trans; [|exact K]. apply keeps_eq; assumption. Qed.
Lemma keeps_enqueue s l r : s_val s (lit_var l) = None -> keeps s (enqueue s l r).
Proof.
  intros H. split; [reflexivity|]. intros x. unfold off. cbn [enqueue s_val s_trail]. rewrite map_app, in_app_iff. cbn [map].
  unfold upd. destruct (N.eqb_spec x (lit_var l)) as [->|NE].
  - split; [intros [_ T]; destruct T; right; left; reflexivity|intros [V _]; congruence].
  - split; intros [V T]; (split; [exact V|]); [intros I; apply T; left; exact I|intros [I|[I|[]]]; [exact (T I)|congruence]].
Qed.
Lemma binary_keeps lit : forall implied s s' r, propagate_binary s lit implied = (s', r) -> keeps s s'.
Proof.
  induction implied as [|l rest IH]; intros s s' r E; cbn [propagate_binary] in E; [injection E as <- _; apply keeps_refl|].
  destruct (lfalse s l) eqn:Lf; [injection E as <- _; apply keeps_refl|]. destruct (ltrue s l) eqn:Lt; [exact (IH _ _ _ E)|].
  eapply keeps_trans; [|exact (IH _ _ _ E)]. apply keeps_enqueue. apply open_none; assumption.
Qed.
Lemma watches_keeps lit : forall ws kept s s' r, propagate_watches s lit ws kept = (s', r) -> keeps s s'.
Proof.
  induction ws as [|[cref bl] ws IH]; intros kept s s' r E; cbn [propagate_watches] in E; [injection E as <- _; apply keeps_eq; reflexivity|].
  destruct (ltrue s bl) eqn:Lb; [exact (IH _ _ _ _ E)|].
  destruct (s_lits s cref) as [|c0 [|c1 rest]]; try (injection E as <- _; apply keeps_refl).
  destruct (if (c0 =? lnot lit)%N then (c1, lnot lit) else (c0, c1)) as [first second]. cbv zeta in E.
  destruct (negb (first =? bl)%N && ltrue s first) eqn:Q; [eapply keeps_as; [| | |exact (IH _ _ _ _ E)]; reflexivity|].
  destruct (take_watch s (lnot lit) rest) as [[l rest']|].
  - destruct (lnot l =? lit)%N; [injection E as <- _; apply keeps_eq; reflexivity|]. eapply keeps_as; [| | |exact (IH _ _ _ _ E)]; reflexivity.
  - destruct (lfalse s first) eqn:Lf; [injection E as <- _; apply keeps_eq; reflexivity|].
    assert (Lt : ltrue s first = false) by (destruct (N.eqb_spec first bl) as [->|NE]; [exact Lb|exact Q]).
    eapply keeps_trans; [|exact (IH _ _ _ _ E)]. eapply keeps_as; [| | |apply keeps_enqueue]; [reflexivity|reflexivity|reflexivity|].
    apply (open_none s first Lf Lt).
Qed.
Lemma loop_keeps bin : forall fuel s s' r, propagate_loop fuel bin s = (s', r) -> keeps s s'.
Proof.
  induction fuel as [|fuel IH]; intros s s' r E; cbn [propagate_loop] in E; destruct (nth_error (s_trail s) (s_head s)) as [lit|];
    try (injection E as <- _; apply keeps_refl).
  cbv zeta in E. destruct (propagate_binary _ lit (bin lit)) as [s1 [k|]] eqn:E1; pose proof (binary_keeps _ _ _ _ _ E1) as G1;
    apply (keeps_as _ s) in G1; try reflexivity; [injection E as <- _; exact G1|].
  destruct (propagate_watches s1 lit (s_watch s1 lit) []) as [s2 r2] eqn:E2. pose proof (watches_keeps _ _ _ _ _ _ E2) as G2.
  destruct r2; try (injection E as <- _; eapply keeps_trans; eassumption). eapply keeps_trans; [exact G1|]. eapply keeps_trans; [exact G2|exact (IH _ _ _ E)].
Qed.
Lemma watch_all_keeps : forall l s, s_val (watch_all s l) = s_val s /\ s_trail (watch_all s l) = s_trail s /\ s_removed (watch_all s l) = s_removed s.
Proof.
  induction l as [|c l IH]; intros s; cbn [watch_all]; [auto|]. destruct (IH (watch_clause s c (nth 0 (s_lits s c) 0%N) (nth 1 (s_lits s c) 0%N))) as (-> & -> & ->).
  unfold watch_clause. destruct (s_wen s); auto.
Qed.
Lemma propagate_keeps n live bin s s' r : propagate n live bin s = (s', r) -> keeps s s'.
Proof.
  intros E. apply loop_keeps in E. unfold enable_watchlists in E. destruct (s_wen s); [exact E|].
  destruct (watch_all_keeps live (with_wen (with_watch s (fun _ => [])) true)) as (E1 & E2 & E3). eapply keeps_as; [exact E1|exact E2|exact E3|exact E].
Qed.
Lemma enqueue_loop_keeps : forall fuel c, post (enqueue_loop fuel c) (fun r => snd r <> Failed -> keeps (c_s c) (c_s (fst r))).
Proof.
  induction fuel as [|fuel IH]; intros c; cbn [enqueue_loop]; destruct (nth_error (as_lits (c_as c)) (clevel (c_s c))) as [a|];
    try (apply post_ret; intros _; apply keeps_refl).
  all: destruct (lfalse (c_s c) a) eqn:Lf; [eapply (post_bind _ _ (fun _ => True)); [intros ? _; exact Logic.I|]; intros c1 _; apply post_ret; intros X; destruct X; reflexivity|].
  all: destruct (ltrue (c_s c) a) eqn:Lt; [match goal with |- post NoFuel _ => apply post_nofuel | _ => eapply post_weaken; [apply IH|]; intros r Hr; exact Hr end|].
  all: apply post_ret; intros _; cbn [set_levels cw_as cw_s c_s fst]; eapply keeps_as; [| | |apply keeps_enqueue]; try reflexivity; apply (open_none _ _ Lf Lt).
Qed.
Lemma find_decision_open : forall fuel s vs vs' v, find_decision fuel s vs = (vs', Some v) -> s_val s v = None.
Proof.
  induction fuel as [|fuel IH]; intros s vs vs' v E; cbn [find_decision] in E; [discriminate|]. destruct (vsids_next vs) as [[x vs1]|]; [|discriminate].
  destruct (s_val s x) eqn:V; [exact (IH _ _ _ _ E)|]. injection E as _ <-. exact V.
Qed.
Lemma make_decision_keeps c c' b : make_decision c = (c', b) -> keeps (c_s c) (c_s c').
Proof.
  unfold make_decision. destruct (find_decision _ _ _) as [vs [v|]] eqn:Ef; intros E; injection E as <- _; [|apply keeps_refl].
  apply find_decision_open in Ef. cbn [cw_s cw_vs c_s]. eapply keeps_as; [| | |apply keeps_enqueue]; try reflexivity. cbn. rewrite lo_var. exact Ef.
Qed.
Lemma undone_keeps s k s' : undone s k s' -> s_removed s' = s_removed s -> keeps s s'.
Proof.
  intros U R. split; [exact R|]. intros x. unfold off. rewrite (ud_val _ _ _ U), (ud_trail _ _ _ U). set (n := nth k (s_decs s) 0).
  assert (Sp : In x (map lit_var (s_trail s)) <-> In x (map lit_var (firstn n (s_trail s))) \/ In x (map lit_var (skipn n (s_trail s)))).
  { rewrite <- (firstn_skipn n (s_trail s)) at 1. rewrite map_app, in_app_iff. reflexivity. }
  destruct (existsb _ _) eqn:X; [apply memb_in in X; fold n in X; tauto|].
  assert (NX : ~ In x (map lit_var (skipn n (s_trail s)))) by (intros I; apply memb_in in I; fold n in X; congruence). tauto.
Qed.
Lemma back_removed k c : s_removed (c_s (backtrack_to k c)) = s_removed (c_s c).
Proof.
  unfold backtrack_to, backtrack. destruct (Nat.leb _ _); [reflexivity|]. destruct (undo _ _ _ _) as [[val last] vs]. reflexivity.
Qed.
Lemma back_keeps f F A c k : inv f F A c -> (f = true -> k < clevel (c_s c)) -> keeps (c_s c) (c_s (backtrack_to k c)).
Proof.
  intros K H. destruct (backtrack_inv f F A c k K H) as (_ & U & N & _). destruct (Nat.lt_ge_cases k (clevel (c_s c))) as [L|L].
  - apply (undone_keeps _ k); [exact (U L)|apply back_removed].
  - rewrite (N L). apply keeps_refl.
Qed.

(** * The removed units are different variables *)
Definition counted (s : search) : Prop := exists R, NoDup R /\ length R = s_removed s /\ forall x, In x R <-> off s x.
Lemma counted_keeps s s' : keeps s s' -> counted s -> counted s'.
Proof. intros [E K] (R & N & L & O). exists R. split; [exact N|]. split; [congruence|]. intros x. rewrite K. apply O. Qed.
Lemma counted_start s : s_removed s = 0 -> (forall x, ~ off s x) -> counted s.
Proof. intros E H. exists []. split; [constructor|]. split; [rewrite E; reflexivity|]. intros x. split; [intros []|intros O; destruct (H x O)]. Qed.
Lemma nodup_join (l l' : list N) : NoDup l -> NoDup l' -> (forall x, In x l -> In x l' -> False) -> NoDup (l ++ l').
Proof.
  induction l as [|y l IH]; intros H H' D; [exact H'|]. inversion_clear H as [|? ? H1 H2]. cbn [app]. constructor.
  - intros I. apply in_app_or in I as [I|I]; [exact (H1 I)|]. apply (D y); [left; reflexivity|exact I].
  - apply IH; [exact H2|exact H'|]. intros x I J. apply (D x); [right; exact I|exact J].
Qed.
Lemma counted_all n s : trail_ok n s -> counted s -> exists R, NoDup R /\ length R = length (s_trail s) + s_removed s /\ forall x, In x R <-> s_val s x <> None.
Proof.
  intros T (R & N & L & O). exists (map lit_var (s_trail s) ++ R). split; [|split].
  - apply nodup_join; [apply (tk_nodup _ _ T)|exact N|]. intros x I J. apply (proj2 (proj1 (O x) J)). exact I.
  - rewrite app_length, map_length, L. reflexivity.
  - intros x. rewrite in_app_iff, O. split.
    + intros [I|I]; [|apply I]. apply in_map_iff in I as (l & <- & I). apply istrue_assigned. apply (tk_true _ _ T). exact I.
    + intros V. destruct (in_dec N.eq_dec x (map lit_var (s_trail s))) as [I|I]; [left; exact I|right; split; assumption].
Qed.
Lemma counted_cleared n s s' : trail_ok n s -> counted s -> s_val s' = s_val s -> s_trail s' = [] -> s_removed s' = s_removed s + length (s_trail s) -> counted s'.
Proof.
  intros T C E1 E2 E3. destruct (counted_all n s T C) as (R & N & L & O). exists R. split; [exact N|]. split; [lia|]. intros x. rewrite O. unfold off. rewrite E1, E2. cbn [map In]. tauto.
Qed.
Lemma unit_proofs_removed : forall tr s, s_removed (fst (unit_proofs s tr)) = s_removed s /\ s_trail (fst (unit_proofs s tr)) = s_trail s.
Proof.
  induction tr as [|l tr IH]; intros s; cbn [unit_proofs fst]; [auto|]. cbv zeta. specialize (IH (update_removed_unit s (lit_var l))).
  destruct (unit_proofs (update_removed_unit s (lit_var l)) tr) as [s1 ps]. cbn [fst] in *. destruct IH as [-> ->]. auto.
Qed.
Lemma prove_units_removed c : s_decs (c_s c) = [] ->
  post (prove_units c) (fun r => s_removed (c_s (fst r)) = s_removed (c_s c) + length (s_trail (c_s c)) /\ s_val (c_s (fst r)) = s_val (c_s c) /\ s_trail (c_s (fst r)) = [] /\ s_decs (c_s (fst r)) = []).
Proof.
  intros D. unfold prove_units, clevel. rewrite D. cbn [length Nat.eqb]. cbv zeta. destruct (unit_proofs_removed (s_trail (c_s c)) (c_s c)) as [U1 U2].
  destruct (unit_proofs_same (s_trail (c_s c)) (c_s c)) as [U3 _].
  destruct (unit_proofs (c_s c) (s_trail (c_s c))) as [s ps]. cbn [fst] in *. unfold trail_clear. destruct (s_decs s); [|apply post_panic].
  match goal with |- context [cw_s c ?X] => set (s1 := X) end.
  assert (E : s_removed s1 = s_removed (c_s c) + length (s_trail (c_s c)) /\ s_val s1 = s_val (c_s c) /\ s_trail s1 = [] /\ s_decs s1 = []).
  { cbn [s1 s_removed s_val s_trail s_decs]. rewrite U1, U2. auto. }
  eapply (post_bind _ _ (fun c' => c_s c' = s1)).
  - destruct ps as [|p ps]; [apply post_ret; reflexivity|]. eapply post_weaken; [apply add_step_post|]. intros c' (e & p' & ->). reflexivity.
  - intros c' K. apply post_ret. cbn [fst]. rewrite K. exact E.
Qed.
Definition rm (c c' : ctx) : Prop := (s_removed (c_s c'), s_val (c_s c')) = (s_removed (c_s c), s_val (c_s c)).
Lemma rm_refl c : rm c c.
Proof. reflexivity. Qed.
Lemma rm_trans a b c : rm a b -> rm b c -> rm a c.
Proof. unfold rm. congruence. Qed.
Lemma rm_frame c c' : frame c c' -> rm c c'.
Proof. intros (e & p & ->). reflexivity. Qed.
Lemma post_rm m c : post m (frame c) -> post m (rm c).
Proof. intros H. eapply post_weaken; [exact H|]. intros c' F. apply rm_frame. exact F. Qed.
Lemma simplify_binary_rm c : post (simplify_binary c) (rm c).
Proof.
  unfold simplify_binary. eapply post_bind; [apply post_rm; apply add_steps_post|]. intros c' K. apply post_ret. eapply rm_trans; [exact K|]. reflexivity.
Qed.
Lemma simplify_clause_rm x c : post (simplify_clause x c) (fun r => rm c (fst r)).
Proof.
  unfold simplify_clause. cbv zeta. destruct (open_lits _ _) as [r|].
  - destruct (Nat.ltb _ _); [|apply post_ret; apply rm_refl].
    eapply post_bind; [apply post_rm; apply add_step_post|]. intros c1 K1. cbv beta.
    eapply (post_bind _ _ (rm c)); [eapply post_weaken; [apply post_rm; apply add_step_post|]; intros c2 F; eapply rm_trans; [exact K1|exact F]|].
    intros c2 K2. destruct r as [|l0 [|l1 [|l2 r]]]; try apply post_panic; apply post_ret; (eapply rm_trans; [exact K2|reflexivity]).
  - eapply post_bind; [apply post_rm; apply add_step_post|]. intros c1 K1. apply post_ret. exact K1.
Qed.
Lemma filter_loop_rm : forall l c, post (filter_loop l c) (fun r => rm c (fst r)).
Proof.
  induction l as [|x l IH]; intros c; cbn [filter_loop]; [apply post_ret; apply rm_refl|].
  destruct (deleted (c_d c) x); [apply IH|]. eapply post_bind; [apply simplify_clause_rm|]. intros [c1 keep] K1. cbn [fst] in K1.
  assert (K2 : rm c (if keep then c1 else cw_d c1 (delete_header (c_s c1) (c_d c1) x))) by (destruct keep; [exact K1|eapply rm_trans; [exact K1|reflexivity]]).
  eapply post_bind; [apply IH|]. intros [c2 r] K3. apply post_ret. eapply rm_trans; eassumption.
Qed.
Lemma filter_clauses_rm c : post (filter_clauses c) (rm c).
Proof.
  unfold filter_clauses. cbv zeta. eapply post_bind; [apply filter_loop_rm|]. intros [c1 r] K1. apply post_ret. cbn [fst] in K1.
  eapply rm_trans; [|eapply rm_trans; [exact K1|]]; reflexivity.
Qed.
Lemma remove_solver_var_rm x c : post (remove_solver_var x c) (rm c).
Proof.
  unfold remove_solver_var. cbv zeta. cbn [cw_vs c_v]. destruct (v_gs (c_v c) x) as [g|]; [|apply post_panic].
  eapply post_bind; [apply post_rm; apply add_step_post|]. intros c1 F1.
  eapply post_weaken; [apply delete_global_post|]. intros c2 [F2|(_ & _ & _ & _ & F2)]; apply rm_frame in F2; (eapply rm_trans; [|eapply rm_trans; [exact F1|]]; [reflexivity|]).
  - exact F2.
  - eapply rm_trans; [|exact F2]. reflexivity.
Qed.
Lemma simplify_vars_rm : forall l c, post (simplify_vars l c) (rm c).
Proof.
  induction l as [|x l IH]; intros c; cbn [simplify_vars]; [apply post_ret; apply rm_refl|].
  eapply (post_bind _ _ (rm c)).
  - unfold simplify_var. destruct (v_gs (c_v c) x) as [g|]; [|apply post_ret; apply rm_refl]. cbv zeta.
    match goal with |- context [cw_v c ?X] => set (v' := X) end. assert (Kv : rm c (cw_v c v')) by reflexivity.
    destruct (_ && _); [|apply post_ret; exact Kv]. eapply post_weaken; [apply remove_solver_var_rm|]. intros c' K. eapply rm_trans; [exact Kv|exact K].
  - intros c1 K1. eapply post_weaken; [apply IH|]. intros c2 K2. eapply rm_trans; eassumption.
Qed.
Lemma unit_simplify_rm c : post (unit_simplify c) (rm c).
Proof.
  unfold unit_simplify. eapply post_bind; [apply simplify_binary_rm|]. intros c1 K1. eapply post_bind; [apply filter_clauses_rm|]. intros c2 K2.
  eapply post_weaken; [apply simplify_vars_rm|]. intros c3 K3. eapply rm_trans; [exact K1|eapply rm_trans; eassumption].
Qed.
Lemma round_counted F A c : inv false F A c -> counted (c_s c) ->
  post (round c) (fun r => match snd r with None => counted (c_s (fst r)) | Some (FConflict _) => s_decs (c_s (fst r)) <> [] -> counted (c_s (fst r)) | _ => True end).
Proof.
  intros K C. unfold round.
  destruct (propagate (v_slen (c_v c)) (live (c_d c)) (c_bin c) (c_s c)) as [s r] eqn:Ep.
  destruct (propagate_core F A c s r (proj1 K) Ep) as (K1 & D1 & L1 & R1). pose proof (counted_keeps _ _ (propagate_keeps _ _ _ _ _ _ Ep) C) as C1.
  cbv zeta. set (c1 := cw_s c s) in *. pose proof (in_trail _ _ _ _ _ (iv_search _ _ _ _ K1)) as T1.
  destruct r as [|k| |]; try contradiction.
  2: { destruct (Nat.eq_dec (clevel (c_s c1)) 0) as [Z|NZ].
       - assert (D0 : s_decs (c_s c1) = []) by (apply length_zero_iff_nil; exact Z).
         eapply post_bind; [apply (prove_units_removed c1 D0)|]. intros [c2 nu] (_ & _ & _ & D2). apply post_ret. cbn [fst snd] in *. congruence.
       - rewrite prove_units_high by lia. cbn [bind]. apply post_ret. intros _. exact C1. }
  assert (S2 : spec (prove_units c1) (fun '((c2, new) : ctx * bool) => counted (c_s c2) /\ if new then s_trail (c_s c2) = [] /\ simp (live (c_d c2)) false F A c2 else True)).
  { destruct (Nat.eq_dec (clevel (c_s c1)) 0) as [Z|NZ].
    - assert (D0 : s_decs (c_s c1) = []) by (apply length_zero_iff_nil; exact Z).
      eapply spec_weaken; [apply spec_post; [apply (prove_units_simp F A c1 K1 D0 R1)|apply (prove_units_removed c1 D0)]|].
      intros [c2 new] [Q (P1 & P2 & P3 & _)]. cbn [fst] in *. split; [eapply counted_cleared; eassumption|]. destruct new; [|exact Logic.I]. split; [exact P3|apply Q].
    - rewrite prove_units_high by lia. apply spec_ret. split; [exact C1|exact Logic.I]. }
  intros [c' o] E. cbn [fst snd].
  destruct (prove_units c1) as [[c2 nu]|p|] eqn:E2; cbn [bind] in E; try discriminate. destruct (spec_get _ _ _ S2 eq_refl) as [C2 Q2].
  destruct (if nu then unit_simplify c2 else Ret c2) as [c3|p|] eqn:E3; cbn [bind] in E; try discriminate.
  assert (C3 : counted (c_s c3)).
  { destruct nu; [|injection E3 as <-; exact C2]. destruct Q2 as [T2 Q2]. destruct (spec_get _ _ _ (unit_simplify_spec F A c2 Q2) E3) as (_ & T3 & _).
    pose proof (unit_simplify_rm c2 _ E3) as O3. injection O3 as O3 O4.
    eapply counted_keeps; [|exact C2]. split; [exact O3|]. intros x. unfold off. rewrite O4, T2, T3. reflexivity. }
  destruct (enqueue_assumption c3) as [[c4 e]|p|] eqn:E4; cbn [bind] in E; try discriminate. pose proof (enqueue_loop_keeps _ _ _ E4) as K4. cbn [fst snd] in K4.
  destruct e.
  - destruct (make_decision c4) as [c5 b] eqn:Em. destruct b; injection E as <- <-; [|exact Logic.I].
    eapply counted_keeps; [exact (make_decision_keeps _ _ _ Em)|]. eapply counted_keeps; [apply K4; discriminate|exact C3].
  - injection E as <- <-. eapply counted_keeps; [apply K4; discriminate|exact C3].
  - injection E as <- <-. exact Logic.I.
Qed.
Lemma find_counted F A : forall fuel c, inv false F A c -> counted (c_s c) ->
  post (find_conflict fuel c) (fun r => match snd r with FConflict _ => s_decs (c_s (fst r)) <> [] -> counted (c_s (fst r)) | _ => True end).
Proof.
  induction fuel as [|fuel IH]; intros c K C; [apply post_nofuel|]. rewrite find_round. destruct (round_ends F A c K) as [_ P].
  intros [c' f] E. destruct (round c) as [[c1 o]|p|] eqn:Er; cbn [bind] in E; try discriminate. destruct (P _ eq_refl) as [_ Q]. pose proof (round_counted F A c K C _ Er) as G. cbn [fst snd] in *.
  destruct o as [g|]; [injection E as <- <-; exact G|]. destruct (Q eq_refl) as [K1 _]. exact (IH c1 K1 G _ E).
Qed.
Lemma learn_trail cl c : post (learn_clause cl c) (fun c' => s_removed (c_s c') = s_removed (c_s c) /\ match cl with [] => st_sat (c_st c') = Unsat | l0 :: _ =>
  s_val (c_s c') = upd (s_val (c_s c)) (lit_var l0) (Some (is_positive l0)) /\ s_trail (c_s c') = s_trail (c_s c) ++ [l0] end).
Proof.
  unfold learn_clause. destruct cl as [|l0 [|l1 [|l2 r]]]; try (apply post_ret; repeat split).
  destruct (assess_learned _ _ _) as [flags h]. unfold db_add_clause, add_long. destruct (d_full _); cbn [bind]; [apply post_panic|]. apply post_ret.
  cbn [cw_s cw_d cw_tmp c_s]. unfold watch_clause. destruct (s_wen _); repeat split.
Qed.
Lemma conflict_counted F A fuel c : inv false F A c -> counted (c_s c) -> post (conflict_step fuel c) (fun c' => st_sat (c_st c') = Unknown -> counted (c_s c')).
Proof.
  intros K C. unfold conflict_step. pose proof (find_counted F A fuel c K C) as Fc. pose proof (find_conflict_spec F A fuel c K) as Sp.
  intros c' E. destruct (find_conflict fuel c) as [[c1 f]|p|] eqn:Ef; cbn [bind] in E; try discriminate. specialize (Fc _ eq_refl). cbn [fst snd] in Fc. destruct f as [| |k].
  - destruct (model_fixed c1 _ E) as [_ Y]. congruence.
  - injection E as <-. discriminate.
  - destruct (spec_get _ _ _ Sp eq_refl) as [Kp Q].
    destruct (analyze_conflict (v_slen (c_v c1)) (p_native (c_pf c1)) (c_s c1) (c_vs c1) (c_an c1) k) as [[vs a] bt] eqn:Ea.
    destruct Q as [(D0 & B1 & NM)|(Lv & K1 & Ck)].
    + unfold analyze_conflict in Ea. unfold clevel in Ea. rewrite D0 in Ea. cbn [length Nat.eqb] in Ea. injection Ea as Ev Ea Eb.
      assert (A1 : a_clause a = []) by (rewrite <- Ea; destruct (p_native (c_pf c1)); reflexivity).
      destruct (a_fuel a); [discriminate|]. cbv zeta in E. destruct (bump_clauses _ _ _ _) as [d flags]. rewrite A1 in E.
      destruct (add_step _ _ _) as [c3|p|]; cbn [bind] in E; try discriminate. injection E as <-. discriminate.
    + destruct (iv_search _ _ _ _ (proj1 K1)) as [T S _ _]. pose proof (iv_base _ _ _ _ (proj1 K1)) as B1. destruct (b_flags _ B1) as (F1 & F2 & F3).
      destruct (analyze_conflict_spec _ _ _ _ _ _ _ _ _ _ _ T S Lv Ck F1 F2 Ea) as (Le & G1 & G2 & G3 & G4).
      rewrite G3, F3 in E. cbv zeta in E. destruct (bump_clauses _ _ _ _) as [d flags].
      set (c2 := cw_tmp (cw_d (cw_an (cw_vs c1 vs) a) (decay_clause_activities d)) flags) in *.
      destruct (add_step _ _ (backtrack_to bt c2)) as [c3|p|] eqn:E3; cbn [bind] in E; try discriminate.
      destruct (add_step_post _ _ _ _ E3) as (e & p & Fr). destruct (learn_trail _ _ _ E) as [X4 L4]. intros _.
      destruct (le_clause _ _ _ _ _ Le) as (l0 & rest & El & [F0 I0] & V0 & _). rewrite El in L4. destruct L4 as [Va Tr].
      pose proof (le_bt _ _ _ _ _ Le) as Bt.
      assert (Ud : undone (c_s c1) bt (c_s (backtrack_to bt c2))).
      { unfold backtrack_to. destruct (backtrack (c_s c2) (c_vs c2) bt) as [s' vs'] eqn:Eb. cbn [cw_vs cw_s c_s].
        exact (proj1 (backtrack_undone _ _ _ _ _ _ T Eb Bt)). }
      assert (E3' : c_s c3 = c_s (backtrack_to bt c2)) by (rewrite Fr; reflexivity). rewrite E3' in Va, Tr, X4.
      assert (Kb : keeps (c_s c1) (c_s (backtrack_to bt c2))) by (apply (undone_keeps _ bt); [exact Ud|rewrite back_removed; reflexivity]).
      assert (C1 : counted (c_s c1)) by (apply Fc; intros D; unfold clevel in Lv; rewrite D in Lv; cbn in Lv; lia).
      eapply counted_keeps; [|exact C1]. destruct Kb as [Rb Kb]. split; [congruence|]. intros x. rewrite <- Kb.
      assert (Nx : ~ off (c_s c1) (lit_var l0)). { intros O1. apply (proj2 O1). rewrite <- lnot_var. apply in_map. exact I0. }
      rewrite <- Kb in Nx. unfold off at 1. rewrite Va, Tr, map_app, in_app_iff. cbn [map In]. unfold upd. destruct (N.eqb_spec x (lit_var l0)) as [->|NE].
      * split; [intros [_ H]; destruct H; right; left; reflexivity|intros H; destruct (Nx H)].
      * unfold off. split; intros [V H]; (split; [exact V|]); [intros I; apply H; left; exact I|intros [I|[I|[]]]; [exact (H I)|congruence]].
Qed.
(** * Steps *)
Lemma step_counted t z w S0 U F A fuel c : progress t z w S0 U F A c -> counted (c_s c) ->
  post (schedule_step fuel c) (fun r => st_sat (c_st (fst r)) = Unknown -> counted (c_s (fst r))).
Proof.
  intros Pr C. unfold schedule_step. destruct (st_sat (c_st c)) eqn:St; try (apply post_ret; intros _; exact C).
  destruct (st_error (c_st c)) as [e|] eqn:Er; [apply post_ret; intros _; exact C|]. cbv zeta.
  destruct Pr as (B & Vi & Pr). rewrite St in Pr. destruct Pr as (K & Bd & Cl).
  match goal with |- context [reduce_locals (c_s ?X) _] => set (c1 := X) end.
  assert (K1 : inv false F A c1 /\ counted (c_s c1)).
  { unfold c1. destruct (_ =? _)%N; [|auto]. destruct (luby_advance _) as [x lb].
    destruct (backtrack_inv false F A c (as_levels (c_as c)) K) as (K1 & _); [discriminate|].
    split; [split; [apply core_sc; apply K1|apply K1]|]. eapply counted_keeps; [|exact C]. apply (back_keeps false F A); [exact K|discriminate]. }
  destruct K1 as (K1 & C1). clearbody c1.
  match goal with |- post (bind ?m _) _ => set (m1 := m) end.
  assert (P1 : post m1 (fun c2 => inv false F A c2 /\ counted (c_s c2))).
  { unfold m1. destruct (_ =? _)%N; [|apply post_ret; split; assumption].
    destruct (reduce_locals (c_s c1) (c_d c1)) as [[s d] out] eqn:Er2.
    destruct (reduce_locals_spec _ _ _ _ _ (iv_db _ _ _ _ (proj1 K1)) Er2) as (Db & Sw & Wo & R & _).
    pose proof (inv_reduced F A c1 s d out K1 Db Sw Wo R) as K2. destruct Sw as (w0 & -> & _).
    eapply post_weaken; [apply add_steps_post|]. intros c2 Fr. split; [eapply inv_frame; eassumption|]. destruct Fr as (e & p & ->).
    eapply counted_keeps; [|exact C1]. apply keeps_eq; reflexivity. }
  clearbody m1. eapply post_bind; [exact P1|]. clear c1 K1 C1 m1 P1. intros c2 [K2 C2]. cbv beta.
  match goal with |- context [collect_garbage (c_s ?X) _] => set (c3 := X) end.
  assert (K3 : inv false F A c3 /\ counted (c_s c3)).
  { unfold c3. destruct (_ =? _)%N; [|split; assumption].
    destruct (reduce_mids_spec (c_s c2) (c_d c2) (iv_db _ _ _ _ (proj1 K2))) as (Db & R & Lv & _).
    split; [split; [|apply K2]|exact C2]. apply core_d; [apply K2|exact Db|exact Lv|apply (rd_irred _ _ _ _ R)]. }
  destruct K3 as (K3 & C3). clearbody c3. destruct (iv_search _ _ _ _ (proj1 K3)) as [T S W P].
  destruct (collect_spec (c_s c3) (c_d c3) (iv_db _ _ _ _ (proj1 K3)) (tk_nodup _ _ T)) as (s' & d' & ρ & Ec & M & Or & Db).
  { intros l y Il Ey. split; [exact (so_rlong _ _ _ _ S l y Il Ey)|]. apply In_nth_error in Il as (p & Hp). pose proof (tk_reason _ _ T _ _ Hp) as Q.
    unfold reason_ok in Q. rewrite Ey in Q. destruct Q as (_ & rest & Q & _). exists rest. exact Q. }
  rewrite Ec. destruct (d_full d') eqn:Fu; [apply post_panic|].
  pose proof (inv_moved F A c3 s' d' ρ K3 M Or (Db eq_refl)) as K4. set (c4 := cw_d (cw_s c3 s') d') in *.
  assert (C4 : counted (c_s c4)).
  { eapply counted_keeps; [|exact C3]. cbn [c4 cw_d cw_s c_s]. destruct (mv_search _ _ _ _ _ M) as [Q|Q]; rewrite Q; apply keeps_eq; reflexivity. }
  eapply post_bind; [exact (conflict_counted F A fuel c4 K4 C4)|]. intros c5 H5. apply post_ret. exact H5.
Qed.

(** * Calls that do not search *)
(** Before the first [solve] there is no decision, no removed unit and no saved unit. *)
Definition preS (s : search) : Prop := s_removed s = 0 /\ s_decs s = [] /\ forall x, ~ off s x.
Definition pre (c : ctx) : Prop := preS (c_s c) /\ forall g, vd_unit (v_data (c_v c) g) = None.
Lemma pre_open s x : preS s -> preS (with_val s (upd (s_val s) x None)).
Proof.
  intros (A & B & C). split; [exact A|]. split; [exact B|]. intros y [V T]. cbn [with_val s_val s_trail] in V, T. unfold upd in V. destruct (N.eqb_spec y x); [congruence|].
  apply (C y). split; assumption.
Qed.
Lemma pre_enqueue s l r : preS s -> preS (enqueue s l r).
Proof.
  intros (A & B & C). split; [exact A|]. split; [exact B|]. intros y [V T]. cbn [enqueue s_val s_trail] in V, T. rewrite map_app, in_app_iff in T. cbn [map In] in T.
  unfold upd in V. destruct (N.eqb_spec y (lit_var l)) as [E|NE]; [apply T; right; left; symmetry; exact E|]. apply (C y). split; [exact V|]. intros I. apply T. left. exact I.
Qed.
Lemma data_same (f : N -> vdata) g d : (forall x, vd_unit (f x) = None) -> vd_unit d = None -> forall x, vd_unit (upd f g d x) = None.
Proof. intros H E x. unfold upd. destruct (x =? g)%N; auto. Qed.
Definition frm {A} (c0 : ctx) (pr : A -> ctx) (m : out A) : Prop :=
  match m with Ret a => pre c0 -> pre (pr a) | _ => True end.
Notation self := (fun c : ctx => c).
Ltac same := solve [cbn [frm]; intros H; exact H | cbn [frm]; intros [H D]; (split; [exact H|]); first [exact D | apply data_same; [exact D|first [reflexivity|apply D]]]].
Lemma frm_bind {A B} c0 (pa : A -> ctx) (pb : B -> ctx) m f : frm c0 pa m -> (forall a, frm (pa a) pb (f a)) -> frm c0 pb (bind m f).
Proof.
  intros H K. destruct m as [a|p|]; cbn [bind frm] in *; auto. specialize (K a). destruct (f a); cbn [frm] in *; auto.
Qed.
Lemma frm_as {A} c0 c1 (pa : A -> ctx) m : (pre c0 -> pre c1) -> frm c1 pa m -> frm c0 pa m.
Proof. intros E H. destruct m; cbn [frm] in *; auto. Qed.
Lemma frm_frame c m : ends m -> post m (frame c) -> frm c self m.
Proof. intros E P. destruct m as [c'|p|]; cbn [frm]; auto. destruct (P _ eq_refl) as (e & p & ->). same. Qed.
Lemma frm_step sv s c : frm c self (add_step sv s c).
Proof. apply frm_frame; [apply ends_step|apply add_step_post]. Qed.
Lemma frm_proof cl c : frm c self (proof_add_clause cl c).
Proof.
  apply frm_frame; [|apply proof_add_clause_post]. unfold proof_add_clause. destruct (st_invoked _); [apply ends_step|]. apply ends_bind; [|intros c1 _; discriminate].
  destruct (p_checker _); [|discriminate]. destruct (map_lits _ _); [apply ends_ask|discriminate].
Qed.
Lemma frm_gfu1 u rs c : frm c fst (global_from_user1 u rs c).
Proof.
  unfold global_from_user1. cbv zeta. destruct (v_gu (c_v c) u); [destruct (_ && _); [exact Logic.I|same]|].
  eapply (frm_bind _ self); [|intros c1; same]. eapply frm_as; [|apply frm_step]. same.
Qed.
Lemma frm_fill : forall n c, frm c self (fill_users n c).
Proof.
  induction n as [|n IH]; intros c; cbn [fill_users]; [same|]. eapply (frm_bind _ fst); [apply frm_gfu1|]. intros [c1 g]. apply IH.
Qed.
Lemma frm_gfu u rs c : frm c fst (global_from_user u rs c).
Proof. unfold global_from_user. eapply (frm_bind _ self); [apply frm_fill|]. intros c1. apply frm_gfu1. Qed.
Lemma frm_sfg g c : frm c fst (solver_from_global g c).
Proof.
  unfold solver_from_global. cbv zeta. destruct (v_sg (c_v c) g); [same|]. eapply (frm_bind _ self); [|intros c1; eapply (frm_bind _ self); [apply frm_step|intros c2; same]].
  unfold initialize_solver_var. cbv zeta. destruct (vsids_reset _ _); [|exact Logic.I]. cbn [frm]. intros [H D].
  change (v_data (c_v (cw_v c _)) g) with (v_data (c_v c) g). rewrite (D g). split; [|exact D]. exact (pre_open _ _ H).
Qed.
Lemma frm_lits rs : forall l c, frm c fst (solver_from_user_lits l rs c).
Proof.
  induction l as [|x l IH]; intros c; cbn [solver_from_user_lits]; [same|]. eapply (frm_bind _ fst).
  - unfold solver_from_user. eapply (frm_bind _ fst); [apply frm_gfu|]. intros [c1 g]. apply frm_sfg.
  - intros [c1 y]. eapply (frm_bind _ fst); [apply IH|]. intros [c2 r]. same.
Qed.
Lemma frm_delete g c : frm c self (delete_global_if_unused g c).
Proof.
  unfold delete_global_if_unused. cbv zeta. destruct (v_ug (c_v c) g); [same|]. destruct (v_sg (c_v c) g); [same|].
  destruct (negb _); [exact Logic.I|]. destruct (negb _); [same|]. eapply (frm_bind _ self); [|intros c1; same]. eapply frm_as; [|apply frm_step]. same.
Qed.
Lemma frm_mode g m c : frm c fst (set_sampling_mode g m c).
Proof.
  unfold set_sampling_mode. cbv zeta. destruct (vd_deleted _); [exact Logic.I|]. destruct (vd_assumed _); [exact Logic.I|]. destruct (smode_eqb _ m); [same|].
  eapply (frm_bind _ self).
  - destruct (smode_eqb m Hide); [same|]. eapply frm_as; [|apply frm_step]. same.
  - intros c1. destruct (smode_eqb _ Hide).
    + eapply (frm_bind _ self); [|intros c2; same]. eapply frm_as; [|apply frm_step]. same.
    + destruct (smode_eqb m Hide); [|same]. eapply (frm_bind _ self); [eapply frm_as; [|apply frm_step]; destruct (v_ug _ _); same|].
      intros c2. eapply (frm_bind _ self); [apply frm_delete|]. intros c3. same.
Qed.
Lemma frm_observe : forall n g c, frm c fst (observe_loop n g c).
Proof.
  induction n as [|n IH]; intros g c; cbn [observe_loop]; [same|]. cbv zeta. destruct (_ && _); [|apply IH].
  eapply (frm_bind _ fst); [apply frm_mode|]. intros [c1 [u|]]; [|exact Logic.I]. eapply (frm_bind _ fst); [apply IH|]. intros [c2 r]. same.
Qed.
Lemma frm_data f : (forall d, vd_unit (f d) = vd_unit d) -> forall l c, frm c self (map_data_lits l f c).
Proof.
  intros Hf. induction l as [|x l IH]; intros c; cbn [map_data_lits]; [same|]. eapply (frm_bind _ self); [|intros c1; apply IH].
  unfold map_data_solver. destruct (v_gs _ _) as [g|]; [|exact Logic.I]. intros [H D]. split; [exact H|]. apply data_same; [exact D|]. rewrite Hf. apply D.
Qed.
Lemma full_restart_pre c : pre c -> pre (full_restart c).
Proof.
  intros [H D]. unfold full_restart, backtrack_to, backtrack. cbn [set_levels cw_as c_s]. rewrite (proj1 (proj2 H)). split; [exact H|exact D].
Qed.
Lemma resurrect_pre : forall fl s, preS s -> preS (fold_left (fun s l => resurrect_unit s (lnot l)) fl s).
Proof.
  induction fl as [|l fl IH]; intros s H; cbn [fold_left]; [exact H|]. apply IH. unfold resurrect_unit. destruct (is_removed_unit _ _); [|exact H].
  apply pre_enqueue, pre_open. exact H.
Qed.
Lemma frm_load l c : frm c self (load_clause l c).
Proof.
  unfold load_clause. destruct (st_sat (c_st c)) eqn:St; try same; cbv zeta.
  all: eapply (frm_bind _ fst); [eapply frm_as; [|apply frm_lits]; intros H; apply full_restart_pre; exact H|]; intros [c1 ls]; cbn [fst].
  all: eapply (frm_bind _ self); [apply frm_proof|]; intros c2; (destruct (tautology _); [same|]).
  all: eapply (frm_bind _ self); [destruct (Nat.ltb _ _); [apply frm_data; reflexivity|same]|]; intros c3; destruct (scan_lits _ _) as [[kept fl] tr].
  all: set (s' := fold_left _ fl (c_s c3)); pose proof (resurrect_pre fl (c_s c3)) as Rs; fold s' in Rs; clearbody s'.
  all: assert (Ps : pre c3 -> pre (cw_s c3 s')) by (intros [H D]; split; [exact (Rs H)|exact D]).
  all: destruct tr; [destruct (Nat.ltb _ _); [eapply frm_as; [|apply frm_step]; exact Ps|exact Ps]|].
  all: destruct (kept ++ fl) as [|l0 [|l1 [|l2 r]]]; try exact Ps.
  all: try (destruct kept; [exact Ps|]; intros H; destruct (Ps H) as [Q D]; split; [apply pre_enqueue; exact Q|exact D]).
  all: eapply (frm_bind _ fst); [|intros [c4 x]; same]; unfold db_add_clause, add_long; cbv zeta; (destruct (d_full _); [exact Logic.I|]); cbn [frm fst];
    intros H; destruct (Ps H) as [Q D]; (split; [|exact D]); cbn [cw_d cw_s c_s]; unfold watch_clause; destruct (s_wen _); exact Q.
Qed.
Lemma frm_assume l c : frm c self (set_assumptions l c).
Proof.
  unfold set_assumptions. cbv zeta. eapply (frm_bind _ self); [eapply frm_as; [|apply frm_data; reflexivity]; intros H; apply full_restart_pre in H; destruct (st_sat _); exact H|].
  intros c1. eapply (frm_bind _ fst); [apply frm_lits|]. intros [c2 ls]. eapply (frm_bind _ self); [eapply frm_as; [|apply frm_data; reflexivity]; same|]. intros c3. apply frm_step.
Qed.
Lemma frm_close c : frm c self (close_proof c).
Proof.
  unfold close_proof. eapply (frm_bind _ self); [apply frm_step|]. intros c1. cbv zeta. unfold flush_proof.
  destruct (handle_io_frame c1 (match p_format (c_pf c1) with Some _ => p_io (c_pf c1) (p_out (c_pf c1)) | None => false end)) as (e & p & ->). same.
Qed.
Lemma take_error_pre c : pre c -> pre (fst (take_error c)).
Proof. unfold take_error. destruct (st_error _); same. Qed.
Lemma frm_run fuel k c : k <> CSolve -> frm c fst (run fuel k c).
Proof.
  intros Nk. destruct k; cbn [run]; try congruence.
  - eapply (frm_bind _ self); [apply frm_load|]. intros c1. same.
  - eapply (frm_bind _ fst); [|intros [c1 u]; same]. unfold new_user_var. cbv zeta. eapply (frm_bind _ fst); [eapply frm_as; [|apply frm_gfu]; same|].
    intros [c1 g]. same.
  - eapply (frm_bind _ self); [|intros c1; same]. unfold change_mode. eapply (frm_bind _ fst); [apply frm_gfu|]. intros [c1 g]. eapply (frm_bind _ fst); [apply frm_mode|]. intros [c2 o]. same.
  - eapply (frm_bind _ self); [|intros c1; same]. unfold change_mode. eapply (frm_bind _ fst); [apply frm_gfu|]. intros [c1 g]. eapply (frm_bind _ fst); [apply frm_mode|]. intros [c2 o]. same.
  - eapply (frm_bind _ self); [|intros c1; same]. unfold change_mode. eapply (frm_bind _ fst); [apply frm_gfu|]. intros [c1 g]. eapply (frm_bind _ fst); [apply frm_mode|]. intros [c2 o]. same.
  - eapply (frm_bind _ fst); [apply frm_observe|]. intros [c1 l]. same.
  - eapply (frm_bind _ self); [apply frm_assume|]. intros c1. same.
  - destruct (st_empty _); [same|exact Logic.I].
  - eapply (frm_bind _ self); [apply frm_close|]. intros c1. pose proof (take_error_pre c1) as T. destruct (take_error c1) as [c2 [e|]]; exact T.
  - destruct (st_empty _); [same|exact Logic.I].
  - destruct (update_apply _ _) as [ok cfg]. destruct ok; [|same]. destruct (_ && _); [same|exact Logic.I].
Qed.

Lemma calls_pre fuel : forall ks c, ~ In CSolve ks -> pre c -> post (run_all fuel ks c) (fun r => pre (fst r)).
Proof.
  induction ks as [|k ks IH]; intros c H P; cbn [run_all]; [apply post_ret; exact P|].
  assert (Nk : k <> CSolve) by (intros ->; apply H; left; reflexivity). intros [c' l] E. pose proof (frm_run fuel k c Nk) as R.
  destruct (run fuel k c) as [[c1 a]|p|]; cbn [bind] in E; try discriminate. cbn [frm fst] in R.
  destruct (run_all fuel ks c1) as [[c2 l2]|p|] eqn:E2; cbn [bind] in E; try discriminate. injection E as <- _. exact (IH c1 (fun I => H (or_intror I)) (R P) _ E2).
Qed.
(** * The property *)
Notation stepped := P_Terminate.stepped.
Lemma loop_reports t z w S0 U F A fuel : forall n c c' reps, progress t z w S0 U F A c ->
  schedule_loop_log fuel n c = Ret (c', reps) -> forall r, In r reps -> exists m c1, stepped fuel m c = Ret c1 /\ due c1 = true /\ r = report_of c1 /\
    progress t z w S0 U F A c1.
Proof.
  induction n as [|n IH]; intros c c' reps P E r I; cbn [schedule_loop_log] in E; [discriminate|]. cbv zeta in E.
  assert (Here : In r (if due c then [report_of c] else []) -> exists m c1, stepped fuel m c = Ret c1 /\ due c1 = true /\ r = report_of c1 /\ progress t z w S0 U F A c1).
  { intros H. destruct (due c) eqn:Du; [|destruct H]. destruct H as [<-|[]]. exists 0, c. split; [reflexivity|]. split; [exact Du|]. split; [reflexivity|]. exact P. }
  destruct (schedule_step fuel c) as [[c1 more]|p|] eqn:E1; cbn [bind] in E; try discriminate. destruct more.
  - destruct (schedule_loop_log fuel n c1) as [[c2 l]|p|] eqn:E2; cbn [bind] in E; try discriminate. injection E as <- <-.
    apply in_app_or in I as [I|I]; [apply Here; exact I|].
    destruct (spec_get _ _ _ (schedule_step_spec t z w S0 U F A fuel c P) E1) as [P1 _].
    destruct (IH c1 c2 l P1 E2 r I) as (m & c3 & S3 & Q).
    exists (S m), c3. split; [|exact Q]. cbn [P_Terminate.stepped]. rewrite E1. exact S3.
  - injection E as <- <-. apply Here. exact I.
Qed.
Lemma log_erase fuel : forall ks c, (do r <- run_all_log fuel ks c ; Ret (fst r)) = run_all fuel ks c.
Proof.
  induction ks as [|k ks IH]; intros c; [reflexivity|]. cbn [run_all run_all_log]. rewrite <- (run_erase fuel k c).
  destruct (run_log fuel k c) as [[[c1 a] rep]|p|]; cbn [bind fst]; try reflexivity.
  rewrite <- (IH c1). destruct (run_all_log fuel ks c1) as [[[c2 l] r2]|p|]; reflexivity.
Qed.
Lemma all_reports fuel : forall ks c0 c answers reps, run_all_log fuel ks c0 = Ret (c, answers, reps) -> forall r, In r reps ->
  exists before after c1 answers1 l c2, ks = before ++ CSolve :: after /\ run_all fuel before c0 = Ret (c1, answers1) /\ schedule_loop_log fuel fuel (set_invoked c1 true) = Ret (c2, l) /\ In r l.
Proof.
  induction ks as [|k ks IH]; intros c0 c answers reps E r I; cbn [run_all_log] in E; [injection E as _ _ <-; destruct I|].
  destruct (run_log fuel k c0) as [[[c1 a] l1]|p|] eqn:E1; cbn [bind] in E; try discriminate.
  destruct (run_all_log fuel ks c1) as [[[c2 l2] l3]|p|] eqn:E2; cbn [bind] in E; try discriminate. injection E as <- <- <-.
  apply in_app_or in I as [I|I].
  - assert (Ek : k = CSolve). { destruct k; try reflexivity; exfalso; unfold run_log in E1; destruct (run fuel _ c0) as [[? ?]|?|]; cbn [bind] in E1; try discriminate; injection E1 as _ _ <-; destruct I. }
    subst k. cbn [run_log] in E1. cbv zeta in E1. destruct (st_invalid _); [discriminate|].
    destruct (schedule_loop_log fuel fuel (set_invoked c0 true)) as [[c3 l]|p|] eqn:E3; cbn [bind] in E1; try discriminate.
    destruct (solve_finished c3) as [c4|p|]; cbn [bind] in E1; try discriminate.
    assert (El : l = l1) by (destruct (take_error c4) as [c5 [e|]]; injection E1 as _ _ <-; reflexivity). subst l1.
    exists [], ks, c0, [], l, c3. split; [reflexivity|]. split; [reflexivity|]. split; [exact E3|exact I].
  - destruct (IH c1 c2 l2 l3 E2 r I) as (before & after & c3 & ans & l & c4 & -> & R & Q). exists (k :: before), after, c3, (a :: ans), l, c4.
    split; [reflexivity|]. split; [|exact Q]. cbn [run_all]. rewrite <- (run_erase fuel k c0), E1. cbn [bind fst]. rewrite R. reflexivity.
Qed.
Lemma tiers_sum d : forall l, list_sum (map (fun t => length (filter (fun x => tier_eqb (h_tier (d_hdr d x)) t) l)) [Irred; Core; Mid; Local]) = length l.
Proof.
  induction l as [|x l IH]; [reflexivity|]. cbn [map list_sum fold_right filter length] in *. destruct (h_tier (d_hdr d x)); cbn [tier_eqb length]; lia.
Qed.

(** Logging changes no answer and no state. *)
Theorem C53_silent : forall fuel ks c, (do r <- run_all_log fuel ks c ; Ret (fst r)) = run_all fuel ks c.
Proof. exact log_erase. Qed.

(** Every report of every history belongs to a state of a [solve] whose number of conflicts is a positive multiple of 5000 and shows that number (in thousands), the restarts and
    the clauses of each tier, which together are all long clauses. *)
Theorem C53_numbers : forall fuel pick judge io ks c answers reps r, run_all_log fuel ks (ctx_default pick judge io) = Ret (c, answers, reps) -> In r reps ->
  exists before after c0 answers0 n c1, ks = before ++ CSolve :: after /\ run_all fuel before (ctx_default pick judge io) = Ret (c0, answers0) /\
    stepped fuel n (set_invoked c0 true) = Ret c1 /\ st_sat (c_st c1) = Unknown /\
    (exists j, sc_conflicts (c_sc c1) = 5000 * (j + 1) /\ r_kilo r = 5 * (j + 1))%N /\ r_restarts r = sc_restarts (c_sc c1) /\
    r_tiers r = map (fun t => length (filter (fun x => tier_eqb (h_tier (d_hdr (c_d c1) x)) t) (live (c_d c1)))) [Irred; Core; Mid; Local] /\
    list_sum (r_tiers r) = length (live (c_d c1)).
Proof.
  intros fuel pick judge io ks c answers reps r E I. destruct (all_reports _ _ _ _ _ _ E r I) as (before & after & c0 & ans & l & c2 & Ek & R & L & Il).
  destruct (P_Terminate.history_progress _ _ _ _ _ _ _ R) as (t & z & w & S & U & F & A & P). apply TerminateLoop.invoked_progress in P.
  destruct (loop_reports t z w S U F A fuel _ _ _ _ P L r Il) as (n & c1 & St & Du & -> & P1).
  exists before, after, c0, ans, n, c1. split; [exact Ek|]. split; [exact R|]. split; [exact St|].
  unfold due in Du. destruct P1 as (_ & _ & P1). destruct (st_sat (c_st c1)) eqn:Ss; try discriminate. split; [reflexivity|]. destruct (st_error _); [discriminate|].
  assert (Ct : map (d_count (c_d c1)) [Irred; Core; Mid; Local] = map (fun t => length (filter (fun x => tier_eqb (h_tier (d_hdr (c_d c1) x)) t) (live (c_d c1)))) [Irred; Core; Mid; Local]).
  { apply map_ext. intros u. exact (dk_count _ _ _ (proj1 (iv_db _ _ _ _ (proj1 (proj1 P1)))) u). }
  split; [|split; [reflexivity|split; [exact Ct|]]].
  - apply andb_true_iff in Du as [D1 D2]. apply N.ltb_lt in D1. apply N.eqb_eq in D2. pose proof (N.div_mod (sc_conflicts (c_sc c1)) 5000 ltac:(discriminate)) as D.
    set (q := (sc_conflicts (c_sc c1) / 5000)%N) in *. exists (q - 1)%N. split; [lia|]. unfold report_of. cbn [r_kilo]. replace (sc_conflicts (c_sc c1)) with ((5 * q) * 1000)%N by lia.
    rewrite N.div_mul by discriminate. lia.
  - unfold report_of. cbn [r_tiers]. rewrite Ct. apply tiers_sum.
Qed.

Lemma stepped_counted t z w S0 U F A fuel : forall n c c1, progress t z w S0 U F A c -> counted (c_s c) -> stepped fuel n c = Ret c1 -> st_sat (c_st c1) = Unknown ->
  progress t z w S0 U F A c1 /\ counted (c_s c1).
Proof.
  induction n as [|n IH]; intros c c1 P C E St; cbn [P_Terminate.stepped] in E; [injection E as <-; auto|].
  destruct (schedule_step fuel c) as [[c2 b]|p|] eqn:E1; cbn [bind] in E; try discriminate.
  destruct (spec_get _ _ _ (schedule_step_spec t z w S0 U F A fuel c P) E1) as [P1 _]. apply (IH c2 c1 P1); [|exact E|exact St].
  apply (step_counted t z w S0 U F A fuel c P C _ E1). cbn [fst]. destruct (st_sat (c_st c2)) eqn:S2; [reflexivity| | |].
  all: exfalso; clear - E S2 St; revert E; destruct n as [|n]; cbn [P_Terminate.stepped]; [intros E; injection E as <-; congruence|].
  all: assert (Q : forall n, stepped fuel n c2 = Ret c2); [induction n0 as [|n0 I0]; [reflexivity|]; cbn [P_Terminate.stepped]; unfold schedule_step; rewrite S2; cbn [bind]; exact I0|].
  all: intros E; pose proof (Q (S n)) as Q1; cbn [P_Terminate.stepped] in Q1; rewrite Q1 in E; injection E as <-; congruence.
Qed.
(** Partial, as it covers the first [solve] only: in every state of the search, and so in every report, the number of variables is that of the solver without exactly those that have a value
    not depending on decisions; the subtraction does not underflow. *)
Theorem C53_variables_partial : forall fuel pick judge io ks c answers n c1, ~ In CSolve ks -> run_all fuel ks (ctx_default pick judge io) = Ret (c, answers) ->
  stepped fuel n (set_invoked c true) = Ret c1 -> st_sat (c_st c1) = Unknown ->
  exists m fixed, r_vars (report_of c1) = Some m /\ m + length fixed = N.to_nat (v_slen (c_v c1)) /\ NoDup fixed /\
    (forall x, In x fixed -> (x < v_slen (c_v c1))%N) /\
    forall x, In x fixed <-> s_val (c_s c1) x <> None /\ (s_decs (c_s c1) = [] \/ ~ In x (map lit_var (s_trail (c_s c1)))).
Proof.
  intros fuel pick judge io ks c0 ans n c1 Ns R St Un.
  destruct (P_Terminate.history_progress _ _ _ _ _ _ _ R) as (t & z & w & S & U & F & A & P). apply TerminateLoop.invoked_progress in P.
  assert (C0 : counted (c_s (set_invoked c0 true))).
  { assert (Q : pre c0).
    { refine (calls_pre fuel ks (ctx_default pick judge io) Ns _ _ R). split; [|intros g; reflexivity]. split; [reflexivity|]. split; [reflexivity|]. intros x [V _]. apply V. reflexivity. }
    apply counted_start; apply Q. }
  destruct (stepped_counted t z w S U F A fuel _ _ _ P C0 St Un) as [P1 C1].
  destruct P1 as (_ & _ & P1). rewrite Un in P1. destruct P1 as ([K Lo] & _).
  pose proof (in_trail _ _ _ _ _ (iv_search _ _ _ _ K)) as T.
  assert (Tc : exists fx, NoDup fx /\ length fx = top_level_count (c_s c1) /\ forall x, In x fx <-> s_val (c_s c1) x <> None /\ (s_decs (c_s c1) = [] \/ ~ In x (map lit_var (s_trail (c_s c1))))).
  { unfold top_level_count. unfold SolverInv.low in Lo. destruct (s_decs (c_s c1)) as [|p ds] eqn:D.
    - destruct (counted_all _ _ T C1) as (fx & N1 & L1 & O1). exists fx. split; [exact N1|]. split; [exact L1|]. intros x. rewrite O1. tauto.
    - assert (p = 0) by (first [exact Lo|apply Lo]). subst p. destruct C1 as (fx & N1 & L1 & O1). exists fx. split; [exact N1|]. split; [exact L1|]. intros x. rewrite O1. unfold off. split; [tauto|]. intros [V [X|X]]; [discriminate|auto]. }
  destruct Tc as (fx & N1 & L1 & O1).
  assert (Le : top_level_count (c_s c1) <= N.to_nat (v_slen (c_v c1))).
  { rewrite <- L1, <- (clen (N.to_nat (v_slen (c_v c1))) 0). apply NoDup_incl_length; [exact N1|]. intros x J. apply cin; [lia|]. pose proof (tk_vars _ _ T x (proj1 (proj1 (O1 x) J))). lia. }
  exists (N.to_nat (v_slen (c_v c1)) - top_level_count (c_s c1)), fx. split.
  - unfold report_of. cbn [r_vars]. apply Nat.leb_le in Le. rewrite Le. reflexivity.
  - split; [rewrite L1; lia|]. split; [exact N1|]. split; [|exact O1]. intros x J. exact (tk_vars _ _ T x (proj1 (proj1 (O1 x) J))).
Qed.

Theorem C53_first_reports_partial : forall fuel pick judge io ks c answers reps r, ~ In CSolve ks ->
  run_all_log fuel (ks ++ [CSolve]) (ctx_default pick judge io) = Ret (c, answers, reps) -> In r reps -> r_vars r <> None.
Proof.
  intros fuel pick judge io ks c answers reps r Ns E I. destruct (all_reports _ _ _ _ _ _ E r I) as (before & after & c0 & ans & l & c2 & Ek & R & L & Il).
  assert (Eb : before = ks).
  { clear - Ek Ns. revert before Ek. induction ks as [|k ks IH]; intros before Ek; destruct before as [|b before]; cbn [app] in Ek; try reflexivity.
    - injection Ek as <- Ek. destruct before; discriminate.
    - injection Ek as -> _. destruct Ns. left. reflexivity.
    - injection Ek as <- Ek. f_equal. apply IH; [intros J; apply Ns; right; exact J|exact Ek]. }
  subst before. destruct (P_Terminate.history_progress _ _ _ _ _ _ _ R) as (t & z & w & S & U & F & A & P). apply TerminateLoop.invoked_progress in P.
  destruct (loop_reports t z w S U F A fuel _ _ _ _ P L r Il) as (n & c1 & St & Du & -> & P1).
  assert (Un : st_sat (c_st c1) = Unknown) by (unfold due in Du; destruct (st_sat (c_st c1)); congruence).
  destruct (C53_variables_partial _ _ _ _ _ _ _ _ _ Ns R St Un) as (m & fx & V & _). rewrite V. discriminate.
Qed.
(** Two units are found and removed in the first step, whose conflict gives another one. *)
Example C53_case : let cls := [[0]; [1; 2]; [1; 4; 6]; [1; 4; 7]; [1; 5; 8]; [9; 5; 10]; [9; 5; 11]; [8; 12; 14]; [8; 12; 15]; [8; 13; 14]; [16; 18]]%N in
  let ks := map CAdd cls in
  match run_all 30 ks plain_ctx with
  | Ret (c, _) => map (fun n => match stepped 30 n (set_invoked c true) with Ret c1 => Some (st_sat (c_st c1), r_vars (report_of c1), v_slen (c_v c1), s_removed (c_s c1)) | _ => None end) [0; 1; 2; 3]
  | _ => []
  end = [Some (Unknown, Some 9, 10%N, 0); Some (Unknown, Some 7, 10%N, 2); Some (Unsat, Some 5, 10%N, 5); Some (Unsat, Some 5, 10%N, 5)].
Proof. vm_compute. reflexivity. Qed.

(** Not so for later calls: the number of a solver variable that was removed is used again, the earlier unit stays counted. *)
Fixpoint solves (n : nat) : list call := match n with O => [] | S n => CAssume [] :: CSolve :: solves n end.
Lemma underflow_found (x : out (ctx * list answer * list report)) :
  match x with Ret (_, _, reps) => existsb (fun r => match r_vars r with None => true | _ => false end) reps | _ => false end = true ->
  exists c answers reps r, x = Ret (c, answers, reps) /\ In r reps /\ r_vars r = None.
Proof.
  destruct x as [[[c a] reps]|p|]; try discriminate. intros H. apply existsb_exists in H as (r & I & V). exists c, a, reps, r. split; [reflexivity|]. split; [exact I|].
  destruct (r_vars r); [discriminate|reflexivity].
Qed.
Definition reuse : list call := CAdd [0%N] :: CSolve :: CAdd [2%N] :: CSolve :: solves (50 * 100).
Theorem C53_variables_refuted : exists fuel ks c answers reps r, run_all_log fuel ks plain_ctx = Ret (c, answers, reps) /\ In r reps /\ r_vars r = None.
Proof. exists 3, reuse. apply underflow_found. vm_cast_no_check (eq_refl true). Qed.

Print Assumptions C53_silent.
Print Assumptions C53_numbers.
Print Assumptions C53_variables_partial.
Print Assumptions C53_first_reports_partial.
Print Assumptions C53_variables_refuted.
