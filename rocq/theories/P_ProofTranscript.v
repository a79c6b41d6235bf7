(** C44 for checkers with transcripts, such as that of the command line. *)
From Coq Require Import Lia Arith PeanoNat Permutation Sorted ZArith ZifyBool ZifyNat ZifyN.
From Verif Require Import Spec Lit LitProofs BinFormat Hash HashProofs SortedLits F32 Vsids VsidsProofs VsidsWf Luby Config P_Config Search SearchBase Propagate P_Search ClauseDb DbProofs
  Analyze AnalyzeProofs Rup AnalyzeHints P_Hints SolverCtx CtxFrame VarsProofs Solver SolverInv SolverSimplify SolverAdd SolverLoad SolverFailed FailedHints SolverSearch SolverSolve CtxEvents P_Solver P_Proof
  ProofLog ProofSim ProofDerive ProofUnits ProofLoad ProofSearch P_SelfCheck ProofEarly P_ProofFile.
From Verif Require Vli VliProofs P_Db SortedLitsProofs Checker CheckerSteps CheckerRun CheckerSafe CheckerNames CheckerUsers CheckerCount CheckerValid ProofReorder ProofAccept ProofTwin CtxRange CtxKinds
  CheckerTranscript P_CheckerTranscript P_BinFormat BinFormatProofs P_CheckerSafe VarsBound.
Local Open Scope N_scope.

(** * Written files *)
Theorem written_told procs trans pf tf sh f os file : (forall n l, Permutation (sh n l) l) -> (forall n, pf n = false) -> (forall n, tf n = false) ->
  Forall CheckerSteps.lits_u32 f -> Forall in_range os -> In End os ->
  CheckerValid.valid_history (map CheckerRun.Load f ++ map CheckerRun.Step os) -> CheckerTranscript.told_history (map CheckerRun.Load f ++ map CheckerRun.Step os) ->
  VliProofs.reader_ok file -> VliProofs.flat file = flat_map write_step os -> CheckerSafe.history_size (map CheckerRun.Load f) + N.of_nat (length (VliProofs.flat file)) < 2^32 ->
  exists c c', Checker.add_formula (Checker.checker_new procs trans pf tf sh) f = Checker.ROk tt c /\ Checker.check_proof c file = Some (Checker.ROk tt c').
Proof.
  intros SH PF TF U R IE V T RO FL SZ. assert (OK : Forall BinFormatProofs.step_ok os) by (apply ProofAccept.range_all; [exact R|rewrite <- FL; lia]).
  destruct (P_BinFormat.C04_roundtrip os [] file OK RO ltac:(constructor) ltac:(rewrite app_nil_r; exact FL)) as (r'&D&_). apply ProofAccept.many_decodes in D.
  pose proof (P_CheckerSafe.decodes_left _ _ _ D) as DL. destruct (ProofAccept.first_end _ IE) as (a&b&->&NE).
  replace (a ++ End :: b) with ((a ++ [End]) ++ b) in * by (rewrite <- app_assoc; reflexivity). destruct (ProofAccept.decodes_split _ _ _ _ D) as (r1&D1&_).
  apply (P_CheckerTranscript.C42_valid_file_transcript procs trans pf tf sh f a file r1 SH PF TF U NE D1).
  - rewrite map_app, ProofAccept.hist_app in DL. rewrite ProofAccept.hist_app.
    assert (BL : P_CheckerSafe.bytes_left file = N.of_nat (length (VliProofs.flat file))) by (unfold P_CheckerSafe.bytes_left, VliProofs.flat; rewrite app_length; reflexivity). lia.
  - intros x e y E. apply (V x e (y ++ map CheckerRun.Step b)). rewrite map_app, app_assoc, E, <- app_assoc. reflexivity.
  - intros x e y E. apply (T x e (y ++ map CheckerRun.Step b)). rewrite map_app, app_assoc, E, <- app_assoc. reflexivity.
Qed.

(** * Formulas *)
Definition contradictory (cl : list N) : Prop := exists l, In l cl /\ In (lnot l) cl.
(** Every variable of a clause with a literal and its negation is at most one of a clause before it that has no such pair. *)
Definition introduced (f : list (list N)) : Prop := forall f1 cl f2, f = f1 ++ cl :: f2 -> contradictory cl ->
  forall l, In l cl -> exists d x, In d f1 /\ ~ contradictory d /\ In x d /\ lit_var l <= lit_var x.

Lemma taut_iff cl : CheckerSteps.taut cl = true <-> contradictory cl.
Proof. apply SortedLitsProofs.canonical_taut. Qed.
Lemma not_taut cl : CheckerSteps.taut cl = false <-> ~ contradictory cl.
Proof. rewrite <- taut_iff. destruct (CheckerSteps.taut cl); split; congruence. Qed.

Lemma high_kind a h b s : CtxKinds.kind a h (high b s) = CtxKinds.kind a h s.
Proof. destruct s; reflexivity. Qed.
Lemma high_end b s : high b s = End <-> s = End.
Proof. destruct s; split; intros H; try discriminate H; exact H. Qed.
(** The steps of a proof without assumptions and clauses, up to its end *)
Definition plain_step (s : proof_step) : Prop := CtxKinds.kind false true s = true \/ s = End.
Lemma announced_plain b ss os : announces b ss os -> (forall s, In s ss -> plain_step s) -> forall s, In s os -> plain_step s.
Proof.
  induction 1 as [b|b s ss os NB A IH|b b' ss os B N A IH]; intros H x I; [destruct I| |].
  - destruct I as [<-|I]; [unfold plain_step; rewrite high_kind, high_end; apply H; left; reflexivity|]. apply IH; [|exact I]. intros y Y. apply H. right. exact Y.
  - destruct I as [<-|I]; [left; reflexivity|]. apply IH; assumption.
Qed.
Lemma app_split {A} (a b c d : list A) : a ++ b = c ++ d -> (exists x, a = c ++ x /\ d = x ++ b) \/ (exists x, c = a ++ x /\ b = x ++ d).
Proof.
  revert c. induction a as [|y a IH]; intros c E; cbn [app] in *; [right; exists c; auto|]. destruct c as [|z c]; [left; exists (y :: a); auto|].
  cbn [app] in E. injection E as -> E. destruct (IH _ E) as [(x&->&->)|(x&->&->)]; [left|right]; exists x; auto.
Qed.
Lemma load_modes f : forall z v, fold_left CheckerUsers.mode_after (map CheckerRun.Load f) z v = z v.
Proof. induction f as [|y f IH]; intros z v; [reflexivity|apply IH]. Qed.
(** A proof that announces neither clauses nor assumptions *)
Lemma told_plain f os : introduced f -> (forall s, In s os -> plain_step s) -> CheckerValid.valid_history (map CheckerRun.Load f ++ map CheckerRun.Step os) ->
  CheckerTranscript.told_history (map CheckerRun.Load f ++ map CheckerRun.Step os).
Proof.
  intros F K V es1 e es2 E. pose proof (V es1 e es2 E) as Ve. destruct (app_split _ _ _ _ E) as [(x&E1&E2)|(x&E1&E2)].
  - destruct x as [|e' x].
    + cbn [app] in E2. destruct os as [|o os]; [discriminate|]. cbn [map] in E2. injection E2 as -> _. rewrite app_nil_r in E1. subst es1.
      destruct (K o (or_introl eq_refl)) as [Ko| ->]; [|exact Logic.I]. destruct o; try discriminate; exact Logic.I.
    + cbn [app] in E2. injection E2 as <- _. apply map_eq_app in E1 as (f1&f2'&->&M1&M2). destruct f2' as [|cl f2]; [discriminate|]. cbn [map] in M2. injection M2 as <- _.
      cbn [CheckerTranscript.told]. right. destruct (CheckerSteps.taut cl) eqn:T; [right|left; reflexivity]. apply taut_iff in T.
      apply Forall_forall. intros l Hl. destruct (F f1 cl f2 eq_refl T l Hl) as (d&x0&I1&I2&I3&I4). rewrite <- M1. split.
      * right. exists d, x0. split; [left; apply in_map; exact I1|]. split; [apply not_taut; exact I2|auto].
      * left. unfold CheckerUsers.var_modes. rewrite load_modes. reflexivity.
  - subst es1. destruct e as [cl|o]; [exfalso; assert (I : In (CheckerRun.Load cl) (map CheckerRun.Step os)) by (rewrite E2; apply in_elt); apply in_map_iff in I as (?&?&?); discriminate|].
    assert (Ko : plain_step o).
    { apply K. assert (I : In (CheckerRun.Step o) (map CheckerRun.Step os)) by (rewrite E2; apply in_elt). apply in_map_iff in I as (y&Y&I). injection Y as ->. exact I. }
    destruct Ko as [Ko| ->]; [|exact Logic.I]. destruct o; try discriminate; exact Logic.I.
Qed.

(** * The proof file of a solver *)

(** Calls that neither set assumptions nor close or open a proof file; and those of them that add no clause *)
Definition no_assumption (k : call) : bool := CtxKinds.call_kind true true k.
Definition no_input (k : call) : bool := CtxKinds.call_kind false true k.

Lemma plain_log fuel fm pick io hides before later t1 r1 : (forall b, io b = false) -> forallb early_call before = true ->
  forallb (CtxKinds.call_kind true hides) before = true -> forallb (CtxKinds.call_kind false hides) later = true ->
  run_all fuel (CCheck :: CWriteProof fm :: before ++ later) (ctx_default pick (fun _ => VOk) io) = Ret (t1, r1) ->
  forall s, In s (steps (p_log (c_pf t1))) -> CtxKinds.kind false hides s = true.
Proof.
  intros Io Ea Na Nl E. set (c := ctx_default pick (fun _ => VOk) io) in *.
  set (c0 := cw_pf c (Proof (Some fm) true 64 0 [] [] (fun _ => VOk) io)).
  assert (E0 : run_all fuel (before ++ later) c0 = Ret (t1, tl (tl r1))).
  { cbn [run_all] in E. change (run fuel CCheck c) with (Ret (cw_pf c (Proof None true 64 0 [] [] (fun _ => VOk) io), ANone)) in E. cbn [bind] in E.
    change (run fuel (CWriteProof fm) _) with (Ret (c0, ANone)) in E. cbn [bind] in E. destruct (run_all fuel (before ++ later) c0) as [[t r]| |]; cbn [bind] in E; try discriminate.
    injection E as <- <-. reflexivity. }
  assert (O0 : on c0) by (constructor; [reflexivity|discriminate|exact Io|reflexivity]).
  assert (F0 : first c0) by (constructor; [exact O0|reflexivity|discriminate|reflexivity|discriminate]).
  assert (G0 : exists S, good true true S [] c0).
  { exists (fun _ => True). eapply good_st; [|apply (default_good pick (fun _ => VOk) io)]. exists (c_st c0), (c_pf c0). split; reflexivity. }
  destruct G0 as [S0 G0]. destruct (run_all_app _ _ _ _ _ _ E0) as (m&ra&rb&Em&Eb&_).
  destruct (early_all fuel before true true S0 [] [] c0 m ra G0 C38_default_valid Ea F0 (first_sent _ F0 eq_refl) Em) as [Fm (f1&f2&Ef&Lf&Un&Se)].
  pose proof (CtxKinds.kinds_all fuel true hides before c0 m ra Na Em) as K1. pose proof (CtxKinds.kinds_all fuel false hides later m t1 rb Nl Eb) as K2.
  destruct (K1 eq_refl) as [Fr K1']. clear K1. rename K1' into K1. destruct (K2 Fr) as [_ K2']. clear K2. rename K2' into K2.
  intros s I. destruct (K2 s I) as [I1|K]; [|exact K]. pose proof (Se s I1) as X. destruct (K1 s I1) as [[]|K].
  destruct s; try discriminate; exact K.
Qed.

(** A solver that writes a proof file from the start, as in [C44_file_accepted_partial], without assumptions and without clauses added after the first call
    of [solve].  A checker with any processors and transcripts accepts the file, provided that every variable of a clause that contains a literal and its negation is at most one
    of an earlier clause without such a pair ([C19_transcript_tautology_refuted]). *)
Theorem C44_transcript : forall fuel pick judge io before later c answers, (forall b, io b = false) ->
  forallb early_call before = true -> forallb no_assumption before = true -> starts_solving later -> forallb no_input later = true -> introduced (clauses_of before) ->
  run_all fuel (CWriteProof FVarisat :: before ++ later ++ [CCloseProof]) (ctx_default pick judge io) = Ret (c, answers) ->
  VarsBound.within_vars (before ++ later) ->
  CheckerSafe.history_size (map CheckerRun.Load (clauses_of before)) + N.of_nat (length (p_out (c_pf c))) < 2^32 ->
  forall procs trans pf tf sh file, (forall n l, Permutation (sh n l) l) -> (forall n, pf n = false) -> (forall n, tf n = false) ->
  VliProofs.reader_ok file -> VliProofs.flat file = p_out (c_pf c) ->
  exists k k', Checker.add_formula (Checker.checker_new procs trans pf tf sh) (clauses_of before) = Checker.ROk tt k /\ Checker.check_proof k file = Some (Checker.ROk tt k').
Proof.
  intros fuel pick judge io before later c answers Io Ea Na Sb Nl In0 E.
  assert (EA : forall k, early_call k = true -> lasting k = true) by (intros []; auto).
  assert (Lb : forallb lasting later = true) by (rewrite forallb_forall in *; intros k I; specialize (Nl k I); destruct k; auto).
  assert (La : forallb lasting (before ++ later) = true) by (rewrite forallb_app, Lb, Bool.andb_true_r; rewrite forallb_forall in *; auto).
  assert (Ns : no_single fuel (CWriteProof FVarisat :: before ++ later) (ctx_default pick judge io)).
  { apply no_assume_single. cbn [forallb no_assume andb]. rewrite forallb_app. apply andb_true_intro. rewrite forallb_forall in Na, Nl.
    split; apply forallb_forall; intros k I; [specialize (Na k I)|specialize (Nl k I)]; destruct k; auto. }
  replace (CWriteProof FVarisat :: before ++ later ++ [CCloseProof]) with ((CWriteProof FVarisat :: before ++ later) ++ [CCloseProof]) in E by (cbn [app]; rewrite <- app_assoc; reflexivity).
  destruct (run_all_app _ _ _ _ _ _ E) as (c1&r1&r2&E1&E2&_). cbn [run_all run] in E2. unfold close_proof in E2.
  destruct (add_step true End c1) as [c2| |] eqn:Es; cbn [bind] in E2; try discriminate.
  destruct (file_run fuel FVarisat pick judge io (before ++ later) c1 r1 c2 Io La E1 Es) as (t1&t2&Et&Est&Out&Cv&Nst&Q). specialize (Nst Ns). set (rt := ANone :: r1) in Et.
  assert (PO : p_out (c_pf c) = p_out (c_pf c2) /\ c_v c = c_v c2).
  { rewrite (ProofTwin.flush_quiet c2 Q) in E2. unfold take_error in E2. cbn [cw_pf c_st] in E2. rewrite (ProofTwin.q_err _ Q) in E2. cbn [bind] in E2. injection E2 as <- _. split; reflexivity. }
  destruct PO as [PO CV]. destruct (checked_run fuel FVarisat pick io before later t1 rt t2 Io Ea Sb Lb Nst Et Est) as (O2&Fo2&L2&R2&V).
  destruct (twin_file fuel pick io (before ++ later) t1 rt t2 Io La Et Est) as (os&P&An).
  pose proof (plain_log fuel FVarisat pick io true before later t1 rt Io Ea Na Nl Et) as PL.
  rewrite PO, <- Out. intros Wv Sz procs trans pf tf sh file SH PF TF RO FL.
  assert (Fv : few_vars c).
  { apply (within_few _ _ _ _ _ _ _ E). destruct Wv as (n&H&L). exists n. rewrite <- app_comm_cons, !extras_cons, extras_snoc. split; [|exact L]. constructor; [exact Logic.I|]. apply Forall_app. split; [exact H|repeat constructor]. }
  pose proof (within_u32 _ _ Wv) as Uf.
  assert (Fv2 : few_vars t2) by (unfold CtxRange.few_vars in *; rewrite Cv, <- CV; exact Fv).
  assert (IE : In End os).
  { destruct (ProofAccept.announced_in _ _ _ An End) as [b Ib]; [|exact Ib]. rewrite L2, steps_list_app, in_app_iff. right. left. reflexivity. }
  pose proof (proj1 (V Fv2 os An)) as Va.
  apply (written_told procs trans pf tf sh (clauses_of before) os file SH PF TF Uf (announced_range t2 os Fv2 _ _ An (steps_ranged _ R2)) IE Va); [|exact RO|rewrite FL; exact P|rewrite FL; exact Sz].
  apply told_plain; [exact In0| |exact Va]. apply (announced_plain 64 _ _ An). intros s I. rewrite L2, steps_list_app, in_app_iff in I. destruct I as [I|[<-|[]]]; [left; apply PL; exact I|right; reflexivity].
Qed.
Print Assumptions C44_transcript.

(** A history that meets the hypotheses, with a clause that contains a literal and its negation *)
Definition C44_plain_before : list call := [CAdd [P 0; P 1; P 2]; CAdd [P 1; M 1; M 2]; CSample 3; CAdd [P 0; M 1]; CAdd [M 0; P 2; P 3]; CAdd [M 0; P 2; M 3]; CAdd [M 2; P 3; P 4]; CAdd [M 2; P 3; M 4]; CAdd [P 1; M 2; P 4]; CAdd [M 0; M 2; M 3]; CAdd [P 0; M 2; M 4]].
Definition C44_plain_later : list call := [CSolve; CHide 3; CSolve; CObserve; CSolve].
Definition C44_plain_run : out (ctx * list answer) := run_all 200 (CWriteProof FVarisat :: C44_plain_before ++ C44_plain_later ++ [CCloseProof]) plain_ctx.
Definition transcript_of (f : list (list N)) (bs : list N) : option (list Checker.transcript_item) :=
  match Checker.add_formula (Checker.checker_new true true (fun _ => false) (fun _ => false) (fun _ l => l)) f with
  | Checker.ROk _ k => match Checker.check_proof k (bs, []) with Some (Checker.ROk _ k') => Some (Checker.trans_log (Checker.c_proc k')) | _ => None end
  | _ => None end.
Fixpoint introduced_from (pre f : list (list N)) : bool :=
  match f with
  | [] => true
  | cl :: f' => (negb (CheckerSteps.taut cl) || forallb (fun l => existsb (fun d => negb (CheckerSteps.taut d) && existsb (fun x => lit_var l <=? lit_var x) d) pre) cl) && introduced_from (pre ++ [cl]) f'
  end.
Lemma introduced_split f : forall pre, introduced_from pre f = true -> forall f1 cl f2, f = f1 ++ cl :: f2 -> contradictory cl ->
  forall l, In l cl -> exists d x, In d (pre ++ f1) /\ ~ contradictory d /\ In x d /\ lit_var l <= lit_var x.
Proof.
  induction f as [|c f IH]; intros pre E f1 cl f2 Ef T l I; [destruct f1; discriminate|]. cbn [introduced_from] in E. apply andb_prop in E. destruct E as [E1 E2]. destruct f1 as [|c' f1].
  - cbn [app] in Ef. injection Ef as -> _. apply taut_iff in T. rewrite T in E1. cbn [negb orb] in E1. rewrite forallb_forall in E1. specialize (E1 l I). apply existsb_exists in E1.
    destruct E1 as (d&Id&E1). apply andb_prop in E1. destruct E1 as [Td E1]. apply existsb_exists in E1. destruct E1 as (x&Ix&L). exists d, x. rewrite app_nil_r. split; [exact Id|].
    split; [apply not_taut; destruct (CheckerSteps.taut d); [discriminate|reflexivity]|]. split; [exact Ix|apply N.leb_le; exact L].
  - cbn [app] in Ef. injection Ef as -> Ef. destruct (IH _ E2 f1 cl f2 Ef T l I) as (d&x&Id&H). exists d, x. rewrite <- app_assoc in Id. split; [exact Id|exact H].
Qed.
Lemma introduced_by f : introduced_from [] f = true -> introduced f.
Proof. intros E f1 cl f2 Ef. apply (introduced_split f [] E f1 cl f2 Ef). Qed.

Example C44_transcript_case : introduced (clauses_of C44_plain_before) /\ VarsBound.within_vars (C44_plain_before ++ C44_plain_later) /\
  (forallb early_call C44_plain_before && forallb no_assumption C44_plain_before && forallb no_input C44_plain_later) = true /\
  after C44_plain_run (fun c r => (length (p_out (c_pf c)), option_map (skipn 10) (transcript_of (clauses_of C44_plain_before) (p_out (c_pf c))))) (0%nat, None)
    = (140%nat, Some [Checker.TUnsat; Checker.THideVar 3; Checker.TObserveInternalVar 3]).
Proof.
  split; [apply introduced_by; vm_compute; reflexivity|]. split; [exists 5; split; [repeat (constructor; [repeat constructor|]); constructor|vm_compute; discriminate]|].
  split; vm_compute; reflexivity.
Qed.
(** Without [introduced]: the solver answers, and the checker with a transcript stops at the clause over new variables (the call panics), where one without accepts the file. *)
Theorem C44_transcript_refuted : exists fuel before later c answers,
  forallb early_call before = true /\ forallb no_assumption before = true /\ starts_solving later /\ forallb no_input later = true /\
  run_all fuel (CWriteProof FVarisat :: before ++ later ++ [CCloseProof]) plain_ctx = Ret (c, answers) /\
  file_ok (clauses_of before) (p_out (c_pf c)) = true /\
  Checker.add_formula (Checker.checker_new true true (fun _ => false) (fun _ => false) (fun _ l => l)) (clauses_of before) = Checker.RPanic.
Proof.
  set (before := [CAdd [P 0; M 0]]). set (later := [CSolve]).
  assert (X : after (run_all 200 (CWriteProof FVarisat :: before ++ later ++ [CCloseProof]) plain_ctx) (fun c _ => file_ok [[P 0; M 0]] (p_out (c_pf c))) false = true) by (vm_compute; reflexivity).
  exists 200%nat, before, later. destruct (run_all 200 _ plain_ctx) as [[c r]| |]; [|discriminate X..]. exists c, r.
  split; [reflexivity|]. split; [reflexivity|]. split; [right; eexists; reflexivity|]. split; [reflexivity|]. split; [reflexivity|]. split; [exact X|vm_compute; reflexivity].
Qed.
Print Assumptions C44_transcript_refuted.
