(** Conflict driven search with assumptions (Solver.v). *)
From Coq Require Import Lia Arith PeanoNat Permutation ZArith ZifyBool ZifyNat ZifyN.
From Verif Require Import Spec Lit LitProofs BinFormat Hash F32 Vsids VsidsProofs VsidsWf Luby Config Search SearchBase
  Propagate P_Search ClauseDb DbProofs Analyze AnalyzeProofs P_Analyze SolverCtx CtxFrame VarsProofs Solver SolverInv SolverSimplify
  SolverAdd SolverLoad SolverFailed FailedHints.
Local Open Scope nat_scope.

(** * The variables of the learned clause *)
Lemma add_literals_vars s (P : N -> Prop) : forall lits vs a vs' a',
  (forall x, In x lits -> P (lit_var x)) -> (forall v, a_flags a v = true -> P v) -> (forall x, In x (a_clause a) -> P (lit_var x)) ->
  add_literals s (vs, a) lits = (vs', a') ->
  (forall v, a_flags a' v = true -> P v) /\ (forall x, In x (a_clause a') -> P (lit_var x)).
Proof.
  unfold add_literals. induction lits as [|l lits IH]; intros vs a vs' a' HL HF HC E; cbn [fold_left] in E.
  - injection E as _ <-. auto.
  - assert (X : exists vs1 a1, add_literal s (vs, a) l = (vs1, a1) /\ (forall v, a_flags a1 v = true -> P v) /\ (forall x, In x (a_clause a1) -> P (lit_var x))).
    { unfold add_literal. destruct ((0 <? s_level s (lit_var l)) && negb (a_flags a (lit_var l)));
        [destruct (s_level s (lit_var l) =? clevel s)|]; eexists; eexists; (split; [reflexivity|]); cbn [with_cnt with_flags with_clean with_clause with_hashes a_flags a_clause]; auto.
      - split; [|exact HC]. intros v. unfold upd. destruct (N.eqb_spec v (lit_var l)) as [->|]; [intros _; apply HL; left; reflexivity|apply HF].
      - split.
        + intros v. unfold upd. destruct (N.eqb_spec v (lit_var l)) as [->|]; [intros _; apply HL; left; reflexivity|apply HF].
        + intros x I. apply in_app_or in I as [I|[<-|[]]]; [apply HC; exact I|apply HL; left; reflexivity]. }
    destruct X as (vs1 & a1 & E1 & F1 & C1). rewrite E1 in E. eapply (IH vs1 a1); eauto. intros x I. apply HL. right. exact I.
Qed.
Lemma resolve_loop_vars hr s (P : N -> Prop) : forall tr vs a vs' a',
  (forall l, In l tr -> forall x, In x (reason_lits s (s_reason s (lit_var l))) -> P (lit_var x)) ->
  (forall v, a_flags a v = true -> P v) -> (forall x, In x (a_clause a) -> P (lit_var x)) ->
  resolve_loop hr s (vs, a) tr = (vs', a') -> forall x, In x (a_clause a') -> P (lit_var x).
Proof.
  induction tr as [|l tr IH]; intros vs a vs' a' HR HF HC E; cbn [resolve_loop] in E.
  - injection E as _ <-. exact HC.
  - assert (HR' : forall l0, In l0 tr -> forall x, In x (reason_lits s (s_reason s (lit_var l0))) -> P (lit_var x)) by (intros l0 I; apply HR; right; exact I).
    destruct (a_flags a (lit_var l)) eqn:Fl; [|eapply IH; eassumption].
    cbn [with_cnt with_flags a_count a_clause] in E. destruct (pred (a_count a)) eqn:Ec.
    + injection E as _ <-. cbn [with_clause a_clause]. intros x I. destruct (push_swap_perm (a_clause a) (lnot l)) as (r & Er & Pr).
      rewrite Er in I. destruct I as [<-|I]; [rewrite lnot_var; apply HF; exact Fl|apply HC; apply (Permutation_in _ Pr); exact I].
    + match type of E with context [add_literals s (vs, ?q) ?l0] => set (a1 := q) in E; destruct (add_literals s (vs, a1) l0) as [vs2 a2] eqn:E2 end.
      apply (add_literals_vars s P) in E2.
      * destruct E2 as [F2 C2]. eapply IH; [exact HR'| | |exact E]; destruct (s_reason s (lit_var l)); cbn [with_involved a_flags a_clause]; assumption.
      * apply HR. left. reflexivity.
      * intros v. unfold a1. destruct (hr && _); cbn [with_cnt with_flags with_clean with_clause with_hashes a_flags a_clause]; unfold upd; destruct (N.eqb_spec v (lit_var l)); try discriminate; apply HF.
      * intros x. unfold a1. destruct (hr && _); cbn [with_cnt with_flags with_clean with_clause with_hashes a_flags a_clause]; apply HC.
Qed.
Lemma minimize_loop_incl fuel hr s bits : forall lits a a' r, minimize_loop fuel hr s bits a lits = (a', r) -> incl r lits.
Proof.
  induction lits as [|l lits IH]; intros a a' r E; cbn [minimize_loop] in E; [injection E as _ <-; apply incl_refl|].
  destruct (is_unit_reason _).
  - destruct (minimize_loop fuel hr s bits a lits) as [a1 r1] eqn:E1. injection E as _ <-. apply IH in E1. intros x [<-|I]; [left; reflexivity|right; apply E1; exact I].
  - destruct (dfs fuel hr s bits a [lnot l]) as [a1 [|]].
    + apply IH in E. intros x I. right. apply E. exact I.
    + match type of E with context [minimize_loop _ _ _ _ ?q lits] => destruct (minimize_loop fuel hr s bits q lits) as [a2 r2] eqn:E2 end.
      injection E as _ <-. apply IH in E2. intros x [<-|I]; [left; reflexivity|right; apply E2; exact I].
Qed.
Lemma analyze_conflict_vars n hr s vs a c vs' a' bt (P : N -> Prop) :
  analyze_conflict n hr s vs a c = (vs', a', bt) -> (forall v, a_flags a v = false) ->
  (forall x, In x (conflict_lits s c) -> P (lit_var x)) ->
  (forall l, In l (s_trail s) -> forall x, In x (reason_lits s (s_reason s (lit_var l))) -> P (lit_var x)) ->
  forall x, In x (a_clause a') -> P (lit_var x).
Proof.
  intros E Fl HC HR. unfold analyze_conflict in E.
  set (a0 := Analyze [] 0 (a_flags a) (a_clean a) [] [] [] (a_fuel a)) in E.
  set (a1 := if hr then with_hashes a0 [clause_hash (conflict_lits s c)] else a0) in E.
  assert (F1 : forall v, a_flags a1 v = false) by (unfold a1; destruct hr; exact Fl).
  assert (C1 : a_clause a1 = []) by (unfold a1; destruct hr; reflexivity).
  destruct (clevel s =? 0) eqn:Z; [injection E as _ <- _; rewrite C1; intros x []|].
  destruct (add_literals s (vs, a1) (conflict_lits s c)) as [vs2 a2] eqn:E2.
  apply (add_literals_vars s P) in E2; [|exact HC|intros v; rewrite F1; discriminate|rewrite C1; intros x []].
  destruct E2 as [F2 C2]. set (a2' := match c with CLong cref => with_involved a2 [cref] | _ => a2 end) in E.
  destruct (resolve_loop hr s (vs2, a2') (rev (s_trail s))) as [vs3 a3] eqn:E3.
  assert (C3 : forall x, In x (a_clause a3) -> P (lit_var x)).
  { eapply (resolve_loop_vars hr s P); [| | |exact E3].
    - intros l I. apply HR. apply in_rev. exact I.
    - unfold a2'. destruct c; exact F2.
    - unfold a2'. destruct c; exact C2. }
  assert (C4 : forall x, In x (a_clause (minimize_clause n hr s a3)) -> P (lit_var x)).
  { unfold minimize_clause. destruct (a_clause a3) as [|l0 r0] eqn:Ea; [intros x I; rewrite Ea in I; destruct I|].
    destruct (minimize_loop _ _ _ _ a3 r0) as [a4 r4] eqn:E4. apply minimize_loop_incl in E4. cbn [with_clause a_clause].
    intros x [<-|I]; apply C3; [left; reflexivity|right; apply E4; exact I]. }
  set (a4 := minimize_clause n hr s a3) in *.
  set (a5 := if hr then with_hashes (with_unordered a4 (dedup_depth (sort_depth (a_unordered a4)))) (rev (a_hashes a4 ++ map snd (dedup_depth (sort_depth (a_unordered a4))))) else a4) in E.
  assert (C5 : a_clause a5 = a_clause a4) by (unfold a5; destruct hr; reflexivity).
  set (a6 := with_clean _ _) in E. assert (C6 : a_clause a6 = a_clause a4) by (unfold a6; cbn [with_clean with_flags a_clause]; exact C5).
  rewrite C6 in E. destruct (a_clause a4) as [|l0 [|l1 r]] eqn:Ea.
  - injection E as _ <- _. cbn [with_clause a_clause]. intros x [].
  - injection E as _ <- _. cbn [with_clause a_clause]. exact C4.
  - destruct (pick_level s l1 (s_level s (lit_var l1)) r) as [[x b] r'] eqn:Ep. injection E as _ <- _. cbn [with_clause a_clause].
    apply pick_level_spec in Ep; [|reflexivity]. destruct Ep as (_ & Pm & _). intros y I. apply C4. destruct I as [<-|I]; [left; reflexivity|right].
    apply (Permutation_in _ (Permutation_sym Pm)). exact I.
Qed.

(** * The heap *)
Definition same_heap (vs vs' : vsids) : Prop := wf vs' /\ forall x, In x (vs_heap vs') <-> In x (vs_heap vs).
Lemma same_heap_bump vs x : wf vs -> same_heap vs (vsids_bump vs x).
Proof. intros W. apply (vstep_wf vs (OBump x) _ None W eq_refl). Qed.
Lemma same_heap_trans a b c : same_heap a b -> same_heap b c -> same_heap a c.
Proof. intros [W1 H1] [W2 H2]. split; [exact W2|]. intros x. rewrite H2. apply H1. Qed.
Lemma same_heap_refl a : wf a -> same_heap a a.
Proof. intros W. split; [exact W|reflexivity]. Qed.
Lemma add_literals_heap s : forall lits vs a vs' a', wf vs -> add_literals s (vs, a) lits = (vs', a') -> same_heap vs vs'.
Proof.
  unfold add_literals. induction lits as [|l lits IH]; intros vs a vs' a' W E; cbn [fold_left] in E.
  - injection E as <- _. apply same_heap_refl. exact W.
  - destruct (add_literal s (vs, a) l) as [vs1 a1] eqn:E1.
    assert (H1 : same_heap vs vs1).
    { unfold add_literal in E1. destruct (_ && _); [|injection E1 as <- _; apply same_heap_refl; exact W].
      destruct (_ =? _); injection E1 as <- _; apply same_heap_bump; exact W. }
    eapply same_heap_trans; [exact H1|]. eapply IH; [apply H1|exact E].
Qed.
Lemma resolve_loop_heap hr s : forall tr vs a vs' a', wf vs -> resolve_loop hr s (vs, a) tr = (vs', a') -> same_heap vs vs'.
Proof.
  induction tr as [|l tr IH]; intros vs a vs' a' W E; cbn [resolve_loop] in E; [injection E as <- _; apply same_heap_refl; exact W|].
  destruct (a_flags a (lit_var l)); [|eapply IH; eassumption].
  cbn [with_cnt with_flags a_count] in E. destruct (pred (a_count a)); [injection E as <- _; apply same_heap_refl; exact W|].
  match type of E with context [add_literals s (vs, ?q) ?l0] => destruct (add_literals s (vs, q) l0) as [vs2 a2] eqn:E2 end.
  apply add_literals_heap in E2; [|exact W]. eapply same_heap_trans; [exact E2|]. eapply IH; [apply E2|exact E].
Qed.
Lemma analyze_conflict_heap n hr s vs a c vs' a' bt : wf vs -> analyze_conflict n hr s vs a c = (vs', a', bt) -> same_heap vs vs'.
Proof.
  intros W E. unfold analyze_conflict in E. destruct (clevel s =? 0); [injection E as <- _ _; apply same_heap_refl; exact W|].
  match type of E with context [add_literals s (vs, ?q) ?l0] => destruct (add_literals s (vs, q) l0) as [vs2 a2] eqn:E2 end.
  match type of E with context [resolve_loop hr s (vs2, ?q) ?l0] => destruct (resolve_loop hr s (vs2, q) l0) as [vs3 a3] eqn:E3 end.
  apply add_literals_heap in E2; [|exact W]. apply resolve_loop_heap in E3; [|apply E2].
  match type of E with (let '(_, _) := ?q in _) = _ => destruct q as [cl b] end. injection E as <- _ _.
  eapply same_heap_trans; [exact E2|]. eapply same_heap_trans; [exact E3|]. apply (vstep_wf vs3 ODecay _ None (proj1 E3) eq_refl).
Qed.

(** * Clause activities *)
Lemma glue_clean s flags lits flags' glue : (forall x, flags x = false) -> compute_glue s flags lits = (flags', glue) -> forall x, flags' x = false.
Proof. intros H E. apply (C37_compute_glue s flags lits flags' glue H E). Qed.
Lemma bump_clauses_spec s : forall l d flags d' flags', db_ok (s_lits s) d -> (forall c, In c l -> In c (live d)) ->
  bump_clauses s l d flags = (d', flags') ->
  db_ok (s_lits s) d' /\ keeps d d' /\ ((forall x, flags x = false) -> forall x, flags' x = false).
Proof.
  induction l as [|c l IH]; intros d flags d' flags' K HL E; cbn [bump_clauses] in E.
  - injection E as <- <-. split; [exact K|]. split; [apply keeps_refl|auto].
  - destruct (bump_clause s d flags c) as [d1 f1] eqn:E1. destruct (bump_clause_spec _ _ _ _ _ _ K (HL c (or_introl eq_refl)) E1) as [K1 Kp1].
    destruct (IH d1 f1 d' flags' K1) as (K2 & Kp2 & C2); [intros x I; rewrite (kp_live _ _ Kp1); apply HL; right; exact I|exact E|].
    split; [exact K2|]. split; [eapply keeps_trans; eassumption|]. intros Cl. apply C2. unfold bump_clause in E1.
    destruct (compute_glue s flags (s_lits s c)) as [f2 g2] eqn:G. pose proof (glue_clean _ _ _ _ _ Cl G) as Cl2.
    destruct (_ <? _)%N; injection E1 as _ <-; exact Cl2.
Qed.

(** * Changes that keep the invariant *)
Lemma core_vs f F A c vs' : core f F A c -> same_heap (c_vs c) vs' -> core f F A (cw_vs c vs').
Proof.
  intros K [W H]. destruct K. constructor; auto.
  - destruct iv_base. constructor; auto. intros x I. apply b_heap. apply H. exact I.
  - intros x G V. apply H. apply iv_open; assumption.
Qed.
Lemma core_an f F A c a : core f F A c -> (forall v, a_flags a v = false) -> a_clean a = [] -> a_fuel a = false -> core f F A (cw_an c a).
Proof. intros K H1 H2 H3. destruct K. constructor; auto. destruct iv_base. constructor; auto. Qed.
Lemma core_tmp f F A c t : core f F A c -> core f F A (cw_tmp c t).
Proof. intros K. destruct K. constructor; auto. destruct iv_base. constructor; auto. Qed.
Lemma core_sc f F A c t : core f F A c -> core f F A (cw_sc c t).
Proof. intros K. destruct K. constructor; auto. destruct iv_base. constructor; auto. Qed.
Lemma core_model f F A c t : core f F A c -> core f F A (cw_model c t).
Proof. intros K. destruct K. constructor; auto. destruct iv_base. constructor; auto. Qed.
Lemma core_st f F A c t : core f F A c -> core f F A (cw_st c t).
Proof. intros K. destruct K. constructor; auto. destruct iv_base. constructor; auto. Qed.
(** Other tiers for clauses that are not of the formula *)
Lemma core_d f F A c d' : core f F A c -> db_ok (s_lits (c_s c)) d' -> live d' = live (c_d c) ->
  (forall x, In x (live (c_d c)) -> (htier d' x = Irred <-> htier (c_d c) x = Irred)) -> core f F A (cw_d c d').
Proof.
  intros K Db Lv Ir. destruct K. constructor; cbn [cw_d c_s c_d c_bin c_v c_vs c_as]; rewrite ?Lv; auto.
  - destruct iv_base. constructor; auto.
  - intros b S1 S2 S3 S4. apply iv_comp; auto. intros x [I T]. apply S1. split; [rewrite Lv; exact I|]. apply Ir; assumption.
Qed.

(** * Storing the learned clause *)
Record kept (c c' : ctx) : Prop := {
  ke_sat : st_sat (c_st c') = st_sat (c_st c); ke_model : c_model c' = c_model c; ke_user : as_user (c_as c') = as_user (c_as c);
  ke_gu : v_gu (c_v c') = v_gu (c_v c); ke_clean : clean c -> clean c'; ke_all : all_shown (c_v c) -> all_shown (c_v c') }.
Lemma kept_refl c : kept c c.
Proof. constructor; auto. Qed.
Lemma kept_trans a b c : kept a b -> kept b c -> kept a c.
Proof. intros [] []. constructor; try congruence; auto. Qed.
Lemma kept_frame c c' : frame c c' -> kept c c'.
Proof. intros (e & p & ->). constructor; auto. Qed.

Lemma watch_enqueue L s l r : (s_wen s = true -> watch_ok L s (s_watch s)) -> s_wen (enqueue s l r) = true -> watch_ok L (enqueue s l r) (s_watch (enqueue s l r)).
Proof. intros W E. eapply watch_ok_iff; [| | |apply W; exact E]; reflexivity || tauto. Qed.
Lemma low_enqueue s l r : s_decs s <> [] -> low s -> low (enqueue s l r).
Proof. unfold low. cbn [enqueue s_decs]. destruct (s_decs s); [congruence|auto]. Qed.

Lemma learn_core F A c l0 rest : inv false F A c -> s_val (c_s c) (lit_var l0) = None ->
  (forall x, In x (l0 :: rest) -> in_use (c_v c) (lit_var x)) -> NoDup (map lit_var (l0 :: rest)) ->
  (forall x, In x rest -> In (lnot x) (s_trail (c_s c))) ->
  match rest with [] => s_decs (c_s c) = [] /\ s_trail (c_s c) = [] | x :: _ => s_level (c_s c) (lit_var x) = clevel (c_s c) /\ 0 < clevel (c_s c) end ->
  (forall b, models b F -> clause_holds (lift (c_v c) (c_s c) b) (l0 :: rest) = true) ->
  spec (learn_clause (l0 :: rest) c) (fun c' => inv false F A c' /\ kept c c').
Proof.
  intros [K Lo] U Us Nd Rs Fst Im. pose proof (core_meaning _ _ _ _ K) as M. destruct (iv_search _ _ _ _ K) as [T S W P].
  pose proof (iv_base _ _ _ _ K) as Ba.
  assert (Bn : forall x, In x (l0 :: rest) -> (lit_var x < v_slen (c_v c))%N).
  { intros x I. destruct (Us x I) as (g & Eg & _). eapply (vo_x _ (b_vars _ Ba)). exact Eg. }
  assert (Nm : v_gs (c_v c) (lit_var l0) <> None) by (apply in_use_named, Us; left; reflexivity).
  assert (Np : forall s', s_trail s' = s_trail (c_s c) ++ [l0] -> s_head s' = s_head (c_s c) -> ~ processed s' (lnot l0)).
  { intros s' Et Eh (p & Lp & Ep). rewrite Eh in Lp. rewrite Et in Ep. pose proof (tk_head _ _ T). rewrite nth_error_app1 in Ep by lia.
    pose proof (tk_true _ _ T _ (nth_error_In _ _ Ep)) as Q. unfold istrue in Q. rewrite lnot_var in Q. congruence. }
  assert (Le : forall s', s_decs s' = s_decs (c_s c) -> clevel s' = clevel (c_s c)) by (intros s' E; unfold clevel; rewrite E; reflexivity).
  destruct rest as [|l1 [|l2 rest]]; cbn [learn_clause].
  - (* unit *)
    destruct Fst as [D0 Tr]. apply spec_ret. split; [|constructor; auto]. unfold low in Lo. rewrite D0 in Lo. destruct Lo as [H0 _].
    split.
    + apply meaning_core; cbn [cw_s c_s c_d c_bin c_v].
      * eapply (meaning_enqueue _ F); [exact M|exact T|exact U|exact Nm| |congruence]. intros _ b. split; [intros Mb; split; [exact Mb|]|tauto].
        specialize (Im b Mb). unfold clause_holds in Im. cbn [existsb] in Im. rewrite Bool.orb_false_r in Im. exact Im.
      * constructor; [apply enqueue_ok; [exact T|exact U|apply Bn; left; reflexivity|exact D0]| |apply watch_enqueue; exact W|apply prop_head0; exact H0].
        eapply enqueue_store; eauto; discriminate.
    + unfold low. cbn [cw_s c_s enqueue s_decs s_head s_trail s_reason]. rewrite D0, Tr. split; [exact H0|]. intros x [<-|[]]. apply upd_eq.
  - (* binary *)
    destruct Fst as [Lv Lp]. apply spec_ret. split; [|constructor; auto].
    assert (Dn : s_decs (c_s c) <> []) by (unfold clevel in Lp; destruct (s_decs (c_s c)); [cbn in Lp; lia|discriminate]).
    assert (Nv : lit_var l0 <> lit_var l1) by (inversion Nd as [|? ? NI _]; subst; intros E; apply NI; left; congruence).
    set (c1 := add_binary_clause l0 l1 c).
    assert (S1 : store_ok (v_slen (c_v c)) (live (c_d c)) (c_bin c1) (c_s c)).
    { apply (store_add_bin _ _ _ c); [exact S|apply Bn; left; reflexivity|apply Bn; right; left; reflexivity|exact Nv|].
      intros l [->| ->] V; [congruence|]. unfold on_trail. apply in_map_iff. exists (lnot l1). split; [apply lnot_var|apply Rs; left; reflexivity]. }
    assert (M1 : meaning F A c1).
    { apply (meaning_add_bin F F); [exact M|apply Us; left; reflexivity|apply Us; right; left; reflexivity|].
      intros b. split; [intros Mb; split; [exact Mb|apply Im; exact Mb]|tauto]. }
    assert (T2 : trail_ok (v_slen (c_v c)) (enqueue (c_s c) l0 (RBinary l1))) by (apply enqueue_ok; [exact T|exact U|apply Bn; left; reflexivity|apply Rs; left; reflexivity]).
    split; [|apply low_enqueue; assumption].
    apply meaning_core; cbn [cw_s c_s c_d c_bin c_v add_binary_clause cw_bin].
    + eapply (meaning_enqueue _ F F A c1); [exact M1|exact T|exact U|exact Nm|intros E; contradiction|reflexivity].
    + constructor; [exact T2| |apply watch_enqueue; exact W|].
      * apply (enqueue_store _ _ (c_bin c1)); [exact T|exact S1|exact U|discriminate|]. intros b [= <-]. unfold c1. apply add_binary_in. right. right. split; reflexivity.
      * pose proof (enqueue_prop _ _ _ _ l0 (RBinary l1) _ _ T U P) as P2. constructor; [apply (po_long _ _ _ _ _ P2)|].
        intros l o I Pr. change (In o (c_bin c1 l)) in I. unfold c1 in I. apply add_binary_in in I as [I|[[-> ->]|[-> ->]]].
        -- exact (po_bin _ _ _ _ _ P2 l o I Pr).
        -- exfalso. refine (Np (enqueue (c_s c) l0 (RBinary l1)) _ _ Pr); reflexivity.
        -- right. split; [apply enqueue_istrue; [exact U|right; reflexivity]|]. cbn [enqueue s_level]. rewrite upd_eq, upd_ne, lnot_var by (rewrite lnot_var; congruence). change (c_s c1) with (c_s c). rewrite Lv. apply Nat.le_refl.
  - (* long *)
    destruct Fst as [Lv Lp].
    assert (Dn : s_decs (c_s c) <> []) by (unfold clevel in Lp; destruct (s_decs (c_s c)); [cbn in Lp; lia|discriminate]).
    destruct (assess_learned (c_s c) (c_tmp c) (l0 :: l1 :: l2 :: rest)) as [flags h] eqn:Eh.
    assert (Hh : h_deleted h = false /\ h_mark h = false /\ h_tier h <> Irred /\ (clean c -> forall x, flags x = false)).
    { unfold assess_learned in Eh. destruct (compute_glue (c_s c) (c_tmp c) (l0 :: l1 :: l2 :: rest)) as [fl gl] eqn:Eg. injection Eh as <- <-. split; [reflexivity|]. split; [reflexivity|].
      split; [apply select_tier_irred|]. intros Cl. eapply glue_clean; [exact Cl|exact Eg]. }
    destruct Hh as (H1 & H2 & H3 & H4). unfold db_add_clause. cbn [cw_tmp c_s c_d].
    destruct (add_long (c_s c) (c_d c) h (l0 :: l1 :: l2 :: rest)) as [[s5 d5] x5] eqn:Ad.
    destruct (d_full d5) eqn:Fu; [exact Logic.I|]. cbn [bind]. apply spec_ret.
    pose proof (add_long_added _ _ _ _ _ _ _ Ad (mn_db _ _ _ M) Fu H1 H2 (fun E => False_ind _ (H3 E))) as AD.
    assert (Co : clause_ok (v_slen (c_v c)) (l0 :: l1 :: l2 :: rest)) by (split; [cbn; lia|split; [exact Nd|exact Bn]]).
    split; [|constructor; auto].
    assert (U5 : s_val s5 (lit_var l0) = None) by (rewrite (ad_val _ _ _ _ _ _ _ AD); exact U).
    assert (T5 : trail_ok (v_slen (c_v c)) s5) by (eapply added_trail; eassumption).
    assert (S5 : store_ok (v_slen (c_v c)) (live d5) (c_bin c) s5).
    { eapply added_store; [exact AD|exact S|exact Co|]. intros l [<-|I] V; [congruence|]. unfold on_trail. apply in_map_iff. exists (lnot l). split; [apply lnot_var|apply Rs; exact I]. }
    assert (W5 : s_wen s5 = true -> watch_ok (live d5) s5 (s_watch s5)) by (eapply (@added_watch (v_slen (c_v c)) (c_bin c)); eassumption).
    assert (M5 : meaning F A (cw_d (cw_s c s5) d5)).
    { eapply meaning_add_long; [exact M|exact AD|exact Us| |right; tauto]. intros b. split; [intros Mb; split; [exact Mb|apply Im; exact Mb]|tauto]. }
    assert (D5 : s_decs s5 = s_decs (c_s c)) by apply (ad_decs _ _ _ _ _ _ _ AD).
    assert (T6 : trail_ok (v_slen (c_v c)) (enqueue s5 l0 (RLong x5))).
    { apply enqueue_ok; [exact T5|exact U5|apply Bn; left; reflexivity|]. exists (l1 :: l2 :: rest). split; [apply (added_new AD)|].
      intros x I. rewrite (ad_trail _ _ _ _ _ _ _ AD). apply Rs. exact I. }
    assert (C' : cw_s (cw_d (cw_s (cw_tmp c flags) s5) d5) (enqueue (c_s (cw_d (cw_s (cw_tmp c flags) s5) d5)) l0 (RLong x5)) = cw_tmp (cw_s (cw_d (cw_s c s5) d5) (enqueue s5 l0 (RLong x5))) flags) by reflexivity.
    rewrite C'. split; [apply core_tmp|].
    + apply meaning_core; cbn [cw_s cw_d c_s c_d c_bin c_v].
      * eapply (meaning_enqueue _ F F A (cw_d (cw_s c s5) d5)); [exact M5|exact T5|exact U5|exact Nm| |reflexivity]. cbn [cw_d cw_s c_s]. congruence.
      * constructor; [exact T6| |apply watch_enqueue; exact W5|].
        -- apply enqueue_store; [exact T5|exact S5|exact U5| |discriminate]. intros y [= <-]. rewrite (ad_live _ _ _ _ _ _ _ AD). apply in_or_app. right. left. reflexivity.
        -- pose proof (enqueue_prop _ _ _ _ l0 (RLong x5) _ _ T5 U5 (@added_prop 0%N _ _ _ _ _ _ _ _ AD none2 none2 P)) as P6.
           constructor; [|intros l o I Pr; destruct (po_bin _ _ _ _ _ P6 l o I Pr) as [[]|Q]; right; exact Q].
           intros y c0 c1 r w Iy Ey Ew Pr. destruct (po_long _ _ _ _ _ P6 y c0 c1 r w Iy Ey Ew Pr) as [[[]| ->]|Q]; [|right; exact Q].
           assert (Ex : s_lits (enqueue s5 l0 (RLong x5)) x5 = l0 :: l1 :: l2 :: rest) by (cbn [enqueue s_lits]; apply (added_new AD)).
           rewrite Ex in Ey. injection Ey as <- <- _. right. destruct Ew as [->| ->].
           ++ exfalso. revert Pr. apply Np; cbn [enqueue s_trail s_head]; [rewrite (ad_trail _ _ _ _ _ _ _ AD); reflexivity|apply (ad_head _ _ _ _ _ _ _ AD)].
           ++ exists l0. rewrite Ex. split; [left; reflexivity|]. split; [apply enqueue_istrue; [exact U5|right; reflexivity]|].
              cbn [enqueue s_level]. rewrite upd_eq. assert (Nv : lit_var l1 <> lit_var l0) by (inversion Nd as [|? ? NI _]; subst; intros E; apply NI; left; congruence).
              rewrite upd_ne by exact Nv. rewrite (ad_level _ _ _ _ _ _ _ AD), Lv, D5. apply Nat.le_refl.
    + cbn [cw_tmp cw_s cw_d c_s]. apply low_enqueue; [rewrite D5; exact Dn|]. unfold low in *. rewrite D5. destruct (s_decs (c_s c)); [congruence|exact Lo].
Qed.

(** After the backtrack the first literal of the learned clause has no value. *)
Lemma learned_free F A c bt l0 rest : inv true F A c -> learned (live (c_d c)) (c_bin c) (c_s c) (l0 :: rest) bt ->
  s_val (c_s (backtrack_to bt c)) (lit_var l0) = None /\
  match rest with [] => s_decs (c_s (backtrack_to bt c)) = [] | _ => s_decs (c_s (backtrack_to bt c)) <> [] end.
Proof.
  intros K Le. pose proof (le_bt _ _ _ _ _ Le) as Bt. destruct (le_clause _ _ _ _ _ Le) as (l0' & rest' & E & F0 & V0 & Rs & Fst). injection E as <- <-.
  destruct (backtrack_inv _ _ _ _ bt K (fun _ => Bt)) as (K1 & Ud & _). specialize (Ud Bt).
  pose proof (in_trail _ _ _ _ _ (iv_search _ _ _ _ (proj1 K))) as T. set (c1 := backtrack_to bt c) in *.
  assert (Bt' : bt < length (s_decs (c_s c))) by exact Bt.
  pose proof (fun x => undone_istrue _ _ _ _ x T Ud Bt') as Tr.
  split.
  - destruct F0 as [H0 T0]. destruct (value_cases (c_s c1) l0) as [V|[V|V]]; [| |exact V]; exfalso.
    + apply Tr in V as [V _]. exact (true_not_false _ _ V H0).
    + apply Tr in V as [_ [V|V]]; rewrite lnot_var in V; [|unfold clevel in *; lia].
      apply V. rewrite <- (lnot_var l0). apply in_map. exact T0.
  - destruct rest as [|x rest]; rewrite (ud_decs _ _ _ Ud); [rewrite Fst; reflexivity|]. destruct (Rs x (or_introl eq_refl)) as (_ & Q1 & Q2).
    intros E. assert (Q : length (firstn bt (s_decs (c_s c))) = 0) by (rewrite E; reflexivity). rewrite firstn_length_le in Q by lia. lia.
Qed.
Lemma learn_spec F A c bt cl c2 : inv true F A c -> learned (live (c_d c)) (c_bin c) (c_s c) cl bt ->
  (forall x, In x cl -> in_use (c_v c) (lit_var x)) -> frame (backtrack_to bt c) c2 ->
  spec (learn_clause cl c2) (fun c' => inv false F A c' /\ kept c2 c').
Proof.
  intros K Le Us Fr. pose proof (le_bt _ _ _ _ _ Le) as Bt. destruct (le_clause _ _ _ _ _ Le) as (l0 & rest & -> & F0 & V0 & Rs & Fst).
  destruct (backtrack_inv _ _ _ _ bt K (fun _ => Bt)) as (K1 & Ud & _ & Ev & Ed & Eb & _). specialize (Ud Bt).
  pose proof (in_trail _ _ _ _ _ (iv_search _ _ _ _ (proj1 K))) as T.
  pose proof (inv_frame _ _ _ _ _ Fr K1) as K2. set (c1 := backtrack_to bt c) in *.
  assert (Es : c_s c2 = c_s c1) by (destruct Fr as (e & p & ->); reflexivity).
  assert (Ev2 : c_v c2 = c_v c) by (rewrite (frame_v _ _ Fr); exact Ev).
  assert (Bt' : bt < length (s_decs (c_s c))) by exact Bt.
  pose proof (fun x => undone_istrue _ _ _ _ x T Ud Bt') as Tr.
  assert (N0 : s_val (c_s c1) (lit_var l0) = None) by exact (proj1 (learned_free F A c bt l0 rest K Le)).
  assert (Lv1 : s_level (c_s c1) = s_level (c_s c)) by apply Ud.
  assert (Cl1 : clevel (c_s c1) = bt) by (unfold clevel; rewrite (ud_decs _ _ _ Ud), firstn_length_le by lia; reflexivity).
  assert (Ab : same_absent (c_v c) (c_s c) (c_s c1)).
  { intros x Nx. rewrite (ud_val _ _ _ Ud). destruct (existsb _ _) eqn:Ex; [|reflexivity]. apply memb_in in Ex. apply in_map_iff in Ex as (l & <- & I).
    exfalso. apply (iv_trail _ _ _ _ (proj1 K) l); [|exact Nx]. rewrite <- (firstn_skipn (nth bt (s_decs (c_s c)) 0)). apply in_or_app. right. exact I. }
  apply learn_core with (F := F) (A := A); [exact K2|rewrite Es; exact N0|rewrite Ev2; exact Us|apply (le_nodup _ _ _ _ _ Le)| | |].
  - intros x I. rewrite Es. destruct (Rs x I) as ([H1 H2] & L1 & L2).
    assert (V : istrue (c_s c1) (lnot x)) by (apply Tr; split; [exact H1|right; rewrite lnot_var; exact L2]).
    pose proof (undone_ok _ _ _ _ T Ud Bt') as T1. destruct (tk_assigned _ _ T1 (lit_var (lnot x)) (istrue_assigned _ _ V)) as [Q|[Q _]].
    + apply in_map_iff in Q as (y & Ey & Iy). rewrite <- (same_true _ _ _ (tk_true _ _ T1 _ Iy) V Ey). exact Iy.
    + exfalso. rewrite (ud_depth _ _ _ Ud) in Q. apply In_nth_error in H2 as (p & Ep). rewrite (tk_depth _ _ T _ _ Ep) in Q. discriminate.
  - rewrite Es. destruct rest as [|x rest].
    + destruct (low_undone _ _ _ (proj2 K) Ud Bt') as [_ Z]. assert (D0 : s_decs (c_s c1) = []) by (rewrite (ud_decs _ _ _ Ud), Fst; reflexivity).
      split; [exact D0|apply Z; exact D0].
    + rewrite Lv1, Fst, Cl1. split; [reflexivity|]. destruct (Rs x (or_introl eq_refl)) as (_ & Q). lia.
  - intros b Mb. rewrite Es, Ev2, (ch_lift _ _ _ _ _ Ab). apply (le_implied _ _ _ _ _ Le). destruct (iv_sound _ _ _ _ (proj1 K) b Mb) as (S1 & S2 & _).
    split; [exact S1|]. intros l I Er L0. apply lh_true. apply (S2 (lit_var l)). split; [apply (tk_true _ _ T _ I)|right; exact L0].
Qed.

(** * What simplification leaves alone *)
Lemma post_frame_kept m c : post m (frame c) -> post m (kept c).
Proof. intros H. eapply post_weaken; [exact H|]. intros c' F. apply kept_frame. exact F. Qed.
Ltac kp := constructor; cbn; auto.

Lemma prove_units_kept c : post (prove_units c) (fun '(c', _) => kept c c').
Proof.
  unfold prove_units. destruct (Nat.eqb _ _); [|apply post_ret; apply kept_refl]. cbv zeta.
  destruct (unit_proofs (c_s c) (s_trail (c_s c))) as [s ps]. destruct (trail_clear s) as [s'|]; [|apply post_panic].
  eapply (post_bind _ _ (fun c' => kept c c')).
  - destruct ps as [|p ps]; [apply post_ret; kp|]. eapply post_weaken; [apply add_step_post|]. intros c' F. eapply kept_trans; [|apply kept_frame; exact F]. kp.
  - intros c' K. apply post_ret. exact K.
Qed.
Lemma simplify_binary_kept c : post (simplify_binary c) (kept c).
Proof.
  unfold simplify_binary. eapply post_bind; [apply post_frame_kept; apply add_steps_post|]. intros c' K. apply post_ret. eapply kept_trans; [exact K|]. kp.
Qed.
Lemma simplify_clause_kept x c : post (simplify_clause x c) (fun '(c', _) => kept c c').
Proof.
  unfold simplify_clause. cbv zeta. destruct (open_lits _ _) as [r|].
  - destruct (Nat.ltb _ _); [|apply post_ret; apply kept_refl].
    eapply post_bind; [apply post_frame_kept; apply add_step_post|]. intros c1 K1. cbv beta.
    eapply (post_bind _ _ (fun c' => kept c c')); [eapply post_weaken; [apply add_step_post|]; intros c2 F; eapply kept_trans; [exact K1|apply kept_frame; exact F]|].
    intros c2 K2. destruct r as [|l0 [|l1 [|l2 r]]]; try apply post_panic; apply post_ret; (eapply kept_trans; [exact K2|kp]).
  - eapply post_bind; [apply post_frame_kept; apply add_step_post|]. intros c1 K1. apply post_ret. exact K1.
Qed.
Lemma filter_loop_kept : forall l c, post (filter_loop l c) (fun '(c', _) => kept c c').
Proof.
  induction l as [|x l IH]; intros c; cbn [filter_loop]; [apply post_ret; apply kept_refl|].
  destruct (deleted (c_d c) x); [apply IH|]. eapply post_bind; [apply simplify_clause_kept|]. intros [c1 keep] K1.
  assert (K2 : kept c (if keep then c1 else cw_d c1 (delete_header (c_s c1) (c_d c1) x))) by (destruct keep; [exact K1|eapply kept_trans; [exact K1|kp]]).
  eapply post_bind; [apply IH|]. intros [c2 r] K3. apply post_ret. eapply kept_trans; eassumption.
Qed.
Lemma filter_clauses_kept c : post (filter_clauses c) (kept c).
Proof.
  unfold filter_clauses. cbv zeta. eapply post_bind; [apply filter_loop_kept|]. intros [c1 r] K1. apply post_ret.
  eapply kept_trans; [|eapply kept_trans; [exact K1|]]; kp.
Qed.
Lemma remove_solver_var_kept x c : post (remove_solver_var x c) (kept c).
Proof.
  unfold remove_solver_var. cbv zeta. cbn [cw_vs c_v]. destruct (v_gs (c_v c) x) as [g|]; [|apply post_panic].
  eapply post_bind; [apply add_step_post|]. intros c1 F1. assert (K1 : kept c c1) by (eapply kept_trans; [|apply kept_frame; exact F1]; kp).
  eapply post_weaken; [apply delete_global_post|]. intros c2 [F2|(_ & _ & _ & _ & F2)]; (eapply kept_trans; [exact K1|]).
  - apply kept_frame. exact F2.
  - eapply kept_trans; [|apply kept_frame; exact F2]. constructor; auto. intros Sh h. cbn [cw_v c_v v_drop v_data v_ug]. unfold upd.
    destruct (N.eqb_spec h g) as [E|NE]; [discriminate|apply Sh].
Qed.
Lemma simplify_vars_kept : forall l c, post (simplify_vars l c) (kept c).
Proof.
  induction l as [|x l IH]; intros c; cbn [simplify_vars]; [apply post_ret; apply kept_refl|].
  eapply (post_bind _ _ (kept c)).
  - unfold simplify_var. destruct (v_gs (c_v c) x) as [g|]; [|apply post_ret; apply kept_refl]. cbv zeta.
    match goal with |- context [cw_v c ?X] => set (v' := X) end.
    assert (Kv : kept c (cw_v c v')).
    { constructor; auto. intros Sh h. cbn [cw_v c_v]. unfold v'. cbn [set_data v_data v_ug]. intros D. apply Sh. rewrite <- D. unfold upd.
      destruct (N.eqb_spec h g) as [E|NE]; [|reflexivity]. subst h. destruct (s_val (c_s c) x); reflexivity. }
    destruct (_ && _); [|apply post_ret; exact Kv]. eapply post_weaken; [apply remove_solver_var_kept|]. intros c' K. eapply kept_trans; [exact Kv|exact K].
  - intros c1 K1. eapply post_weaken; [apply IH|]. intros c2 K2. eapply kept_trans; eassumption.
Qed.
Lemma unit_simplify_kept c : post (unit_simplify c) (kept c).
Proof.
  unfold unit_simplify. eapply post_bind; [apply simplify_binary_kept|]. intros c1 K1. eapply post_bind; [apply filter_clauses_kept|]. intros c2 K2.
  eapply post_weaken; [apply simplify_vars_kept|]. intros c3 K3. eapply kept_trans; [exact K1|eapply kept_trans; eassumption].
Qed.
Lemma spec_post {B} (m : out B) (P Q : B -> Prop) : spec m P -> post m Q -> spec m (fun b => P b /\ Q b).
Proof. intros H1 H2. destruct m; cbn in *; auto. Qed.

(** * Decisions *)
Lemma wf_nodup v : wf v -> NoDup (vs_heap v).
Proof.
  intros [_ W]. apply (NoDup_nth _ 0%N). intros i j Hi Hj E. pose proof (proj2 (W _ i Logic.I) (conj Hi eq_refl)) as A.
  pose proof (proj2 (W _ j Logic.I) (conj Hj eq_refl)) as B. rewrite E in A. congruence.
Qed.
Lemma next_some v x v' : wf v -> vsids_next v = Some (x, v') -> wf v' /\ In x (vs_heap v) /\
  (forall y, In y (vs_heap v') <-> y <> x /\ In y (vs_heap v)) /\ length (vs_heap v') < length (vs_heap v).
Proof.
  intros W E. destruct (vstep_wf v ONext v' (Some x) W) as [W' H]; [cbn [vstep]; rewrite E; reflexivity|]. cbn [avail_after] in H.
  assert (Q : forall y, In y (vs_heap v') <-> y <> x /\ In y (vs_heap v)).
  { intros y. rewrite H. split; intros [P1 P2]; (split; [|exact P2]); [intros ->; apply P1; reflexivity|intros [= ->]; apply P1; reflexivity]. }
  assert (I : In x (vs_heap v)).
  { unfold vsids_next in E. destruct (vs_heap v) as [|z r]; [discriminate|]. destruct (match swap_remove 0 (z :: r) with [] => _ | _ => _ end). injection E as <- _. left. reflexivity. }
  split; [exact W'|]. split; [exact I|]. split; [exact Q|].
  assert (L : length (x :: vs_heap v') <= length (vs_heap v)); [|cbn in L; lia]. apply NoDup_incl_length.
  - constructor; [|apply wf_nodup; exact W']. rewrite Q. tauto.
  - intros y [<-|Iy]; [exact I|apply Q; exact Iy].
Qed.
Lemma find_decision_spec s : forall fuel vs vs' o, wf vs -> length (vs_heap vs) < fuel -> find_decision fuel s vs = (vs', o) ->
  wf vs' /\ (forall x, In x (vs_heap vs') -> In x (vs_heap vs)) /\
  match o with
  | Some v => In v (vs_heap vs) /\ s_val s v = None /\ forall x, In x (vs_heap vs) -> x <> v -> s_val s x = None -> In x (vs_heap vs')
  | None => forall x, In x (vs_heap vs) -> s_val s x <> None
  end.
Proof.
  induction fuel as [|fuel IH]; intros vs vs' o W L E; [lia|]. cbn [find_decision] in E.
  destruct (vsids_next vs) as [[v vs1]|] eqn:En.
  - destruct (next_some _ _ _ W En) as (W1 & I1 & H1 & L1). destruct (s_val s v) as [b|] eqn:Ev.
    + destruct (IH vs1 vs' o W1 ltac:(lia) E) as (W2 & H2 & H3). split; [exact W2|]. split; [intros x I; apply H1; apply H2; exact I|].
      destruct o as [u|].
      * destruct H3 as (Q1 & Q2 & Q3). split; [apply H1; exact Q1|]. split; [exact Q2|]. intros x Ix Nx Vx. apply Q3; [|exact Nx|exact Vx]. apply H1. split; [congruence|exact Ix].
      * intros x Ix. destruct (N.eq_dec x v) as [->|NE]; [congruence|]. apply H3. apply H1. auto.
    + injection E as <- <-. split; [exact W1|]. split; [intros x I; apply H1; exact I|]. split; [exact I1|]. split; [exact Ev|]. intros x Ix Nx _. apply H1. auto.
  - injection E as <- <-. split; [exact W|]. split; [auto|]. intros x Ix. unfold vsids_next in En. destruct (vs_heap vs) as [|z r]; [destruct Ix|].
    destruct (match swap_remove 0 (z :: r) with [] => _ | _ => _ end). discriminate.
Qed.

Definition ready (F : problem) (A : list N) (c : ctx) : Prop :=
  inv false F A c /\ s_head (c_s c) = length (s_trail (c_s c)) /\ (s_decs (c_s c) = [] -> s_trail (c_s c) = []).

Lemma make_decision_spec F A c c' b : ready F A c -> length (as_lits (c_as c)) <= clevel (c_s c) -> make_decision c = (c', b) ->
  kept c c' /\ if b then inv false F A c' else ready F A c' /\ c_as c' = c_as c /\ c_s c' = c_s c /\ c_v c' = c_v c /\ forall x, v_gs (c_v c') x <> None -> s_val (c_s c') x <> None.
Proof.
  intros (K & H & Z) La E. unfold make_decision in E. destruct (find_decision _ _ _) as [vs o] eqn:Ef. pose proof (iv_base _ _ _ _ (proj1 K)) as B.
  destruct (find_decision_spec _ _ _ _ _ (b_wf _ B) (Nat.lt_succ_diag_r _) Ef) as (W & Hs & Ho).
  destruct o as [v|]; injection E as <- <-; (split; [kp|]).
  - destruct Ho as (I & V & R). 
    change (inv false F A (cw_vs (cw_s c (decide (c_s c) (lit_of v (s_last (c_s c) v)))) vs)).
    apply inv_decide; auto.
    + rewrite lo_var. exact V.
    + rewrite lo_var. apply (b_heap _ B). exact I.
    + lia.
    + intros x Ix. apply (b_heap _ B). apply Hs. exact Ix.
    + intros x Nx. rewrite lo_var. intros NE Vx. apply R; [apply (iv_open _ _ _ _ (proj1 K)); assumption|exact NE|exact Vx].
  - assert (Al : forall x, v_gs (c_v c) x <> None -> s_val (c_s c) x <> None).
    { intros x Nx Vx. exact (Ho x (iv_open _ _ _ _ (proj1 K) x Nx Vx) Vx). }
    split; [|repeat (split; [reflexivity|]); exact Al]. split; [|split; [exact H|exact Z]]. split; [|apply K].
    destruct (proj1 K). constructor; auto.
    + destruct iv_base. constructor; auto.
    + intros x Nx Vx. exfalso. exact (Al x Nx Vx).
Qed.

(** * Assumptions *)
(** An assignment that satisfies the formula and the decisions satisfies the trail. *)
Lemma lift_trail F A c b : inv false F A c -> models b F ->
  (forall p l, In p (s_decs (c_s c)) -> nth_error (s_trail (c_s c)) p = Some l -> lit_holds (lift (c_v c) (c_s c) b) l = true) ->
  forall x y, s_val (c_s c) x = Some y -> lift (c_v c) (c_s c) b x = y.
Proof.
  intros [K _] Mb Hd x y V. destruct (iv_sound _ _ _ _ K b Mb) as (S1 & S2 & _). destruct (iv_search _ _ _ _ K) as [T S _ _].
  destruct (in_dec N.eq_dec x (map lit_var (s_trail (c_s c)))) as [I|NI]; [|apply (S2 x); split; auto].
  apply in_map_iff in I as (l & <- & I). pose proof (tk_true _ _ T _ I) as Tl. unfold istrue in Tl. rewrite V in Tl. injection Tl as ->.
  apply lh_true. apply In_nth_error in I as (p & Hp).
  apply (trail_holds _ _ _ _ _ (length (s_trail (c_s c))) T S S1) with (p := p); [|apply nth_error_Some; congruence|exact Hp].
  intros q m _ Hq. pose proof (tk_reason _ _ T _ _ Hq) as R. unfold reason_ok in R. destruct (s_reason (c_s c) (lit_var m)); [|right; discriminate|right; discriminate].
  left. destruct R as [R|R]; [exact (Hd _ _ R Hq)|]. apply lh_true. apply S2. split; [apply (tk_true _ _ T); eapply nth_error_In; exact Hq|].
  right. rewrite (tk_level _ _ T _ _ Hq). exact R.
Qed.
Lemma dec_assumption F A c p l : inv false F A c -> clevel (c_s c) <= length (as_lits (c_as c)) -> In p (s_decs (c_s c)) -> nth_error (s_trail (c_s c)) p = Some l ->
  exists i, i < clevel (c_s c) /\ nth_error (as_lits (c_as c)) i = Some l.
Proof.
  intros [K _] Lv I Hp. apply In_nth_error in I as (i & Hi). assert (Li : i < length (s_decs (c_s c))) by (apply nth_error_Some; congruence).
  exists i. split; [exact Li|]. rewrite <- (iv_dec _ _ _ _ K i p Hi); [exact Hp|]. unfold clevel in Lv. lia.
Qed.
Lemma swap_remove_first {B} k (l : list B) i : k < length l -> i < k -> nth_error (swap_remove k l) i = nth_error l i.
Proof.
  intros Lk Li. destruct l as [|d l]; [cbn in Lk; lia|]. set (L := d :: l) in *. pose proof (swap_remove_length k L Lk) as Ln.
  rewrite (nth_error_nth' _ d), (nth_error_nth' L d) by lia. rewrite nth_swap_remove by lia. destruct (Nat.eqb_spec i k); [lia|reflexivity].
Qed.
Lemma swap_remove_in {B} k (l : list B) x : k < length l -> In x (swap_remove k l) -> In x l.
Proof.
  intros Lk I. destruct l as [|d l]; [cbn in Lk; lia|]. set (L := d :: l) in *. apply In_nth_error in I as (i & Hi). pose proof (swap_remove_length k L Lk) as Ln.
  assert (Li : i < length (swap_remove k L)) by (apply nth_error_Some; congruence).
  rewrite (nth_error_nth' _ d) in Hi by exact Li. injection Hi as <-. rewrite nth_swap_remove by lia. destruct (Nat.eqb i k); apply nth_In; lia.
Qed.
Lemma swap_remove_other {B} k (l : list B) a x : nth_error l k = Some a -> In x l -> x = a \/ In x (swap_remove k l).
Proof.
  intros Ha I. assert (Lk : k < length l) by (apply nth_error_Some; congruence). destruct l as [|d l]; [cbn in Lk; lia|]. set (L := d :: l) in *.
  apply In_nth_error in I as (i & Hi). assert (Li : i < length L) by (apply nth_error_Some; congruence). pose proof (swap_remove_length k L Lk) as Ln.
  destruct (Nat.eq_dec i k) as [->|NE]; [left; congruence|]. right. rewrite (nth_error_nth' _ d Li) in Hi. assert (Ex : x = nth i L d) by congruence. rewrite Ex.
  destruct (Nat.eq_dec i (pred (length L))) as [E|NE2].
  - assert (Q : nth k (swap_remove k L) d = nth i L d) by (rewrite nth_swap_remove by lia; rewrite Nat.eqb_refl, E; reflexivity).
    rewrite <- Q. apply nth_In. lia.
  - assert (Q : nth i (swap_remove k L) d = nth i L d) by (rewrite nth_swap_remove by lia; destruct (Nat.eqb_spec i k); [lia|reflexivity]).
    rewrite <- Q. apply nth_In. lia.
Qed.

Lemma drop_assumption F A c a x : ready F A c -> nth_error (as_lits (c_as c)) (clevel (c_s c)) = Some a -> istrue (c_s c) a ->
  ready F A (cw_as c (Assum (swap_remove (clevel (c_s c)) (as_lits (c_as c))) (as_core (c_as c)) (as_user (c_as c)) x (as_hashes (c_as c)))).
Proof.
  intros (K & H & Z) Ha Ta. assert (Lk : clevel (c_s c) < length (as_lits (c_as c))) by (apply nth_error_Some; congruence).
  split; [|split; [exact H|exact Z]]. pose proof K as K0. destruct K as [K Lo]. split; [|exact Lo].
  pose proof (fun l => swap_remove_in (clevel (c_s c)) (as_lits (c_as c)) l Lk) as Sub.
  destruct K. constructor; auto.
  - destruct iv_base. constructor; auto.
  - intros i p Hi Li. cbn [cw_as c_as c_s as_lits] in *. assert (Lc : i < clevel (c_s c)) by (apply nth_error_Some; congruence).
    rewrite swap_remove_first by assumption. apply iv_dec; [exact Hi|lia].
  - intros l g I. apply iv_in. apply Sub. exact I.
  - intros b Mb Hb. cbn [cw_as c_as c_s c_v as_lits] in *. apply iv_all; [exact Mb|]. intros l Il.
    destruct (swap_remove_other _ _ _ _ Ha Il) as [->|Il']; [|apply Hb; exact Il'].
    apply lh_true. eapply (lift_trail F A c b K0 Mb); [|exact Ta]. intros p m Ip Hp.
    destruct (dec_assumption F A c p m K0 ltac:(lia) Ip Hp) as (i & Li & Hi). apply Hb. rewrite <- (swap_remove_first (clevel (c_s c)) _ i Lk Li) in Hi. eapply nth_error_In. exact Hi.
Qed.

Lemma users_of_spec v lits : vars_ok v -> (forall l, In l lits -> exists g, v_gs v (lit_var l) = Some g /\ v_ug v g <> None) ->
  exists us, users_of v lits = Ret us /\ Forall2 (fun l u => exists g, v_gs v (lit_var l) = Some g /\ v_gu v (lit_var u) = Some g /\ is_positive u = is_positive l) lits us.
Proof.
  intros V. induction lits as [|l lits IH]; intros Nm; cbn [users_of]; [exists []; split; [reflexivity|constructor]|].
  destruct (Nm l (or_introl eq_refl)) as (g & G & Ug). rewrite G. destruct (v_ug v g) as [u|] eqn:U; [|congruence].
  destruct IH as (us & E & R); [intros x I; apply Nm; right; exact I|]. rewrite E. cbn [bind]. eexists. split; [reflexivity|]. constructor; [|exact R].
  exists g. split; [exact G|]. rewrite lo_var, lo_pos. split; [|reflexivity]. apply (vo_ug _ V). exact U.
Qed.

Lemma lift_lit v s b l g : v_gs v (lit_var l) = Some g -> lit_holds (lift v s b) l = lit_holds b (lit_of g (is_positive l)).
Proof.
  intros G. destruct (lit_holds b (lit_of g (is_positive l))) eqn:E.
  - apply lh_true in E. rewrite lo_var, lo_pos in E. apply lh_true. unfold lift. rewrite G. exact E.
  - destruct (lit_holds (lift v s b) l) eqn:E2; [|reflexivity]. apply lh_true in E2. unfold lift in E2. rewrite G in E2.
    rewrite <- E. symmetry. apply lh_true. rewrite lo_var, lo_pos. exact E2.
Qed.

Definition st_same (c c' : ctx) : Prop := st_sat (c_st c') = st_sat (c_st c) /\ c_model c' = c_model c /\ v_gu (c_v c') = v_gu (c_v c) /\ (all_shown (c_v c) -> all_shown (c_v c')).
(** Flags are left over only with a failed core of one literal. *)
Definition outcome (c : ctx) : Prop := clean c \/ exists u, as_user (c_as c) = [u].
Definition failed_ok (F : problem) (A : list N) (tight : Prop) (c : ctx) : Prop :=
  unsat_with F A /\ (forall l, In l (as_user (c_as c)) -> v_gu (c_v c) (lit_var l) <> None /\ In (glob (c_v c) l) A) /\
  (tight -> unsat_with F (map (glob (c_v c)) (as_user (c_as c))) /\ outcome c).

Lemma fail_spec F A c a : ready F A c -> nth_error (as_lits (c_as c)) (clevel (c_s c)) = Some a -> isfalse (c_s c) a ->
  spec (analyze_assumption_conflict a c) (fun c' => inv false F A c' /\ st_same c c' /\ failed_ok F A (clean c) c').
Proof.
  intros (K & H & Z) Ha Fa. unfold analyze_assumption_conflict.
  destruct (failed_core_of (p_native (c_pf c)) (c_s c) (c_tmp c) a) as [[flags core_] hashes] eqn:Ec.
  assert (Lk : clevel (c_s c) < length (as_lits (c_as c))) by (apply nth_error_Some; congruence).
  destruct (iv_search _ _ _ _ (proj1 K)) as [T S _ _]. pose proof (iv_base _ _ _ _ (proj1 K)) as B.
  assert (Sub : forall x, In x core_ -> In x (as_lits (c_as c))).
  { intros x I. destruct (failed_core_in _ _ _ _ _ _ _ _ T Ec x I) as [->|(p & Ip & Hp)]; [eapply nth_error_In; exact Ha|].
    destruct (dec_assumption F A c p x K ltac:(lia) Ip Hp) as (i & _ & Hi). eapply nth_error_In. exact Hi. }
  assert (NmA : forall x, In x (as_lits (c_as c)) -> exists g, v_gs (c_v c) (lit_var x) = Some g) by (intros x I; destruct (b_as _ B x I) as (g & G & _); eauto).
  assert (Nm : named (c_v c) core_) by (intros x I; destruct (NmA x (Sub x I)) as (g & G); congruence).
  destruct (users_of_spec (c_v c) core_ (b_vars _ B)) as (us & Eu & Ru).
  { intros x I. destruct (b_as _ B x (Sub x I)) as (g & G & Q). exists g. split; [exact G|]. apply (b_shown _ B); [|exact Q].
    apply (vo_used _ (b_vars _ B) g (lit_var x)). apply (vo_sg _ (b_vars _ B)). exact G. }
  rewrite Eu. cbn [bind].
  assert (Hus : forall u, In u us -> exists l g, In l core_ /\ v_gs (c_v c) (lit_var l) = Some g /\ v_gu (c_v c) (lit_var u) = Some g /\ is_positive u = is_positive l).
  { clear -Ru. induction Ru as [|l u ls us (g & G1 & G2) R IH]; intros w I; [destruct I|]; destruct I as [<-|I]; [exists l, g; split; [left; reflexivity|auto]|].
    destruct (IH w I) as (m & h & I1 & I2). exists m, h. split; [right; exact I1|exact I2]. }
  assert (Hls : forall l, In l core_ -> exists u g, In u us /\ v_gs (c_v c) (lit_var l) = Some g /\ v_gu (c_v c) (lit_var u) = Some g /\ is_positive u = is_positive l).
  { clear -Ru. induction Ru as [|l u ls us (g & G1 & G2) R IH]; intros w I; [destruct I|]; destruct I as [<-|I]; [exists u, g; split; [left; reflexivity|auto]|].
    destruct (IH w I) as (m & h & I1 & I2). exists m, h. split; [right; exact I1|exact I2]. }
  set (c1 := cw_tmp (cw_as c (Assum (as_lits (c_as c)) core_ us (as_levels (c_as c)) hashes)) flags).
  eapply spec_weaken; [apply add_step_spec; intros _; exact Nm|]. intros c2 F2.
  assert (K1 : inv false F A c1).
  { destruct K as [K Lo]. split; [|exact Lo]. destruct K. constructor; auto. destruct iv_base. constructor; assumption. }
  split; [eapply inv_frame; eassumption|]. split; [destruct F2 as (e & p & ->); repeat split; auto|].
  assert (Eas : as_user (c_as c2) = us) by (destruct F2 as (e & p & ->); reflexivity).
  assert (Ev : c_v c2 = c_v c) by (destruct F2 as (e & p & ->); reflexivity).
  split; [|rewrite Eas, Ev; split].
  - intros b Mb Hb.
    assert (HA : forall x, In x (as_lits (c_as c)) -> lit_holds (lift (c_v c) (c_s c) b) x = true).
    { intros x I. destruct (NmA x I) as (g & G). rewrite (lift_lit _ _ _ _ _ G). apply Hb. exact (iv_in _ _ _ _ (proj1 K) _ _ I G). }
    pose proof (HA a (nth_error_In _ _ Ha)) as Q. apply lh_true in Q. apply isfalse_iff in Fa.
    rewrite (lift_trail F A c b K Mb) with (y := is_negative a) in Q; [|intros p l Ip Hp; destruct (dec_assumption F A c p l K ltac:(lia) Ip Hp) as (i & _ & Hi); apply HA; eapply nth_error_In; exact Hi|exact Fa].
    unfold is_positive in Q. destruct (is_negative a); discriminate.
  - intros u I. destruct (Hus u I) as (l & g & I1 & G & Gu & Ps). split; [congruence|]. unfold glob. rewrite Gu, Ps. exact (iv_in _ _ _ _ (proj1 K) _ _ (Sub _ I1) G).
  - intros Cl. split.
    2: { destruct (failed_flags _ _ _ _ _ _ _ _ _ _ T S Fa Cl Ec) as [Q|Q]; [left; destruct F2 as (e & p & ->); exact Q|right].
         rewrite Eas. subst core_. inversion Ru as [|? u ? us' ? R']; subst; inversion R'; subst; eauto. }
    intros b Mb Hb. destruct (iv_sound _ _ _ _ (proj1 K) b Mb) as (S1 & S2 & _).
    assert (Me : meets (live (c_d c)) (c_bin c) (c_s c) (lift (c_v c) (c_s c) b)).
    { split; [exact S1|]. intros l I Er L0. apply lh_true. apply (S2 (lit_var l)). split; [apply (tk_true _ _ T _ I)|right; exact L0]. }
    eapply (failed_core_tight _ _ _ _ _ _ _ _ _ _ _ T S Me); [|exact Fa|exact Cl|exact Ec|].
    + intros x y V NI. apply S2. split; [exact V|left; exact NI].
    + intros x I. destruct (Hls x I) as (u & g & Iu & G & Gu & Ps). rewrite (lift_lit _ _ _ _ _ G). apply Hb. apply in_map_iff. exists u. split; [|exact Iu].
      unfold glob. rewrite Gu, Ps. reflexivity.
Qed.

Lemma enqueue_loop_spec F A : forall fuel c, ready F A c -> spec (enqueue_loop fuel c) (fun '(c', e) =>
  match e with
  | Done => ready F A c' /\ length (as_lits (c_as c')) <= clevel (c_s c') /\ kept c c'
  | Enqueued => inv false F A c' /\ kept c c'
  | Failed => inv false F A c' /\ st_same c c' /\ failed_ok F A (clean c) c'
  end).
Proof.
  induction fuel as [|fuel IH]; intros c R; cbn [enqueue_loop]; destruct (nth_error (as_lits (c_as c)) (clevel (c_s c))) as [a|] eqn:Ha.
  2,4: apply spec_ret; split; [exact R|]; split; [apply nth_error_None; exact Ha|apply kept_refl].
  all: destruct (lfalse (c_s c) a) eqn:Lf;
    [apply lfalse_iff in Lf; eapply spec_bind; [apply (fail_spec F A c a R Ha Lf)|]; intros c1 Q; apply spec_ret; exact Q|].
  all: destruct (ltrue (c_s c) a) eqn:Lt.
  1: exact Logic.I.
  2: { apply ltrue_iff in Lt. eapply spec_weaken; [apply IH; apply (drop_assumption F A c a _ R Ha Lt)|].
       intros [c1 []]; cbn [cw_as]; intros Q; try (destruct Q as (Q1 & Q2 & Q3)); try (destruct Q as (Q1 & Q2)).
       - split; [exact Q1|]. split; [exact Q2|]. eapply kept_trans; [|exact Q3]. kp.
       - split; [exact Q1|]. eapply kept_trans; [|exact Q2]. kp.
       - split; [exact Q1|]. split; [exact Q2|exact Q3]. }
  all: apply spec_ret; destruct R as (K & H & Z).
  all: assert (V : s_val (c_s c) (lit_var a) = None)
    by (destruct (value_cases (c_s c) a) as [V|[V|V]]; [apply ltrue_iff in V; congruence|apply lfalse_iff in V; congruence|exact V]).
  all: split; [|kp].
  all: apply set_levels_inv; change (inv false F A (cw_vs (cw_s c (decide (c_s c) a)) (c_vs c))); pose proof (iv_base _ _ _ _ (proj1 K)) as B.
  all: apply inv_decide; auto.
  all: try (destruct (b_as _ B a (nth_error_In _ _ Ha)) as (g & G & _); congruence); try apply B; try (intros x Nx _ Vx; apply (iv_open _ _ _ _ (proj1 K)); assumption).
Qed.

Definition conflict_res (F : problem) (A : list N) (k : conflict) (c : ctx) : Prop :=
  (s_decs (c_s c) = [] /\ base c /\ forall b, ~ models b F) \/
  (0 < clevel (c_s c) /\ inv true F A c /\ conflict_at (live (c_d c)) (c_bin c) (c_s c) k).

Lemma find_conflict_spec F A : forall fuel c, inv false F A c -> spec (find_conflict fuel c) (fun '(c', f) =>
  match f with
  | FModel => ready F A c' /\ length (as_lits (c_as c')) <= clevel (c_s c') /\ kept c c' /\ forall x, v_gs (c_v c') x <> None -> s_val (c_s c') x <> None
  | FAssumption => inv false F A c' /\ st_same c c' /\ failed_ok F A (clean c) c'
  | FConflict k => kept c c' /\ conflict_res F A k c'
  end).
Proof.
  induction fuel as [|fuel IH]; intros c K; cbn [find_conflict]; [exact Logic.I|].
  destruct (propagate (v_slen (c_v c)) (live (c_d c)) (c_bin c) (c_s c)) as [s r] eqn:Ep.
  destruct (propagate_core F A c s r (proj1 K) Ep) as (K1 & D1 & L1 & R1). set (c1 := cw_s c s) in *.
  assert (Kp1 : kept c c1) by kp.
  destruct r as [|k| |]; try contradiction.
  - (* no conflict *)
    eapply (spec_bind _ _ (fun '((c2, new) : ctx * bool) => kept c c2 /\ if new then simp (live (c_d c2)) false F A c2 else ready F A c2)).
    { destruct (Nat.eq_dec (clevel (c_s c1)) 0) as [Z|NZ].
      - assert (D0 : s_decs (c_s c1) = []) by (apply length_zero_iff_nil; exact Z).
        eapply spec_weaken; [apply spec_post; [apply (prove_units_simp F A c1 K1 D0 R1)|apply prove_units_kept]|].
        intros [c2 new] [Q Kp]. split; [eapply kept_trans; eassumption|]. destruct new; [apply Q|]. destruct Q as (Q1 & Q2 & Q3 & Q4).
        split; [exact Q1|]. split; [rewrite Q2, Q3; reflexivity|auto].
      - rewrite prove_units_high by lia. apply spec_ret. split; [exact Kp1|]. split; [split; [exact K1|]|].
        + apply L1; [unfold clevel in *; rewrite <- D1; cbn [c1 cw_s c_s] in NZ; lia|apply K].
        + split; [exact R1|]. intros D0. unfold clevel in NZ. rewrite D0 in NZ. cbn in NZ. lia. }
    intros [c2 new] [Kp2 Q2].
    eapply (spec_bind _ _ (fun c3 => kept c c3 /\ ready F A c3)).
    { destruct new; [|apply spec_ret; auto]. eapply spec_weaken; [apply spec_post; [apply (unit_simplify_spec F A c2 Q2)|apply unit_simplify_kept]|].
      intros c3 [(P1 & P2 & P3 & P4) Kp]. split; [eapply kept_trans; eassumption|]. split; [exact P1|]. split; [rewrite P2, P3; reflexivity|auto]. }
    intros c3 [Kp3 R3]. eapply spec_bind; [apply (enqueue_loop_spec F A _ c3 R3)|]. intros [c4 e] Q.
    assert (St : forall c', kept c c' -> forall c'', st_same c' c'' -> st_same c c'') by (intros c' [] c'' (E1 & E2 & E3 & E4); split; [congruence|split; [congruence|split; [congruence|auto]]]).
    destruct e.
    + destruct Q as (R4 & La & Kp4). destruct (make_decision c4) as [c5 b] eqn:Em. destruct (make_decision_spec F A c4 c5 b R4 La Em) as [Kp5 Q5].
      assert (Kp : kept c c5) by (eapply kept_trans; [exact Kp3|eapply kept_trans; eassumption]).
      destruct b.
      * eapply spec_weaken; [apply IH; exact Q5|]. intros [c6 f] Q6. destruct f.
        -- destruct Q6 as (P1 & P2 & P3 & P4). split; [exact P1|]. split; [exact P2|]. split; [eapply kept_trans; eassumption|exact P4].
        -- destruct Q6 as (P1 & P2 & P3 & P4 & P5). split; [exact P1|]. split; [eapply St; eassumption|]. split; [exact P3|]. split; [exact P4|]. intros Cl. apply P5. apply Kp. exact Cl.
        -- destruct Q6 as (P1 & P2). split; [eapply kept_trans; eassumption|exact P2].
      * apply spec_ret. destruct Q5 as (R5 & E5 & E6 & E7 & E8). split; [exact R5|]. split; [rewrite E5, E6; exact La|]. split; [exact Kp|exact E8].
    + destruct Q as (K4 & Kp4). assert (Kp : kept c c4) by (eapply kept_trans; eassumption).
      eapply spec_weaken; [apply IH; exact K4|]. intros [c6 f] Q6. destruct f.
      * destruct Q6 as (P1 & P2 & P3 & P4). split; [exact P1|]. split; [exact P2|]. split; [eapply kept_trans; eassumption|exact P4].
      * destruct Q6 as (P1 & P2 & P3 & P4 & P5). split; [exact P1|]. split; [eapply St; eassumption|]. split; [exact P3|]. split; [exact P4|]. intros Cl. apply P5. apply Kp. exact Cl.
      * destruct Q6 as (P1 & P2). split; [eapply kept_trans; eassumption|exact P2].
    + destruct Q as (P1 & P2 & P3 & P4 & P5). apply spec_ret. split; [exact P1|]. split; [eapply St; eassumption|]. split; [exact P3|]. split; [exact P4|].
      intros Cl. apply P5. apply Kp3. exact Cl.
  - (* conflict *)
    destruct (Nat.eq_dec (clevel (c_s c1)) 0) as [Z|NZ].
    + assert (D0 : s_decs (c_s c1) = []) by (apply length_zero_iff_nil; exact Z).
      eapply spec_bind; [apply spec_post; [apply (prove_units_zero c1 D0 (iv_trail _ _ _ _ K1))|apply prove_units_kept]|].
      intros [c2 new] [(s' & Fr & Q) Kp]. apply spec_ret. split; [eapply kept_trans; eassumption|]. left.
      split; [destruct Fr as (e & p & ->); apply Q|]. split; [|apply (conflict_zero F A c1 k K1 R1 D0)].
      eapply base_frame; [exact Fr|]. destruct (iv_base _ _ _ _ K1). constructor; assumption.
    + rewrite prove_units_high by lia. cbn [bind]. apply spec_ret. split; [exact Kp1|]. right. split; [lia|]. split; [|exact R1]. split; [exact K1|].
      apply L1; [unfold clevel in *; rewrite <- D1; cbn [c1 cw_s c_s] in NZ; lia|apply K].
Qed.

(** * The model *)
(** The problem [F] and the assumptions [A] are those of the user in other names. *)
Definition ties (S : problem) (U : list N) (F : problem) (A : list N) (v : vars) : Prop :=
  known v U /\ A = map (glob v) U /\ tied S F (v_gu v).
Lemma ties_gu S U F A v v' : v_gu v' = v_gu v -> ties S U F A v -> ties S U F A v'.
Proof.
  intros E (K & H & T). unfold ties, known. rewrite E. split; [exact K|]. split; [|exact T]. rewrite H. apply map_ext. intros l. unfold glob. rewrite E. reflexivity.
Qed.
(** A stored model has a value for all variables. *)
Definition covers (c : ctx) : Prop := forall g, vd_deleted (v_data (c_v c) g) = false -> N.to_nat g < length (c_model c).

(** All variables have a value and nothing is left to propagate: the values are a model. *)
Definition model_bits (c : ctx) : N -> bool := fun g => match model_value c g with Some y => y | None => false end.
Lemma model_reached F A c : ready F A c -> length (as_lits (c_as c)) <= clevel (c_s c) ->
  (forall x, v_gs (c_v c) x <> None -> s_val (c_s c) x <> None) ->
  (forall x, In x (live (c_d c)) -> exists l, In l (s_lits (c_s c) x) /\ istrue (c_s c) l) /\
  (forall l o, In o (c_bin c l) -> istrue (c_s c) (lnot l) \/ istrue (c_s c) o) /\
  exists b', agree (c_v c) (model_bits c) b' /\ models b' F /\ forall a, In a A -> lit_holds b' a = true.
Proof.
  intros (K & H & Z) La Al.
  pose proof (iv_base _ _ _ _ (proj1 K)) as B. destruct (iv_search _ _ _ _ (proj1 K)) as [T S W P].
  set (b := model_bits c).
  assert (Lf : forall x y, s_val (c_s c) x = Some y -> lift (c_v c) (c_s c) b x = y).
  { intros x y V. unfold lift. destruct (v_gs (c_v c) x) as [g|] eqn:G; [|rewrite V; reflexivity].
    unfold b, model_bits, model_value. apply (vo_sg _ (b_vars _ B)) in G. rewrite G, V. reflexivity. }
  assert (Lt : forall l, istrue (c_s c) l -> lit_holds (lift (c_v c) (c_s c) b) l = true) by (intros l V; apply lh_true; apply Lf; exact V).
  assert (Q1 : forall x, In x (live (c_d c)) -> exists l, In l (s_lits (c_s c) x) /\ istrue (c_s c) l).
  { intros x Ix. destruct (complete_long _ _ _ _ x T S P H Ix) as [Q|(l & l' & Il & _ & _ & V & _)]; [exact Q|].
    exfalso. apply (Al (lit_var l)); [|exact V]. apply in_use_named. apply (proj1 (iv_used _ _ _ _ (proj1 K)) x); assumption. }
  assert (Q2 : forall l o, In o (c_bin c l) -> istrue (c_s c) (lnot l) \/ istrue (c_s c) o).
  { intros l o Io. destruct (bin_use _ _ _ _ l o (iv_used _ _ _ _ (proj1 K)) (fun l o I => proj2 (proj2 (proj2 (so_bin _ _ _ _ S l o I)))) Io) as [U1 U2].
    destruct (value_cases (c_s c) l) as [V|[V|V]].
    - right. exact (complete_bin _ _ _ _ _ _ T S P H Io V).
    - left. exact V.
    - exfalso. apply (Al (lit_var l)); [apply in_use_named; exact U1|exact V]. }
  split; [exact Q1|]. split; [exact Q2|].
  assert (Mb : exists b', agree (c_v c) b b' /\ models b' F).
  { apply (iv_comp _ _ _ _ (proj1 K)).
    - intros x [Ix _]. destruct (Q1 x Ix) as (l & Il & V). apply ch_in. exists l. split; [exact Il|apply Lt; exact V].
    - intros l o Io. apply ch_in. destruct (Q2 l o Io) as [V|V]; [exists (lnot l)|exists o]; (split; [cbn; auto|apply Lt; exact V]).
    - intros x y [V _]. apply Lf. exact V.
    - intros g y D Ug. unfold b, model_bits, model_value. destruct (v_sg (c_v c) g) as [x|] eqn:G; [|rewrite Ug; reflexivity].
      destruct (iv_unit _ _ _ _ (proj1 K) g x y G Ug) as [V _]. rewrite V. reflexivity. }
  destruct Mb as (b' & Ag & Mb). exists b'. split; [exact Ag|]. split; [exact Mb|].
  apply (iv_all _ _ _ _ (proj1 K)); [exact Mb|]. intros l I. rewrite <- (Lt l); [apply lh_ext; apply lift_agree; [apply B|exact Ag]|]. apply In_nth_error in I as (i & Hi).
  assert (Li : i < length (as_lits (c_as c))) by (apply nth_error_Some; congruence).
  destruct (nth_error (s_decs (c_s c)) i) as [p|] eqn:Ep; [|apply nth_error_None in Ep; unfold clevel in La; lia].
  apply (tk_true _ _ T). pose proof (iv_dec _ _ _ _ (proj1 K) i p Ep Li) as Q. rewrite Hi in Q. eapply nth_error_In. exact Q.
Qed.

Lemma reconstruct_spec F A c : ready F A c -> length (as_lits (c_as c)) <= clevel (c_s c) ->
  (forall x, v_gs (c_v c) x <> None -> s_val (c_s c) x <> None) ->
  spec (reconstruct_global_model c) (fun c' => inv false F A c' /\ st_sat (c_st c') = Sat /\ model_of (c_v c') F A (c_model c') /\
    as_user (c_as c') = as_user (c_as c) /\ c_v c' = c_v c /\ (clean c -> clean c') /\ covers c').
Proof.
  intros (K & H & Z) La Al. unfold reconstruct_global_model. cbv zeta.
  set (m := map _ (codes (N.to_nat (v_glen (c_v c))) 0)).
  pose proof (iv_base _ _ _ _ (proj1 K)) as B. destruct (iv_search _ _ _ _ (proj1 K)) as [T S W P].
  destruct (model_reached F A c (conj K (conj H Z)) La Al) as (_ & _ & b' & Ag & Mb & Ha).
  assert (Cl : forall n i p, nth_error (codes n i) p = if Nat.ltb p n then Some (i + N.of_nat p)%N else None).
  { induction n as [|n IHn]; intros i p; [destruct p; reflexivity|]. destruct p as [|p]; cbn [codes nth_error]; [change (Nat.ltb 0 (Datatypes.S n)) with true; cbv iota; f_equal; lia|].
    rewrite IHn. change (Nat.ltb (Datatypes.S p) (Datatypes.S n)) with (Nat.ltb p n). destruct (Nat.ltb p n); [f_equal; lia|reflexivity]. }
  assert (Len : forall n i, length (codes n i) = n) by (induction n as [|n IHn]; intros i; [reflexivity|cbn [codes length]; f_equal; apply IHn]).
  assert (Lm : length m = N.to_nat (v_glen (c_v c))) by (unfold m; rewrite map_length, Len; reflexivity).
  assert (Co : forall g, vd_deleted (v_data (c_v c) g) = false -> (g < v_glen (c_v c))%N /\ nth_error m (N.to_nat g) = Some (Some (b' g))).
  { intros g Dl. pose proof (vo_g _ (b_vars _ B) g Dl) as Lg. split; [exact Lg|].
    unfold m. rewrite nth_error_map, Cl. destruct (Nat.ltb_spec (N.to_nat g) (N.to_nat (v_glen (c_v c)))); [|lia].
    cbn [option_map]. rewrite N2Nat.id. cbn [N.add]. rewrite Dl, (Ag g Dl). unfold model_bits, model_value. destruct (v_sg (c_v c) g) as [x|] eqn:G; [|reflexivity].
    destruct (s_val (c_s c) x) as [y|] eqn:V; [reflexivity|]. exfalso. apply (Al x); [|exact V]. apply (vo_sg _ (b_vars _ B)) in G. congruence. }
  assert (Mo : model_of (c_v c) F A m).
  { intros b2 Sy. exists b'. split; [|split; [exact Mb|exact Ha]]. intros g D. symmetry. apply (Sy g); [exact D|apply (Co g D)]. }
  assert (Cv : forall g, vd_deleted (v_data (c_v c) g) = false -> N.to_nat g < length m) by (intros g D; destruct (Co g D); lia).
  eapply (spec_bind _ _ (frame (cw_model c m))).
  - destruct (p_native (c_pf (cw_model c m))); [apply add_step_spec; discriminate|apply spec_ret; apply frame_refl].
  - intros c2 Fr. apply spec_ret. 
    assert (K2 : inv false F A c2) by (eapply inv_frame; [exact Fr|]; split; [apply core_model; apply K|apply K]).
    split; [apply inv_st; exact K2|]. split; [reflexivity|]. destruct Fr as (e & p & ->). split; [exact Mo|]. repeat split; auto.
Qed.

(** * One round of the search *)
(** [t]: the flags are clean; [z]: a stored model covers all variables; [w]: all variables have names. *)
Definition user_failed (S : problem) (U : list N) (tight : Prop) (c : ctx) : Prop :=
  unsat_with S U /\ (forall l, In l (as_user (c_as c)) -> In l U) /\ (tight -> unsat_with S (as_user (c_as c)) /\ outcome c).
Lemma failed_user S U F A t c : vars_ok (c_v c) -> ties S U F A (c_v c) -> failed_ok F A t c -> user_failed S U t c.
Proof.
  intros V (Kn & EA & Ti) (F1 & F2 & F3). split; [|split].
  - intros bu Mb Hu. apply Ti in Mb as (b & Mb & L). apply (F1 b Mb). rewrite EA. apply (glob_all _ _ _ _ L Kn). exact Hu.
  - intros l I. destruct (F2 l I) as [Nl Ig]. rewrite EA in Ig. apply in_map_iff in Ig as (a & Ea & Ia). specialize (Kn a Ia). unfold glob in Ea.
    destruct (v_gu (c_v c) (lit_var a)) as [ga|] eqn:Ga; [|congruence]. destruct (v_gu (c_v c) (lit_var l)) as [gl|] eqn:Gl; [|congruence].
    assert (Ev : ga = gl) by (rewrite <- (lo_var ga (is_positive a)), Ea; apply lo_var).
    assert (Ep : is_positive a = is_positive l) by (rewrite <- (lo_pos ga (is_positive a)), Ea; apply lo_pos). subst ga.
    apply (vo_ug _ V) in Ga, Gl. rewrite Ga in Gl. injection Gl as El. rewrite <- (lo_eta l), <- El, <- Ep, lo_eta. exact Ia.
  - intros T. destruct (F3 T) as [F4 F5]. split; [|exact F5]. intros bu Mb Hu. apply Ti in Mb as (b & Mb & L). apply (F4 b Mb). apply (glob_all _ _ _ _ L); [|exact Hu]. intros l I. apply F2. exact I.
Qed.
Definition progress (t z w : Prop) (S : problem) (U : list N) (F : problem) (A : list N) (c : ctx) : Prop :=
  base c /\ (w -> all_shown (c_v c)) /\
  match st_sat (c_st c) with
  | Unsat => s_decs (c_s c) = [] /\ (forall b, ~ models b S) /\ (t -> clean c)
  | Unknown => inv false F A c /\ ties S U F A (c_v c) /\ (t -> clean c)
  | Sat => inv false F A c /\ ties S U F A (c_v c) /\ model_of (c_v c) F A (c_model c) /\ (t -> clean c) /\ (z -> covers c)
  | UnsatAssum => inv false F A c /\ ties S U F A (c_v c) /\ unsat_with F A /\ user_failed S U t c
  end.

Lemma learned_in_use F A c vs' a' bt k n hr : inv true F A c -> conflict_at (live (c_d c)) (c_bin c) (c_s c) k ->
  analyze_conflict n hr (c_s c) (c_vs c) (c_an c) k = (vs', a', bt) -> forall x, In x (a_clause a') -> in_use (c_v c) (lit_var x).
Proof.
  intros [K _] (Ck & _) E. destruct (iv_search _ _ _ _ K) as [T S _ _]. pose proof (iv_used _ _ _ _ K) as Us.
  assert (Bu : forall l o, In o (c_bin c l) -> in_use (c_v c) (lit_var l) /\ in_use (c_v c) (lit_var o)).
  { intros l o. eapply bin_use; [exact Us|]. intros l' o' I. apply (so_bin _ _ _ _ S l' o' I). }
  eapply (analyze_conflict_vars _ _ _ _ _ _ _ _ _ (in_use (c_v c)) E).
  - apply (b_flags _ (iv_base _ _ _ _ K)).
  - intros x Ix. destruct k as [a b|y]; cbn [conflict_lits] in Ix.
    + destruct (Bu _ _ Ck) as [U1 U2]. rewrite lnot_var in U1. destruct Ix as [<-|[<-|[]]]; assumption.
    + exact (proj1 Us y x Ck Ix).
  - intros l Il x Ix. destruct (s_reason (c_s c) (lit_var l)) as [|b|y] eqn:Er; cbn [reason_lits] in Ix.
    + destruct Ix.
    + destruct Ix as [<-|[]]. destruct (Bu _ _ (so_rbin _ _ _ _ S _ _ Il Er)) as [U1 _]. rewrite lnot_var in U1. exact U1.
    + apply (proj1 Us y x (so_rlong _ _ _ _ S _ _ Il Er)). destruct (s_lits (c_s c) y); [destruct Ix|right; exact Ix].
Qed.

Lemma conflict_step_spec t z w S0 U F A fuel c : st_sat (c_st c) = Unknown -> progress t z w S0 U F A c -> spec (conflict_step fuel c) (progress t z w S0 U F A).
Proof.
  intros St (B & Vi & Pr). rewrite St in Pr. destruct Pr as (K & Bd & Cl). unfold conflict_step.
  eapply spec_bind; [apply (find_conflict_spec F A fuel c K)|]. intros [c1 [| |k]] Q.
  - (* model *)
    destruct Q as (R & La & Kp & Al). eapply spec_weaken; [apply (reconstruct_spec F A c1 R La Al)|].
    intros c2 (K2 & S2 & M2 & U2 & V2 & C2 & L2). split; [apply K2|]. split; [rewrite V2; intros Y; apply Kp; auto|]. rewrite S2. split; [exact K2|]. split; [|split; [exact M2|split; [|intros _; exact L2]]].
    + eapply ties_gu; [|exact Bd]. rewrite V2. apply Kp.
    + intros T. apply C2. apply Kp. apply Cl. exact T.
  - (* assumptions *)
    destruct Q as (K1 & (S1 & S2 & S3 & S4) & Fo). apply spec_ret. pose proof (ties_gu _ _ _ _ _ _ S3 Bd) as Bd1.
    pose proof (failed_user _ _ _ _ _ _ (b_vars _ (iv_base _ _ _ _ (proj1 K1))) Bd1 Fo) as (F1 & F2 & F3).
    split; [apply inv_st with (st := c_st (set_sat c1 UnsatAssum)) in K1; apply K1|]. split; [auto|].
    change (st_sat (c_st (set_sat c1 UnsatAssum))) with UnsatAssum. cbv iota. split; [apply inv_st; exact K1|]. split; [exact Bd1|]. split; [apply Fo|].
    split; [exact F1|]. split; [exact F2|]. intros T. apply F3. apply Cl. exact T.
  - (* conflict *)
    destruct Q as [Kp [(D0 & B1 & NM)|(Lv & K1 & Ck)]].
    + destruct (analyze_conflict (v_slen (c_v c1)) (p_native (c_pf c1)) (c_s c1) (c_vs c1) (c_an c1) k) as [[vs a] bt] eqn:Ea.
      unfold analyze_conflict in Ea. unfold clevel in Ea. rewrite D0 in Ea. cbn [length Nat.eqb] in Ea. injection Ea as Ev Ea Eb.
      destruct (b_flags _ B1) as (F1 & F2 & F3).
      assert (Qa : a_clause a = [] /\ a_involved a = [] /\ a_flags a = a_flags (c_an c1) /\ a_clean a = a_clean (c_an c1) /\ a_fuel a = a_fuel (c_an c1)).
      { rewrite <- Ea. destruct (p_native (c_pf c1)); repeat split. }
      destruct Qa as (A1 & A2 & A3 & A4 & A5). rewrite A5, F3. cbn [cw_an cw_vs c_s c_d c_tmp]. rewrite A2. cbn [bump_clauses]. rewrite A1.
      cbn [length Nat.ltb Nat.leb]. 
      match goal with |- spec (bind (add_step _ _ ?X) _) _ => set (c2 := X) end.
      assert (B2 : base c2 /\ s_decs (c_s c2) = [] /\ c_v c2 = c_v c1 /\ c_tmp c2 = c_tmp c1).
      { unfold c2, backtrack_to, backtrack. cbn [cw_tmp cw_d cw_an cw_vs c_s c_vs]. rewrite D0. cbn [length]. rewrite <- Eb. cbn [Nat.leb]. 
        split; [|repeat split; exact D0]. destruct B1. constructor; try assumption.
        - cbn. rewrite <- Ev. assumption.
        - cbn. rewrite <- Ev. assumption.
        - cbn. rewrite A3, A4, A5. auto. }
      destruct B2 as (B2 & D2 & V2 & T2).
      eapply spec_bind; [apply add_step_spec; intros _ x []|]. intros c3 F3'. apply spec_ret. 
      pose proof (base_frame _ _ F3' B2) as B3. split; [destruct B3; constructor; assumption|]. cbn [set_sat cw_st c_st st_sat c_s c_v].
      destruct F3' as (e & p & ->). split; [change (w -> all_shown (c_v c2)); rewrite V2; intros Y; apply Kp; auto|]. split; [exact D2|]. split; [eapply tied_refuted; [apply Bd|exact NM]|]. intros T x. change (c_tmp c2 x = false). rewrite T2. apply Kp. apply Cl. exact T.
    + destruct (analyze_conflict (v_slen (c_v c1)) (p_native (c_pf c1)) (c_s c1) (c_vs c1) (c_an c1) k) as [[vs a] bt] eqn:Ea.
      destruct (iv_search _ _ _ _ (proj1 K1)) as [T S _ _]. pose proof (iv_base _ _ _ _ (proj1 K1)) as B1. destruct (b_flags _ B1) as (F1 & F2 & F3).
      destruct (analyze_conflict_spec _ _ _ _ _ _ _ _ _ _ _ T S Lv Ck F1 F2 Ea) as (Le & G1 & G2 & G3 & G4).
      pose proof (analyze_conflict_heap _ _ _ _ _ _ _ _ _ (b_wf _ B1) Ea) as Sh. pose proof (learned_in_use _ _ _ _ _ _ _ _ _ K1 Ck Ea) as Us.
      rewrite G3, F3. cbn [cw_an cw_vs c_s c_d c_tmp]. destruct (bump_clauses (c_s c1) (a_involved a) (c_d c1) (c_tmp c1)) as [d flags] eqn:Eb.
      destruct (bump_clauses_spec _ _ _ _ _ _ (iv_db _ _ _ _ (proj1 K1)) G4 Eb) as (Db & Kd & Cf).
      destruct (decay_activities_spec _ _ Db) as (Db2 & Kd2 & _). pose proof (keeps_trans _ _ _ Kd Kd2) as Kd3.
      set (c2 := cw_tmp (cw_d (cw_an (cw_vs c1 vs) a) (decay_clause_activities d)) flags).
      assert (K2 : inv true F A c2).
      { split; [|apply K1]. unfold c2. apply core_tmp. apply core_d; [|exact Db2|apply Kd3|apply Kd3].
        apply core_an; [|exact G1|exact G2|rewrite G3; exact F3]. apply core_vs; [apply K1|exact Sh]. }
      assert (Le2 : learned (live (c_d c2)) (c_bin c2) (c_s c2) (a_clause a) bt) by (change (c_d c2) with (decay_clause_activities d); rewrite (kp_live _ _ Kd3); exact Le).
      assert (Us2 : forall x, In x (a_clause a) -> in_use (c_v c2) (lit_var x)) by exact Us.
      destruct (backtrack_inv true F A c2 bt K2 (fun _ => le_bt _ _ _ _ _ Le2)) as (_ & _ & _ & Ev & _ & _ & Eas & Est & _).
      eapply spec_bind; [apply add_step_spec; intros _ x I; rewrite Ev; apply in_use_named; apply Us2; exact I|].
      intros c3 Fr. eapply spec_weaken; [apply (learn_spec F A c2 bt (a_clause a) c3 K2 Le2 Us2 Fr)|]. intros c4 [K4 Kp4].
      assert (Kp3 : kept c c3).
      { eapply kept_trans; [exact Kp|]. eapply kept_trans; [|apply kept_frame; exact Fr].
        assert (Em : c_model (backtrack_to bt c2) = c_model c2 /\ c_tmp (backtrack_to bt c2) = c_tmp c2) by (unfold backtrack_to; destruct (backtrack _ _ _); split; reflexivity).
        constructor.
        - rewrite Est. reflexivity.
        - rewrite (proj1 Em). reflexivity.
        - rewrite Eas. reflexivity.
        - rewrite Ev. reflexivity.
        - intros C1 x. rewrite (proj2 Em). apply Cf. exact C1.
        - rewrite Ev. auto. }
      pose proof (kept_trans _ _ _ Kp3 Kp4) as Kp5. split; [apply K4|]. split; [intros Y; apply Kp5; auto|]. rewrite (ke_sat _ _ Kp5), St. split; [exact K4|].
      split; [eapply ties_gu; [apply Kp5|exact Bd]|]. intros Tt. apply Kp5. apply Cl. exact Tt.
Qed.

(** * Clause database maintenance *)
Lemma inv_reduced F A c s' d' out : inv false F A c -> db_ok (s_lits (c_s c)) d' -> same_but_wen (c_s c) s' ->
  (out <> [] -> s_wen s' = false) -> reduced (c_s c) (c_d c) d' out -> inv false F A (cw_d (cw_s c s') d').
Proof.
  intros [K Lo] Db (w & -> & Hw) Wo R. cbn [with_wen s_wen] in Wo. pose proof (rd_live _ _ _ _ R) as Lv.
  assert (Sub : forall x, In x (live d') -> In x (live (c_d c))) by (intros x I; apply Lv in I; tauto).
  destruct (iv_search _ _ _ _ K) as [T S W P]. split; [|exact Lo]. pose proof K as K0. destruct K. constructor; cbn [cw_d cw_s c_s c_d c_bin c_v c_vs c_as]; auto.
  - destruct iv_base. constructor; auto.
  - constructor.
    + destruct T. constructor; assumption.
    + destruct S. constructor; auto.
      * rewrite (rd_live_eq _ _ _ _ R). apply NoDup_filter. exact so_nodup.
      * intros c0 I. exact (so_clause c0 (Sub c0 I)).
      * intros c0 x I. exact (so_on_long c0 x (Sub c0 I)).
      * intros l y Il Er. cbn [with_wen s_trail s_reason] in Il, Er. apply Lv. split; [exact (so_rlong l y Il Er)|]. intros Io.
        apply In_nth_error in Il as (p & Hp). pose proof (tk_reason _ _ T _ _ Hp) as Q. unfold reason_ok in Q. rewrite Er in Q. destruct Q as (_ & rest & El & _).
        exact (rd_reason _ _ _ _ R y Io l rest El (tk_true _ _ T _ (nth_error_In _ _ Hp)) Er).
    + intros E. destruct out as [|y out]; [|rewrite (Wo ltac:(discriminate)) in E; discriminate].
      assert (Q : live d' = live (c_d c)) by (rewrite (rd_live_eq _ _ _ _ R); apply filter_true). rewrite Q.
      eapply watch_ok_iff; [| | |apply W; apply Hw; exact E]; reflexivity || tauto.
    + destruct P as [P1 P2]. constructor; [|exact P2]. intros y c0 c1 r w0 Iy. apply P1. apply Sub. exact Iy.
  - destruct iv_used as [U1 U2]. split; [|exact U2]. intros y x Iy. apply U1. apply Sub. exact Iy.
  - intros b Mb. destruct (iv_sound b Mb) as ((S1 & S2) & S3 & S4). split; [split; [intros y Iy; apply S1; apply Sub; exact Iy|exact S2]|]. split; [exact S3|exact S4].
  - intros b S1 S2 S3 S4. apply iv_comp; auto. intros y [Iy Ty]. apply S1. split; [|apply (rd_irred _ _ _ _ R); assumption].
    apply Lv. split; [exact Iy|]. intros Io. destruct (rd_out _ _ _ _ R _ Io) as [_ Q]. congruence.
Qed.

Lemma inv_moved F A c s' d' ρ : inv false F A c -> moved ρ (c_s c) (c_d c) s' d' -> (s' = c_s c /\ d' = c_d c \/ s_wen s' = false) ->
  db_ok (s_lits s') d' -> inv false F A (cw_d (cw_s c s') d').
Proof.
  intros [K Lo] M [[-> ->]|Wn] Db.
  { split; [|exact Lo]. destruct K. constructor; auto. destruct iv_base. constructor; assumption. }
  assert (Es : exists r lits, s' = with_wen (with_lits (with_reason (c_s c) r) lits) false).
  { destruct (mv_search _ _ _ _ _ M) as [E|E]; [exists (s_reason s'), (s_lits s'); exact E|].
    exists (s_reason (c_s c)), (s_lits (c_s c)). rewrite E in Wn |- *. clear -Wn. destruct (c_s c). cbn in *. subst. reflexivity. }
  destruct Es as (r & lits & E). pose proof (mv_live _ _ _ _ _ M) as Lv. pose proof (mv_lits _ _ _ _ _ M) as Li.
  pose proof (mv_reason _ _ _ _ _ M) as Mr. pose proof (mv_off _ _ _ _ _ M) as Mo.
  assert (Ht : forall y, In y (live (c_d c)) -> htier d' (ρ y) = htier (c_d c) y) by (intros y I; unfold htier; rewrite (mv_hdr _ _ _ _ _ M y I); reflexivity).
  rewrite E in *. cbn [with_wen with_lits with_reason s_reason s_lits s_trail s_wen] in Li, Mr, Mo, Db. clear E Wn.
  assert (Ex : forall y, In y (live d') -> exists x, y = ρ x /\ In x (live (c_d c))) by (intros y I; rewrite Lv in I; apply in_map_iff in I as (x & <- & I); eauto).
  destruct (iv_search _ _ _ _ K) as [T S W P]. split.
  2: { unfold low in *. cbn [cw_d cw_s c_s with_wen with_lits with_reason s_decs s_head s_trail s_reason]. destruct (s_decs (c_s c)); [|exact Lo].
       split; [apply Lo|]. intros l I. rewrite (Mr l I), (proj2 Lo l I). reflexivity. }
  pose proof K as K0. destruct K.
  constructor; cbn [cw_d cw_s c_s c_d c_bin c_v c_vs c_as with_wen with_lits with_reason s_reason s_lits s_trail s_wen s_val]; auto.
  - destruct iv_base. constructor; auto.
  - constructor.
    + pose proof T as T0. destruct T. constructor; auto.
      * intros v V. cbn [with_wen with_lits with_reason s_reason s_depth s_trail s_val] in *.
        destruct (in_dec N.eq_dec v (map lit_var (s_trail (c_s c)))) as [I|NI]; [left; exact I|]. destruct (tk_assigned v V) as [I|[D R]]; [left; exact I|right].
        split; [exact D|]. rewrite (Mo v NI). exact R.
      * intros p l Hp. cbn [with_wen with_lits with_reason s_trail] in Hp. specialize (tk_reason p l Hp). unfold reason_ok in *. cbn [with_wen with_lits with_reason s_reason s_decs s_lits].
        rewrite (Mr l (nth_error_In _ _ Hp)). pose proof (so_rlong _ _ _ _ S l) as Rl. destruct (s_reason (c_s c) (lit_var l)) as [|b|y]; cbn [move]; [exact tk_reason|exact tk_reason|].
        destruct tk_reason as (Q1 & rest & Q2 & Q3). split; [exact Q1|]. exists rest. split; [|exact Q3]. rewrite Li; [exact Q2|]. apply Rl; [eapply nth_error_In; exact Hp|reflexivity].
    + pose proof S as S0. destruct S. constructor; auto.
      * rewrite Lv. apply NoDup_map_inj; [|exact so_nodup]. intros a b I1 I2. apply (mv_inj _ _ _ _ _ M a b I1 I2).
      * intros y Iy. destruct (Ex y Iy) as (x & -> & I). cbn [with_wen with_lits s_lits]. rewrite Li by exact I. apply so_clause. exact I.
      * intros y x Iy. destruct (Ex y Iy) as (z & -> & I). cbn [with_wen with_lits s_lits]. rewrite Li by exact I. apply so_on_long. exact I.
      * intros l y Il Er. cbn [with_wen with_lits with_reason s_reason s_trail] in Il, Er. rewrite (Mr l Il) in Er.
        destruct (s_reason (c_s c) (lit_var l)) as [|b|x] eqn:E0; try discriminate. injection Er as <-. rewrite Lv. apply in_map. exact (so_rlong l x Il E0).
      * intros l b Il Er. cbn [with_wen with_lits with_reason s_reason s_trail] in Il, Er. rewrite (Mr l Il) in Er. apply so_rbin; [exact Il|].
        destruct (s_reason (c_s c) (lit_var l)); try discriminate. exact Er.
    + cbn [with_wen s_wen]. discriminate.
    + destruct P as [P1 P2]. constructor; [|exact P2]. intros y c0 c1 r0 w Iy. destruct (Ex y Iy) as (x & -> & I). cbn [with_wen with_lits with_reason s_lits s_level].
      rewrite Li by exact I. intros E1 E2 E3. destruct (P1 x c0 c1 r0 w I E1 E2 E3) as [[]|Q]. right. exact Q.
  - destruct iv_used as [U1 U2]. split; [|exact U2]. intros y x Iy. destruct (Ex y Iy) as (z & -> & I). rewrite Li by exact I. apply U1. exact I.
  - intros b Mb. destruct (iv_sound b Mb) as ((S1 & S2) & S3 & S4). split; [split|split; [exact S3|exact S4]].
    + intros y Iy. destruct (Ex y Iy) as (x & -> & I). cbn [with_wen with_lits s_lits]. rewrite Li by exact I. apply S1. exact I.
    + exact S2.
  - intros b S1 S2 S3 S4. apply iv_comp; auto. intros y [Iy Ty]. specialize (S1 (ρ y)). cbn [with_wen with_lits s_lits] in S1. rewrite Li in S1 by exact Iy. apply S1.
    split; [rewrite Lv; apply in_map; exact Iy|rewrite Ht by exact Iy; exact Ty].
Qed.

(** * Solving *)
Lemma schedule_step_spec t z w S0 U F A fuel c : progress t z w S0 U F A c -> spec (schedule_step fuel c) (fun '(c', more) => progress t z w S0 U F A c' /\
  (more = false -> st_sat (c_st c') <> Unknown \/ st_error (c_st c') <> None)).
Proof.
  intros Pr. unfold schedule_step.
  destruct (st_sat (c_st c)) eqn:St; try (apply spec_ret; split; [exact Pr|intros _; left; congruence]).
  destruct (st_error (c_st c)) as [e|] eqn:Er; [apply spec_ret; split; [exact Pr|intros _; right; congruence]|]. cbv zeta.
  destruct Pr as (B & Vi & Pr). rewrite St in Pr. destruct Pr as (K & Bd & Cl).
  assert (Ks : forall c1, st_sat (c_st c1) = Unknown -> inv false F A c1 -> c_v c1 = c_v c -> c_tmp c1 = c_tmp c -> progress t z w S0 U F A c1).
  { intros c1 S1 K1 V1 T1. split; [apply K1|]. split; [rewrite V1; exact Vi|]. rewrite S1. split; [exact K1|]. split; [eapply ties_gu; [rewrite V1; reflexivity|eassumption]|]. intros H x. rewrite T1. apply Cl. exact H. }
  match goal with |- context [reduce_locals (c_s ?X) _] => set (c1 := X) end.
  assert (K1 : inv false F A c1 /\ c_st c1 = c_st c /\ c_v c1 = c_v c /\ c_tmp c1 = c_tmp c).
  { unfold c1. destruct (_ =? _)%N; [|split; [exact K|auto]]. destruct (luby_advance _) as [x lb].
    destruct (backtrack_inv false F A c (as_levels (c_as c)) K) as (K1 & _ & _ & Ev & _ & _ & _ & Es & _); [discriminate|].
    assert (Et : c_tmp (restart c) = c_tmp c) by (unfold restart, backtrack_to; destruct (backtrack _ _ _); reflexivity).
    split; [split; [apply core_sc; apply K1|apply K1]|]. split; [exact Es|]. split; [exact Ev|exact Et]. }
  destruct K1 as (K1 & S1 & V1 & T1). clearbody c1.
  eapply (spec_bind _ _ (fun c2 => inv false F A c2 /\ st_sat (c_st c2) = Unknown /\ c_v c2 = c_v c /\ c_tmp c2 = c_tmp c)).
  { destruct (_ =? _)%N; [|apply spec_ret; rewrite S1; auto].
    destruct (reduce_locals (c_s c1) (c_d c1)) as [[s d] out] eqn:Er2.
    destruct (reduce_locals_spec _ _ _ _ _ (iv_db _ _ _ _ (proj1 K1)) Er2) as (Db & Sw & Wo & R & _).
    pose proof (inv_reduced F A c1 s d out K1 Db Sw Wo R) as K2.
    eapply spec_weaken; [apply add_steps_spec|].
    - intros _ x Ix. apply in_map_iff in Ix as (y & <- & Iy). cbn [step_lits]. intros l Il. cbn [cw_d cw_s c_v].
      apply in_use_named. apply (proj1 (iv_used _ _ _ _ (proj1 K1)) y); [apply (rd_out _ _ _ _ R); exact Iy|]. destruct Sw as (w0 & -> & _). exact Il.
    - intros c2 Fr. split; [eapply inv_frame; eassumption|]. destruct Fr as (e & p & ->). cbn. rewrite S1. auto. }
  intros c2 (K2 & S2 & V2 & T2).
  match goal with |- context [collect_garbage (c_s ?X) _] => set (c3 := X) end.
  assert (K3 : inv false F A c3 /\ c_st c3 = c_st c2 /\ c_v c3 = c_v c2 /\ c_tmp c3 = c_tmp c2).
  { unfold c3. destruct (_ =? _)%N; [|split; [exact K2|auto]].
    destruct (reduce_mids_spec (c_s c2) (c_d c2) (iv_db _ _ _ _ (proj1 K2))) as (Db & R & Lv & _).
    split; [split; [|apply K2]|repeat split]. apply core_d; [apply K2|exact Db|exact Lv|apply (rd_irred _ _ _ _ R)]. }
  destruct K3 as (K3 & S3 & V3 & T3). clearbody c3. destruct (iv_search _ _ _ _ (proj1 K3)) as [T S W P].
  destruct (collect_spec (c_s c3) (c_d c3) (iv_db _ _ _ _ (proj1 K3)) (tk_nodup _ _ T)) as (s' & d' & ρ & Ec & M & Or & Db).
  { intros l y Il Ey. split; [exact (so_rlong _ _ _ _ S l y Il Ey)|]. apply In_nth_error in Il as (p & Hp). pose proof (tk_reason _ _ T _ _ Hp) as Q.
    unfold reason_ok in Q. rewrite Ey in Q. destruct Q as (_ & rest & Q & _). exists rest. exact Q. }
  rewrite Ec. destruct (d_full d') eqn:Fu; [exact Logic.I|].
  pose proof (inv_moved F A c3 s' d' ρ K3 M Or (Db eq_refl)) as K4.
  eapply spec_bind; [apply (conflict_step_spec t z w S0 U F A fuel)|].
  - cbn [cw_d cw_s c_st]. rewrite S3. exact S2.
  - apply Ks; [cbn [cw_d cw_s c_st]; rewrite S3; exact S2|exact K4|cbn [cw_d cw_s c_v]; congruence|cbn [cw_d cw_s c_tmp]; congruence].
  - intros c5 P5. apply spec_ret. split; [|discriminate]. destruct P5 as (B5 & W5 & P5). cbn [cw_sc].
    split; [destruct B5; constructor; assumption|]. split; [exact W5|]. change (st_sat (c_st (cw_sc c5 _))) with (st_sat (c_st c5)).
    cbn [cw_sc c_st c_s c_v c_model c_as]. destruct (st_sat (c_st c5)); try exact P5.
    + destruct P5 as ([K5 L5] & Q). split; [split; [apply core_sc; exact K5|exact L5]|exact Q].
    + destruct P5 as ([K5 L5] & Q). split; [split; [apply core_sc; exact K5|exact L5]|exact Q].
    + destruct P5 as ([K5 L5] & Q). split; [split; [apply core_sc; exact K5|exact L5]|exact Q].
Qed.
