(** The search, followed by the checker: units found by propagation, failed assumptions, learned clauses,
    models and the reduction of the clause database.  Every step that the solver writes is valid. *)
From Coq Require Import Lia Arith PeanoNat Permutation Sorted ZArith ZifyBool ZifyNat ZifyN.
From Verif Require Import Spec Lit LitProofs BinFormat Hash HashProofs SortedLits F32 Vsids VsidsProofs VsidsWf Luby Config Search SearchBase Propagate P_Search ClauseDb DbProofs
  Analyze AnalyzeProofs Rup AnalyzeHints P_Hints SolverCtx CtxFrame VarsProofs Solver SolverInv SolverSimplify SolverAdd SolverLoad SolverFailed FailedHints SolverSearch SolverSolve CtxEvents P_Proof
  ProofLog ProofSim ProofDerive ProofUnits ProofLoad.
From Verif Require P_Db SortedLitsProofs Checker CheckerSteps CheckerRun CheckerSafe CheckerNames CheckerUsers CheckerCount CheckerValid.
Local Open Scope N_scope.

Lemma live_checker c P : live c P -> live c (fun es => p_checker (c_pf c) = true /\ P es).
Proof. intros [J H]. split; [exact J|]. intros C F. destruct (H C F) as (H1 & H2 & H3). auto. Qed.
Lemma checker_native p : p_checker p = true -> p_native p = true.
Proof. intros E. unfold p_native. rewrite E. reflexivity. Qed.
Lemma orel_as A B c es : (forall l, In l B <-> In l A) -> orel B c es -> orel A c es.
Proof. intros E [H1 H2]. split; [exact H1|]. eapply db_ext; [apply Permutation_refl|reflexivity|exact E|exact H2]. Qed.

(** * Propagation *)
Lemma propagate_extends F A c s r : core false F A c -> propagate (v_slen (c_v c)) (ClauseDb.live (c_d c)) (c_bin c) (c_s c) = (s, r) ->
  Propagate.extends (with_wen (c_s c) true) s /\ trail_ok (v_slen (c_v c)) s /\ trail_ok (v_slen (c_v c)) (with_wen (c_s c) true).
Proof.
  intros K E. destruct (iv_search _ _ _ _ K) as [T S W P].
  destruct (propagate_spec _ _ _ _ _ _ T S W P E) as (T' & S' & W' & We' & (w & b0 & Ex) & R).
  split; [exact (watchless_extends _ _ _ _ Ex We')|]. split; [exact T'|]. destruct T; constructor; assumption.
Qed.
Lemma propagate_live F A B c s r : inv false F A c -> propagate (v_slen (c_v c)) (ClauseDb.live (c_d c)) (c_bin c) (c_s c) = (s, r) -> live c (orel B c) ->
  if Nat.eqb (clevel (c_s c)) 0 then live (cw_s c s) (waiting B (cw_s c s)) else live (cw_s c s) (orel B (cw_s c s)).
Proof.
  intros [K Lo] E L. destruct (propagate_extends _ _ _ _ _ K E) as (X & T' & T0). pose proof (in_trail _ _ _ _ _ (iv_search _ _ _ _ K)) as T.
  assert (En : entries (c_v c) s (c_d c) (c_bin c) = entries (c_v c) (c_s c) (c_d c) (c_bin c)) by (apply entries_perm; exact (Propagate.ex_lits _ _ X)).
  destruct (Nat.eqb_spec (clevel (c_s c)) 0) as [Z|NZ].
  - assert (D : s_decs (c_s c) = []) by (apply length_zero_iff_nil; exact Z). unfold low in Lo. rewrite D in Lo. destruct Lo as [_ Lo].
    eapply live_same; [| |eapply live_weaken; [exact L|]]; [reflexivity|reflexivity|]. intros es _ [H1 H2]. split; [exact H1|]. cbn [cw_s c_v c_s c_d c_bin].
    rewrite En. eapply db_ext; [apply Permutation_refl| |reflexivity|exact H2]. intros l. unfold gfix, pfix. destruct (v_sg (c_v c) (lit_var l)) as [x|]; [|reflexivity].
    split.
    + intros Fx. split; [eapply extends_fixv; [exact T0|exact T'|exact X|exact Fx]|]. destruct Fx as [V _]. rewrite (ex_reason _ _ X) by (cbn [with_wen s_val]; congruence).
      cbn [with_wen s_reason]. destruct (tk_assigned _ _ T x ltac:(congruence)) as [I|[_ I]]; [|exact I]. apply in_map_iff in I as (y & <- & I). apply Lo. exact I.
    + intros [[V _] R]. destruct (s_val (c_s c) x) as [y|] eqn:V0.
      * rewrite (ex_val _ _ X) in V by (cbn [with_wen s_val]; congruence). cbn [with_wen s_val] in V. eapply assigned_fixed; [exact T|exact D|congruence].
      * exfalso. apply (ex_unit _ _ X x); [exact V0|congruence|exact R].
  - eapply live_same; [| |eapply live_weaken; [exact L|]]; [reflexivity|reflexivity|]. intros es _ [H1 H2]. split; [exact H1|]. cbn [cw_s c_v c_s c_d c_bin].
    rewrite En. eapply db_ext; [apply Permutation_refl| |reflexivity|exact H2]. apply gfix_same. intros x y. split.
    + intros Fx. exact (extends_fixv_rev _ _ _ _ _ T0 T' X ltac:(change (clevel (with_wen (c_s c) true)) with (clevel (c_s c)); lia) Fx).
    + intros Fx. eapply extends_fixv; [exact T0|exact T'|exact X|exact Fx].
Qed.

(** * Failed assumptions *)
Lemma derivable_ext es d l l' h : (forall x, In x l <-> In x l') -> CheckerValid.derivable es d l h -> CheckerValid.derivable es d l' h.
Proof.
  intros E [(x & I1 & I2)|(cs & K & H1 & H2 & H3 & H4)]; [left; exists x; split; [apply E; exact I1|exact I2]|].
  right. exists cs, K. split; [exact H1|]. split; [exact H2|]. split; [|exact H4]. intros x I. destruct (H3 x I) as [Q|Q]; [left; apply E; exact Q|right; exact Q].
Qed.
Lemma taut_pair l x : In x l -> In (lnot x) l -> CheckerSteps.taut l = true.
Proof. intros I1 I2. apply SortedLitsProofs.canonical_taut. exists x. split; assumption. Qed.

Lemma fail_sim F A c a : ready F A c -> nth_error (as_lits (c_as c)) (clevel (c_s c)) = Some a -> isfalse (c_s c) a -> clean c -> live c (orel A c) ->
  csim (analyze_assumption_conflict a c) (fun c' => live c' (orel A c')).
Proof.
  intros (K & H & Z) Ha Fa Cl L. unfold analyze_assumption_conflict.
  destruct (failed_core_of (p_native (c_pf c)) (c_s c) (c_tmp c) a) as [[flags core_] hashes] eqn:Ec.
  assert (Lk : (clevel (c_s c) < length (as_lits (c_as c)))%nat) by (apply nth_error_Some; congruence).
  destruct (iv_search _ _ _ _ (proj1 K)) as [T S _ _]. pose proof (iv_base _ _ _ _ (proj1 K)) as B. pose proof (b_vars _ B) as OK.
  assert (Sub : forall x, In x core_ -> In x (as_lits (c_as c))).
  { intros x I. destruct (failed_core_in _ _ _ _ _ _ _ _ T Ec x I) as [->|(p & Ip & Hp)]; [eapply nth_error_In; exact Ha|].
    destruct (dec_assumption F A c p x K ltac:(lia) Ip Hp) as (i & _ & Hi). eapply nth_error_In. exact Hi. }
  assert (NmA : forall x, In x (as_lits (c_as c)) -> exists g, v_gs (c_v c) (lit_var x) = Some g) by (intros x I; destruct (b_as _ B x I) as (g & G & _); eauto).
  destruct (users_of_spec (c_v c) core_ OK) as (us & Eu & Ru).
  { intros x I. destruct (b_as _ B x (Sub x I)) as (g & G & Q). exists g. split; [exact G|]. apply (b_shown _ B); [|exact Q].
    apply (vo_used _ OK g (lit_var x)). apply (vo_sg _ OK). exact G. }
  rewrite Eu. cbn [bind]. set (c1 := cw_tmp (cw_as c (Assum (as_lits (c_as c)) core_ us (as_levels (c_as c)) hashes)) flags).
  assert (Sh2 : p_native (c_pf c) = true -> forall es, fits es -> orel A c es ->
     CheckerSteps.taut (gls (c_v c) core_) = true \/ CheckerValid.derivable es (db_after es) (map lnot (canon (gls (c_v c) core_))) hashes).
  { destruct (in_dec N.eq_dec (lit_var a) (map lit_var (s_trail (c_s c)))) as [I|NI].
    - assert (Lv : (0 < clevel (c_s c))%nat).
      { destruct (s_decs (c_s c)) eqn:D; [rewrite (Z eq_refl) in I; destruct I|]. unfold clevel. rewrite D. cbn. lia. }
      assert (Low : forall l, In l (s_trail (c_s c)) -> s_level (c_s c) (lit_var l) <> 0%nat).
      { intros l Il. apply In_nth_error in Il as (p & Hp). rewrite (tk_level _ _ T _ _ Hp). destruct K as [_ Lo]. unfold low in Lo. unfold clevel in Lv.
        destruct (s_decs (c_s c)) as [|q ds]; [cbn in Lv; lia|]. subst q. cbn. lia. }
      intros Na es FT [R1 R2]. rewrite Na in Ec. destruct (failed_hints _ _ _ _ _ _ _ _ _ T S Fa I Cl Ec) as [_ (cs & Eh & St & [Q|[[Q1 Q2]|Q]])].
      * left. assert (Ia : In a core_).
        { unfold failed_core_of in Ec. destruct (failed_loop _ _ _ _ _ _ _) as [[f co] h'] eqn:El. injection Ec as <- <- <-. eapply failed_loop_keep; [exact El|left; reflexivity]. }
        apply (taut_pair _ (gl (c_v c) a)); [apply in_map; exact Ia|rewrite <- gl_not; apply in_map; exact Q].
      * exfalso. apply (Low _ Q1). rewrite lnot_var. exact Q2.
      * right. apply (derivable_ext es (db_after es) (canon (gls (c_v c) (map lnot core_)))).
        { intros x. rewrite canon_in. unfold gls. rewrite map_map, !in_map_iff. split.
          - intros (y & <- & Iy). exists (gl (c_v c) y). split; [symmetry; apply gl_not|]. apply canon_in. apply in_map. exact Iy.
          - intros (y & <- & Iy). apply (proj1 (canon_in _ _)) in Iy. apply in_map_iff in Iy as (w & <- & Iw). exists w. split; [apply gl_not|exact Iw]. }
        eapply (derive _ _ _ _ _ _ _ cs _ OK R1 FT R2); [|exact Eh|exact Q|].
        -- intros D Ic. eapply core_used; [apply K|apply St; exact Ic].
        -- intros x Ix. apply in_app_or in Ix as [Ix|Ix]; [left; apply in_map; exact Ix|]. apply filter_In in Ix as [I1 I2]. exfalso. apply (Low _ I1). apply Nat.eqb_eq. exact I2.
    - unfold failed_core_of in Ec. rewrite failed_loop_off in Ec.
      2: { intros l Il. apply in_rev in Il. unfold upd. destruct (N.eqb_spec (lit_var l) (lit_var a)) as [E|NE]; [|apply Cl]. exfalso. apply NI. rewrite <- E. apply in_map. exact Il. }
      injection Ec as <- <- <-.
      intros _ es FT [R1 R2]. right. left. exists (lnot (gl (c_v c) a)). split; [apply in_map; apply canon_in; left; reflexivity|].
      apply (dr_units _ _ _ _ R2). rewrite <- gl_not. apply gfix_gl; [exact OK|rewrite lnot_var; destruct (NmA a (nth_error_In _ _ Ha)) as (g & ->); discriminate|].
      split; [|left; rewrite lnot_var; exact NI]. exact Fa. }
  assert (L1 : live c1 (fun es => (p_checker (c_pf c) = true /\ fits es) /\ orel A c es)).
  { eapply live_same; [| |eapply live_weaken; [apply live_checker; exact L|]]; [reflexivity|reflexivity|]. intros es FT [Q1 Q2]. auto. }
  eapply csim_weaken; [eapply (step_live true (FailedAssumptions core_ hashes) c1 _ (orel A c1) L1)|].
  - intros es [[Ck FT] R] s' FT'. cbv zeta in s'. subst s'. unfold gstep. change (c_v c1) with (c_v c). split.
    + split.
      * intros y Iy. apply in_map_iff in Iy as (x & <- & Ix). apply (dr_as _ _ _ _ (proj2 R)). destruct (NmA x (Sub x Ix)) as (g & G).
        unfold gl. rewrite G. exact (iv_in _ _ _ _ (proj1 K) _ _ (Sub _ Ix) G).
      * apply Sh2; [apply checker_native; exact Ck|exact FT|exact R].
    + destruct R as [R1 R2]. split; [apply names_plain; [exact Logic.I|exact R1]|apply db_silent; [exact Logic.I|exact R2]].
  - intros c2 [Fr L2]. eapply live_weaken; [exact L2|]. intros es _ R. apply (orel_frame A c1 c2 es Fr). exact R.
Qed.

(** * Decisions *)
Lemma decide_live F A B c l vs : inv false F A c -> s_val (c_s c) (lit_var l) = None -> live c (orel B c) ->
  live (cw_vs (cw_s c (decide (c_s c) l)) vs) (orel B (cw_vs (cw_s c (decide (c_s c) l)) vs)).
Proof.
  intros K V L. pose proof (in_trail _ _ _ _ _ (iv_search _ _ _ _ (proj1 K))) as T.
  eapply live_same; [| |eapply live_weaken; [exact L|]]; [reflexivity|reflexivity|]. intros es _ R.
  eapply orel_fixed; [| | | | |exact R]; try reflexivity. apply (fixv_decide _ _ _ T V).
Qed.
Lemma enqueue_loop_sim F A : forall fuel c, ready F A c -> clean c -> live c (orel A c) ->
  csim (enqueue_loop fuel c) (fun '(c', e) => live c' (orel A c')).
Proof.
  induction fuel as [|fuel IH]; intros c R Cl L; cbn [enqueue_loop]; destruct (nth_error (as_lits (c_as c)) (clevel (c_s c))) as [a|] eqn:Ha.
  2,4: exact L.
  all: destruct (lfalse (c_s c) a) eqn:Lf;
    [apply lfalse_iff in Lf; eapply csim_bind; [apply (fail_sim F A c a R Ha Lf Cl L)|]; intros c1 Q1; exact Q1|].
  all: destruct (ltrue (c_s c) a) eqn:Lt.
  1: exact Logic.I.
  2: { apply ltrue_iff in Lt. apply IH; [apply (drop_assumption F A c a _ R Ha Lt)|exact Cl|]. eapply live_same; [| |exact L]; reflexivity. }
  all: assert (V : s_val (c_s c) (lit_var a) = None)
    by (destruct (value_cases (c_s c) a) as [V|[V|V]]; [apply ltrue_iff in V; congruence|apply lfalse_iff in V; congruence|exact V]).
  all: eapply live_same; [| |exact (decide_live F A A c a (c_vs c) (proj1 R) V L)]; reflexivity.
Qed.
Lemma make_decision_live F A c c' b : ready F A c -> make_decision c = (c', b) -> live c (orel A c) -> live c' (orel A c').
Proof.
  intros (K & H & Z) E L. unfold make_decision in E. destruct (find_decision _ _ _) as [vs o] eqn:Ef. pose proof (iv_base _ _ _ _ (proj1 K)) as B.
  destruct (find_decision_spec _ _ _ _ _ (b_wf _ B) (Nat.lt_succ_diag_r _) Ef) as (W & Hs & Ho).
  destruct o as [v|]; injection E as <- <-.
  - destruct Ho as (I & V & R). refine (decide_live F A A c (lit_of v (s_last (c_s c) v)) vs K _ L). rewrite lo_var. exact V.
  - eapply live_same; [| |exact L]; reflexivity.
Qed.

(** * The search for a conflict *)
Record zero_conflict (k : conflict) (c : ctx) : Prop := {
  zc_used : used (c_v c) (entries (c_v c) (c_s c) (c_d c) (c_bin c)) (conflict_lits (c_s c) k);
  zc_false : forall x, In x (conflict_lits (c_s c) k) -> v_gs (c_v c) (lit_var x) <> None /\ fixv (c_s c) (lit_var (lnot x)) (is_positive (lnot x));
  zc_named : forall D r l, In (D, r) (entries (c_v c) (c_s c) (c_d c) (c_bin c)) -> In l D -> v_sg (c_v c) (lit_var l) <> None }.
Lemma find_conflict_sim F A : forall fuel c, inv false F A c -> st_sat (c_st c) <> Unsat -> clean c -> live c (orel A c) ->
  csim (find_conflict fuel c) (fun '(c', f) => live c' (orel A c') /\
  match f with
  | FModel | FAssumption => True
  | FConflict k => s_decs (c_s c') = [] -> zero_conflict k c'
  end).
Proof.
  induction fuel as [|fuel IH]; intros c K Ns Cl L; cbn [find_conflict]; [exact Logic.I|].
  destruct (propagate (v_slen (c_v c)) (ClauseDb.live (c_d c)) (c_bin c) (c_s c)) as [s r] eqn:Ep.
  pose proof (propagate_live F A A c s r K Ep L) as L1.
  destruct (propagate_core F A c s r (proj1 K) Ep) as (K1 & D1 & Lo1 & R1). set (c1 := cw_s c s) in *.
  assert (Kp1 : kept c c1) by kp.
  assert (Ez : clevel (c_s c) = clevel (c_s c1)) by (unfold clevel; cbn [c1 cw_s c_s]; rewrite D1; reflexivity). rewrite Ez in L1.
  destruct r as [|k| |]; try contradiction.
  - (* no conflict *)
    eapply (csim_bind _ _ (fun '((c2, new) : ctx * bool) => live c2 (orel A c2) /\ kept c c2 /\ if new then simp (ClauseDb.live (c_d c2)) false F A c2 else ready F A c2)).
    { destruct (Nat.eqb_spec (clevel (c_s c1)) 0) as [Z|NZ].
      - assert (D0 : s_decs (c_s c1) = []) by (apply length_zero_iff_nil; exact Z).
        eapply csim_weaken; [apply csim_spec; [apply spec_post; [apply (prove_units_simp F A c1 K1 D0 R1)|apply prove_units_kept]|apply (prove_units_sim _ F A c1 K1 D0 L1)]|].
        intros [c2 new] [[Q Kp] L2]. split; [exact L2|]. split; [eapply kept_trans; eassumption|]. destruct new; [apply Q|]. destruct Q as (Q1 & Q2 & Q3 & Q4).
        split; [exact Q1|]. split; [rewrite Q2, Q3; reflexivity|auto].
      - rewrite prove_units_high by lia. apply csim_ret. split; [exact L1|]. split; [exact Kp1|]. split; [split; [exact K1|]|].
        + apply Lo1; [lia|apply K].
        + split; [exact R1|]. intros D0. unfold clevel in NZ. rewrite D0 in NZ. cbn in NZ. lia. }
    intros [c2 new] (L2 & Kp2 & Q2).
    eapply (csim_bind _ _ (fun c3 => live c3 (orel A c3) /\ kept c c3 /\ ready F A c3)).
    { destruct new; [|apply csim_ret; auto].
      assert (N2 : st_sat (c_st c2) <> Unsat) by (rewrite (ke_sat _ _ Kp2); exact Ns).
      eapply csim_weaken; [apply csim_spec; [apply spec_post; [apply (unit_simplify_spec F A c2 Q2)|apply unit_simplify_kept]|apply (unit_simplify_sim F A c2 Q2 N2 L2)]|].
      intros c3 [[(P1 & P2 & P3 & P4) Kp] L3]. split; [exact L3|]. split; [eapply kept_trans; eassumption|]. split; [exact P1|]. split; [rewrite P2, P3; reflexivity|auto]. }
    intros c3 (L3 & Kp3 & R3). assert (Cl3 : clean c3) by (apply Kp3; exact Cl).
    eapply csim_bind; [apply csim_spec; [apply (enqueue_loop_spec F A _ c3 R3)|apply (enqueue_loop_sim F A _ c3 R3 Cl3 L3)]|]. intros [c4 e] (Q & L4).
    destruct e.
    + destruct Q as (R4 & La & Kp4). destruct (make_decision c4) as [c5 b] eqn:Em. destruct (make_decision_spec F A c4 c5 b R4 La Em) as [Kp5 Q5].
      pose proof (make_decision_live F A c4 c5 b R4 Em L4) as L5.
      assert (Kp : kept c c5) by (eapply kept_trans; [exact Kp3|eapply kept_trans; eassumption]).
      destruct b; [|apply csim_ret; auto]. apply IH; [exact Q5|rewrite (ke_sat _ _ Kp); exact Ns|apply Kp; exact Cl|exact L5].
    + destruct Q as (K4 & Kp4). assert (Kp : kept c c4) by (eapply kept_trans; eassumption).
      apply IH; [exact K4|rewrite (ke_sat _ _ Kp); exact Ns|apply Kp; exact Cl|exact L4].
    + apply csim_ret. auto.
  - (* conflict *)
    destruct (Nat.eqb_spec (clevel (c_s c1)) 0) as [Z|NZ].
    + assert (D0 : s_decs (c_s c1) = []) by (apply length_zero_iff_nil; exact Z).
      eapply csim_bind; [apply csim_spec; [apply (prove_units_zero c1 D0 (iv_trail _ _ _ _ K1))|apply (prove_units_sim _ F A c1 K1 D0 L1)]|].
      intros [c2 new] [(s' & Fr & En & Ev & El & Elv & Et & _) L2]. apply csim_ret. split; [exact L2|]. intros _.
      destruct (iv_search _ _ _ _ K1) as [T S _ _].
      assert (Q : zero_conflict k (cw_s c1 s')).
      { assert (Ek : conflict_lits s' k = conflict_lits (c_s c1) k) by (unfold conflict_lits; rewrite El; reflexivity).
        assert (Ee : entries (c_v c1) s' (c_d c1) (c_bin c1) = entries (c_v c1) (c_s c1) (c_d c1) (c_bin c1)) by (apply entries_lits; exact El).
        pose proof (core_used _ _ _ _ _ K1 (conflict_stored _ _ _ _ R1)) as Us.
        constructor; cbn [cw_s c_v c_s c_d c_bin]; rewrite ?Ek, ?Ee.
        - exact Us.
        - intros x I. split; [apply (proj1 Us); exact I|]. destruct (conflict_falselit _ _ _ _ _ T S R1 x I) as [Q1 Q2]. split; [rewrite Ev; exact Q1|left; rewrite Et; auto].
        - intros D r l. exact (core_named _ _ _ _ D r l K1). }
      destruct Fr as (e & p & ->). destruct Q. constructor; assumption.
    + rewrite prove_units_high by lia. cbn [bind]. apply csim_ret. split; [exact L1|]. intros D0. exfalso. unfold clevel in NZ. rewrite D0 in NZ. cbn in NZ. lia.
Qed.

(** * Models *)
Definition model_step (c : ctx) : list N :=
  flat_map (fun g => match model_value c g with Some b => [lit_of g b] | None => [] end) (global_vars (c_v c)).
Lemma model_step_in c l : vars_ok (c_v c) -> (In l (model_step c) <-> vd_deleted (v_data (c_v c) (lit_var l)) = false /\ model_value c (lit_var l) = Some (is_positive l)).
Proof.
  intros OK. unfold model_step. rewrite in_flat_map. unfold global_vars. split.
  - intros (g & I & J). apply filter_In in I as [_ I]. apply Bool.negb_true_iff in I. destruct (model_value c g) as [b|] eqn:M; [|destruct J]. destruct J as [<-|[]].
    rewrite lo_var, lo_pos. auto.
  - intros [D M]. exists (lit_var l). split.
    + apply filter_In. split; [apply codes_all; apply (vo_g _ OK); exact D|rewrite D; reflexivity].
    + rewrite M. left. apply lo_eta.
Qed.
Lemma reconstruct_sim F A c : ready F A c -> (length (as_lits (c_as c)) <= clevel (c_s c))%nat ->
  (forall x, v_gs (c_v c) x <> None -> s_val (c_s c) x <> None) -> live c (orel A c) ->
  csim (reconstruct_global_model c) (fun c' => live c' (orel A c')).
Proof.
  intros R La Al L. destruct (model_reached F A c R La Al) as (Hl & Hb & b' & Ag & Mb & Ha). destruct R as (K & H & Z).
  pose proof (iv_base _ _ _ _ (proj1 K)) as B. pose proof (b_vars _ B) as OK. destruct (iv_search _ _ _ _ (proj1 K)) as [T S W P].
  unfold reconstruct_global_model. cbv zeta. fold (model_step c). set (m := map _ (codes (N.to_nat (v_glen (c_v c))) 0)).
  assert (L1 : live (cw_model c m) (orel A c)) by (eapply live_same; [| |exact L]; reflexivity).
  assert (Tr : forall l, v_gs (c_v c) (lit_var l) <> None -> istrue (c_s c) l -> In (gl (c_v c) l) (model_step c)).
  { intros l Nm V. destruct (v_gs (c_v c) (lit_var l)) as [g|] eqn:G; [|congruence]. destruct (gl_sg _ _ _ OK G) as [Q1 Q2]. destruct (gl_named _ _ _ G) as [Q3 _].
    apply model_step_in; [exact OK|]. split.
    - rewrite Q3. apply (vo_used _ OK g (lit_var l)). rewrite Q3 in Q1. exact Q1.
    - unfold model_value. rewrite Q1, Q2. exact V. }
  assert (Va : forall es, orel A c es -> CheckerValid.valid es (CheckerRun.Step (Model (model_step c)))).
  { intros es [R1 R2]. split; [|split; [|split; [|split]]].
    - apply Forall_forall. intros l I. apply (model_step_in c l OK) in I as [D _]. apply (nr_ann _ _ R1). apply (vo_g _ OK). exact D.
    - intros l I J. apply (model_step_in c l OK) in I as [_ I]. apply (model_step_in c _ OK) in J as [_ J]. rewrite lnot_var, I, pos_lnot in J. destruct (is_positive l); discriminate.
    - intros l I J. apply (model_step_in c l OK) in I as [_ I]. apply (dr_units _ _ _ _ R2) in J. unfold gfix, model_value in *. rewrite lnot_var, pos_lnot in J.
      destruct (v_sg (c_v c) (lit_var l)) as [x|]; [destruct J as [J _]; rewrite I in J; destruct (is_positive l); discriminate|].
      destruct J as [_ J]. rewrite J in I. destruct (is_positive l); discriminate.
    - intros l I. apply (dr_as _ _ _ _ R2) in I. destruct (iv_kept _ _ _ _ (proj1 K) l I) as [D _]. apply (model_step_in c l OK). split; [exact D|].
      specialize (Ha l I). apply lh_true in Ha. rewrite (Ag _ D) in Ha. unfold model_bits in Ha. rewrite <- Ha.
      unfold model_value. destruct (v_sg (c_v c) (lit_var l)) as [x|] eqn:G; [|destruct (vd_unit _); reflexivity].
      apply (vo_sg _ OK) in G. destruct (s_val (c_s c) x) eqn:V; [reflexivity|]. exfalso. apply (Al x); congruence.
    - intros D red I. apply (Permutation_in _ (dr_cls _ _ _ _ R2)) in I. unfold entries in I. apply in_app_or in I as [I|I].
      + apply in_map_iff in I as (x & E & I). injection E as <- _. destruct (Hl x I) as (l & Il & V). exists (gl (c_v c) l). split; [apply canon_in; apply in_map; exact Il|].
        apply Tr; [|exact V]. apply in_use_named. apply (proj1 (iv_used _ _ _ _ (proj1 K)) x); assumption.
      + apply in_map_iff in I as ([p q] & E & I). injection E as <- _. destruct (bin_pairs_in _ _ _ _ I) as (l & -> & Io & _). cbn [fst snd].
        destruct (bin_use _ _ _ _ l q (iv_used _ _ _ _ (proj1 K)) (fun l o I => proj2 (proj2 (proj2 (so_bin _ _ _ _ S l o I)))) Io) as [U1 U2].
        destruct (Hb l q Io) as [V|V]; [exists (gl (c_v c) (lnot l))|exists (gl (c_v c) q)]; (split; [apply canon_in; cbn; auto|apply Tr; [|exact V]]).
        * rewrite lnot_var. apply in_use_named. exact U1.
        * apply in_use_named. exact U2. }
  eapply (csim_bind _ _ (fun c2 => frame (cw_model c m) c2 /\ live c2 (orel A c))).
  - destruct (p_native (c_pf (cw_model c m))); [|apply csim_ret; split; [apply frame_refl|exact L1]].
    apply (step_live false (Model (model_step c)) (cw_model c m) (orel A c) (orel A c) L1). intros es R s' FT. cbv zeta in s'. subst s'. split; [apply Va; exact R|].
    destruct R as [R1 R2]. split; [apply names_plain; [exact Logic.I|exact R1]|apply db_silent; [exact Logic.I|exact R2]].
  - intros c2 [Fr L2]. apply csim_ret. eapply live_same; [| |exact (live_weaken _ _ _ L2 (fun es _ R => proj2 (orel_frame A (cw_model c m) c2 es Fr) R))]; reflexivity.
Qed.

(** * Learned clauses *)
Lemma entries_keeps v s d d' bin : keeps d d' -> entries v s d' bin = entries v s d bin.
Proof.
  intros K. unfold entries. rewrite (kp_live _ _ K). f_equal. apply map_ext_in. intros x I. unfold long_entry. f_equal.
  pose proof (kp_irred _ _ K x I) as E. destruct (htier d' x), (htier d x); cbn [tier_eqb]; intuition discriminate.
Qed.
Lemma gfix_enqueue v n s l0 r l : vars_ok v -> trail_ok n s -> s_val s (lit_var l0) = None -> v_gs v (lit_var l0) <> None ->
  (gfix v (enqueue s l0 r) l <-> gfix v s l \/ (s_decs s = [] /\ l = gl v l0)).
Proof.
  intros OK T U Nm. unfold gfix. destruct (v_gs v (lit_var l0)) as [g|] eqn:G; [|congruence]. destruct (gl_sg _ _ _ OK G) as [Q1 Q2].
  destruct (v_sg v (lit_var l)) as [x|] eqn:SG.
  - rewrite (fixv_enqueue _ _ _ _ _ _ T U). split; intros [H|H]; auto; right.
    + destruct H as (H1 & -> & H2). split; [exact H1|]. symmetry. unfold gl. apply (vo_sg _ OK) in SG. rewrite SG, <- H2. apply lo_eta.
    + destruct H as [H1 ->]. split; [exact H1|]. rewrite Q1 in SG. injection SG as <-. auto.
  - split; [auto|]. intros [H|[_ ->]]; [exact H|congruence].
Qed.
Definition learned_rel (A : list N) (c : ctx) (cl : list N) (es : list CheckerRun.event) : Prop :=
  names_rel (c_v c) es /\
  match cl with
  | [] => False
  | [l] => db_rel (entries (c_v c) (c_s c) (c_d c) (c_bin c)) (fun x => x = gl (c_v c) l \/ gfix (c_v c) (c_s c) x) A es
  | _ => db_rel ((canon (gls (c_v c) cl), Nat.ltb 2 (length cl)) :: entries (c_v c) (c_s c) (c_d c) (c_bin c)) (gfix (c_v c) (c_s c)) A es
  end.
Lemma learn_sim F A c l0 rest : inv false F A c -> s_val (c_s c) (lit_var l0) = None ->
  match rest with [] => s_decs (c_s c) = [] | _ => s_decs (c_s c) <> [] end ->
  named (c_v c) (l0 :: rest) -> NoDup (map lit_var (l0 :: rest)) -> live c (learned_rel A c (l0 :: rest)) ->
  csim (learn_clause (l0 :: rest) c) (fun c' => live c' (orel A c')).
Proof.
  intros [K Lo] U Ds Nm Nd L. pose proof (iv_base _ _ _ _ K) as B. pose proof (b_vars _ B) as OK. destruct (iv_search _ _ _ _ K) as [T S W P].
  assert (Bn : forall x, In x (l0 :: rest) -> lit_var x < v_slen (c_v c)).
  { intros x I. specialize (Nm x I). destruct (v_gs (c_v c) (lit_var x)) eqn:G; [|congruence]. eapply (vo_x _ OK). exact G. }
  pose proof (Nm l0 (or_introl eq_refl)) as Nm0.
  destruct rest as [|l1 [|l2 rest]]; cbn [learn_clause].
  - apply csim_ret. eapply live_same; [| |eapply live_weaken; [exact L|]]; [reflexivity|reflexivity|]. intros es _ [R1 R2]. split; [exact R1|].
    cbn [cw_s c_v c_s c_d c_bin]. eapply db_ext; [apply Permutation_refl| |intros l; reflexivity|exact R2]. intros l.
    rewrite (gfix_enqueue _ _ _ _ RUnit l OK T U Nm0). rewrite Ds. split; [intros [->|H]; auto|intros [H|[_ ->]]; auto].
  - apply csim_ret. eapply live_same; [| |eapply live_weaken; [exact L|]]; [reflexivity|reflexivity|]. intros es _ [R1 R2]. split; [exact R1|].
    cbn [cw_s c_v c_s c_d c_bin]. eapply db_ext; [| |intros l; reflexivity|exact R2].
    + apply Permutation_sym. rewrite (entries_lits _ (c_s c)) by reflexivity. apply entries_bin; [apply Bn; left; reflexivity|apply Bn; right; left; reflexivity|].
      inversion Nd as [|? ? N1 _]; subst. intros E. apply N1. left. symmetry. exact E.
    + intros l. cbn [add_binary_clause cw_bin c_s]. rewrite (gfix_enqueue _ _ _ _ _ l OK T U Nm0). tauto.
  - destruct (assess_learned (c_s c) (c_tmp c) (l0 :: l1 :: l2 :: rest)) as [flags h] eqn:Eh.
    assert (Hh : h_deleted h = false /\ h_mark h = false /\ h_tier h <> Irred).
    { unfold assess_learned in Eh. destruct (compute_glue (c_s c) (c_tmp c) (l0 :: l1 :: l2 :: rest)) as [fl gl] eqn:Eg. injection Eh as <- <-. split; [reflexivity|]. split; [reflexivity|].
      apply select_tier_irred. }
    destruct Hh as (H1 & H2 & H3). unfold db_add_clause. cbn [cw_tmp c_s c_d].
    destruct (add_long (c_s c) (c_d c) h (l0 :: l1 :: l2 :: rest)) as [[s5 d5] x5] eqn:Ad.
    destruct (d_full d5) eqn:Fu; [cbn; congruence|]. cbn [bind]. apply csim_ret.
    pose proof (add_long_added _ _ _ _ _ _ _ Ad (iv_db _ _ _ _ K) Fu H1 H2 (fun E => False_ind _ (H3 E))) as AD.
    assert (U5 : s_val s5 (lit_var l0) = None) by (rewrite (ad_val _ _ _ _ _ _ _ AD); exact U).
    assert (T5 : trail_ok (v_slen (c_v c)) s5) by (eapply added_trail; eassumption).
    eapply live_same; [| |eapply live_weaken; [exact L|]]; [reflexivity|reflexivity|]. intros es _ [R1 R2]. split; [exact R1|].
    cbn [cw_s cw_d cw_tmp c_v c_s c_d c_bin]. eapply db_ext; [| |intros l; reflexivity|exact R2].
    + apply Permutation_sym. rewrite (entries_lits _ s5) by reflexivity. eapply Permutation_trans; [apply (entries_added _ _ _ _ _ _ _ _ _ AD)|].
      apply Permutation_refl'. f_equal. f_equal. destruct (h_tier h); try reflexivity. congruence.
    + intros l. rewrite (gfix_enqueue _ _ _ _ _ l OK T5 U5 Nm0). rewrite (ad_decs _ _ _ _ _ _ _ AD).
      rewrite (gfix_same (c_v c) s5 (c_s c)); [tauto|]. intros x y. unfold fixv. rewrite (ad_val _ _ _ _ _ _ _ AD), (ad_trail _ _ _ _ _ _ _ AD), (ad_level _ _ _ _ _ _ _ AD). reflexivity.
Qed.

(** * One round of the search *)
Lemma low_free s l n : trail_ok n s -> low s -> (0 < clevel s)%nat -> In l (s_trail s) -> s_level s (lit_var l) <> 0%nat.
Proof.
  intros T Lo Lv Il. apply In_nth_error in Il as (p & Hp). rewrite (tk_level _ _ T _ _ Hp). unfold low in Lo. unfold clevel in Lv.
  destruct (s_decs s) as [|q ds]; [cbn in Lv; lia|]. subst q. cbn. lia.
Qed.
Lemma conflict_step_sim z w S0 U F A fuel c : st_sat (c_st c) = Unknown -> progress True z w S0 U F A c -> live c (orel A c) ->
  csim (conflict_step fuel c) (fun c' => live c' (rel A c')).
Proof.
  intros St (B & Vi & Pr) L. rewrite St in Pr. destruct Pr as (K & Bd & Cl). specialize (Cl Logic.I). unfold conflict_step.
  assert (Ns : st_sat (c_st c) <> Unsat) by congruence.
  eapply csim_bind; [apply csim_spec; [apply (find_conflict_spec F A fuel c K)|apply (find_conflict_sim F A fuel c K Ns Cl L)]|]. intros [c1 [| |k]] [Q [L1 O1]].
  - (* model *)
    destruct Q as (R & La & Kp & Al). eapply csim_weaken; [apply csim_spec; [apply (reconstruct_spec F A c1 R La Al)|apply (reconstruct_sim F A c1 R La Al L1)]|].
    intros c2 [(_ & S2 & _) L2]. eapply live_weaken; [exact L2|]. intros es _. apply rel_open. congruence.
  - (* assumptions *)
    apply csim_ret. eapply live_same; [| |eapply live_weaken; [exact L1|]]; [reflexivity|reflexivity|]. intros es _ R. exact R.
  - (* conflict *)
    destruct (analyze_conflict (v_slen (c_v c1)) (p_native (c_pf c1)) (c_s c1) (c_vs c1) (c_an c1) k) as [[vs a] bt] eqn:Ea.
    destruct Q as [Kp [(D0 & B1 & NM)|(Lv & K1 & Ck)]].
    + specialize (O1 D0). unfold analyze_conflict in Ea. unfold clevel in Ea. rewrite D0 in Ea. cbn [length Nat.eqb] in Ea. injection Ea as Ev Ea Eb.
      destruct (b_flags _ B1) as (F1 & F2 & F3).
      assert (Qa : a_clause a = [] /\ a_involved a = [] /\ a_fuel a = a_fuel (c_an c1) /\ (p_native (c_pf c1) = true -> a_hashes a = [clause_hash (conflict_lits (c_s c1) k)])).
      { rewrite <- Ea. destruct (p_native (c_pf c1)); repeat split; discriminate. }
      destruct Qa as (A1 & A2 & A5 & A6). rewrite A5, F3. cbn [cw_an cw_vs c_s c_d c_tmp]. rewrite A2. cbn [bump_clauses]. rewrite A1.
      cbn [length Nat.ltb Nat.leb].
      match goal with |- csim (bind (add_step _ _ ?X) _) _ => set (c2 := X) end.
      assert (Q2 : c_s c2 = c_s c1 /\ c_v c2 = c_v c1 /\ c_bin c2 = c_bin c1 /\ c_pf c2 = c_pf c1 /\ c_st c2 = c_st c1).
      { unfold c2, backtrack_to, backtrack. cbn [cw_tmp cw_d cw_an cw_vs c_s c_vs]. rewrite D0. cbn [length]. rewrite <- Eb. cbn [Nat.leb]. repeat split. }
      destruct Q2 as (E1 & E2 & E3 & E4 & E5). destruct O1 as [Z1 Z2 Z3]. pose proof (b_vars _ B1) as OK.
      assert (L2 : live c2 (fun es => (p_checker (c_pf c1) = true /\ fits es) /\ orel A c1 es)).
      { eapply live_same; [exact E4|rewrite E5; reflexivity|]. eapply live_weaken; [apply live_checker; exact L1|]. intros es FT [Q1 Q2]. auto. }
      eapply csim_bind; [apply (step_live true (AtClause false [] (a_hashes a)) c2 _ (fun es => names_rel (c_v c2) es /\ dead_rel (c_v c2) es) L2)|].
      * intros es [[Ch FT] [R1 R2]] s' FT'. cbv zeta in s'. subst s'. unfold gstep. rewrite E2. split; [split|split].
        -- reflexivity.
        -- apply (derive (c_v c1) es _ _ A [] _ [conflict_lits (c_s c1) k] (map lnot (conflict_lits (c_s c1) k)) OK R1 FT R2).
           ++ intros D [<-|[]]. exact Z1.
           ++ apply A6. apply checker_native. exact Ch.
           ++ apply rup_conflict. intros x I. apply in_map. exact I.
           ++ intros x I. right. apply in_map_iff in I as (y & <- & I). destruct (Z2 y I) as [N1 N2]. apply gfix_gl; [exact OK|rewrite lnot_var; exact N1|exact N2].
        -- apply names_plain; [exact Logic.I|exact R1].
        -- apply (at_empty (c_v c1) _ _ A es false (a_hashes a) Z3 R2).
      * intros c3 [Fr L3]. apply csim_ret. eapply live_same; [| |eapply live_weaken; [exact L3|]]; [reflexivity|reflexivity|].
        intros es _ [R1 R2]. unfold rel, srel. cbn [set_sat cw_st c_st st_sat c_v]. rewrite (frame_v _ _ Fr). auto.
    + destruct (iv_search _ _ _ _ (proj1 K1)) as [T S _ _]. pose proof (iv_base _ _ _ _ (proj1 K1)) as B1. destruct (b_flags _ B1) as (F1 & F2 & F3). pose proof (b_vars _ B1) as OK.
      destruct (analyze_conflict_spec _ _ _ _ _ _ _ _ _ _ _ T S Lv Ck F1 F2 Ea) as (Le & G1 & G2 & G3 & G4).
      pose proof (analyze_conflict_heap _ _ _ _ _ _ _ _ _ (b_wf _ B1) Ea) as Sh. pose proof (learned_in_use _ _ _ _ _ _ _ _ _ K1 Ck Ea) as Us.
      rewrite G3, F3. cbn [cw_an cw_vs c_s c_d c_tmp]. destruct (bump_clauses (c_s c1) (a_involved a) (c_d c1) (c_tmp c1)) as [d flags] eqn:Eb.
      destruct (bump_clauses_spec _ _ _ _ _ _ (iv_db _ _ _ _ (proj1 K1)) G4 Eb) as (Db & Kd & Cf).
      destruct (decay_activities_spec _ _ Db) as (Db2 & Kd2 & _). pose proof (keeps_trans _ _ _ Kd Kd2) as Kd3.
      set (c2 := cw_tmp (cw_d (cw_an (cw_vs c1 vs) a) (decay_clause_activities d)) flags).
      assert (K2 : inv true F A c2).
      { split; [|apply K1]. unfold c2. apply core_tmp. apply core_d; [|exact Db2|apply Kd3|apply Kd3].
        apply core_an; [|exact G1|exact G2|rewrite G3; exact F3]. apply core_vs; [apply K1|exact Sh]. }
      assert (Le2 : learned (ClauseDb.live (c_d c2)) (c_bin c2) (c_s c2) (a_clause a) bt) by (change (c_d c2) with (decay_clause_activities d); rewrite (kp_live _ _ Kd3); exact Le).
      assert (Ee : entries (c_v c2) (c_s c2) (c_d c2) (c_bin c2) = entries (c_v c1) (c_s c1) (c_d c1) (c_bin c1)) by (apply entries_keeps; exact Kd3).
      assert (L2 : live c2 (orel A c2)).
      { eapply live_same; [| |eapply live_weaken; [exact L1|]]; [reflexivity|reflexivity|]. intros es _ [R1 R2]. split; [exact R1|]. rewrite Ee. exact R2. }
      pose proof (le_bt _ _ _ _ _ Le2) as Bt. pose proof (backtrack_live true F A A c2 bt K2 (fun _ => Bt) L2) as L3.
      pose proof (backtrack_fixed true F A c2 bt K2 (fun _ => Bt)) as [Fl _].
      destruct (backtrack_inv true F A c2 bt K2 (fun _ => Bt)) as (K3 & _ & _ & Ev & Ed & Ebn & Eas & Est & _).
      destruct (le_clause _ _ _ _ _ Le) as (l0 & rest & Ecl & _). rewrite Ecl in *.
      destruct (learned_free F A c2 bt l0 rest K2 Le2) as [N0 Ds].
      pose proof (backtrack_pf c2 bt) as Epf. set (c3 := backtrack_to bt c2) in *.
      assert (Ee3 : entries (c_v c3) (c_s c3) (c_d c3) (c_bin c3) = entries (c_v c1) (c_s c1) (c_d c1) (c_bin c1)).
      { rewrite Ev, Ed, Ebn, <- Ee. apply entries_lits. exact Fl. }
      assert (Nm : named (c_v c1) (l0 :: rest)) by (intros x I; apply in_use_named; apply Us; exact I).
      assert (Nd : NoDup (map lit_var (l0 :: rest))) by apply (le_nodup _ _ _ _ _ Le).
      assert (L4 : live c3 (fun es => (p_checker (c_pf c1) = true /\ fits es) /\ orel A c3 es)).
      { rewrite <- (Epf : c_pf c3 = c_pf c1). eapply live_weaken; [apply live_checker; exact L3|]. intros es FT [Q1 Q2]. auto. }
      assert (Ev1 : c_v c3 = c_v c1) by exact Ev.
      eapply csim_bind; [apply (step_live true (AtClause (Nat.ltb 2 (length (l0 :: rest))) (l0 :: rest) (a_hashes a)) c3 _ (learned_rel A c3 (l0 :: rest)) L4)|].
      * intros es [[Ch FT] [R1 R2]] s' FT'. cbv zeta in s'. subst s'. unfold gstep. rewrite Ee3 in R2. rewrite Ev1 in R1, R2.
        assert (Ta : CheckerSteps.taut (gls (c_v c1) (l0 :: rest)) = false) by (apply gls_taut; assumption).
        split; [split|split].
        -- rewrite Ev1. exact Ta.
        -- rewrite Ev1. rewrite (checker_native _ Ch) in Ea. destruct (analyze_hints _ _ _ _ _ _ _ _ _ _ T S Ck F1 F2 Ea) as (cs & Eh & Sc & Ru).
           eapply (derive (c_v c1) es _ _ A (l0 :: rest) _ cs _ OK R1 FT R2); [|exact Eh|exact Ru|].
           ++ intros D Ic. eapply core_used; [apply K1|apply Sc; exact Ic].
           ++ intros x I. unfold start_lits in I. apply in_app_or in I as [I|I].
              ** left. rewrite Ecl in I. apply in_map_iff in I as (y & <- & I). rewrite lnot_invol. exact I.
              ** exfalso. apply filter_In in I as [I1 I2]. apply (low_free _ _ _ T (proj2 K1) Lv I1). apply Nat.eqb_eq. exact I2.
        -- rewrite Ev1. apply names_plain; [exact Logic.I|exact R1].
        -- rewrite Ee3, Ev1. destruct rest as [|l1 rest].
           ++ apply at_unit; [|exact R2]. rewrite <- gl_not. intros Q. apply (gfix_gl _ _ _ OK) in Q; [|rewrite lnot_var; apply Nm; left; reflexivity].
              destruct Q as [Q _]. rewrite lnot_var in Q. congruence.
           ++ apply at_long; [|exact R2]. rewrite (canon_len _ _ OK Nm Nd). cbn [length]. lia.
      * intros c4 [Fr L5]. pose proof (inv_frame _ _ _ _ _ Fr K3) as K4.
        assert (Es : c_s c4 = c_s c3) by (destruct Fr as (e & p & ->); reflexivity).
        eapply csim_weaken; [apply csim_spec; [apply (learn_spec F A c2 bt (l0 :: rest) c4 K2 Le2 Us Fr)|apply (learn_sim F A c4 l0 rest K4)]|].
        -- rewrite Es. exact N0.
        -- rewrite Es. exact Ds.
        -- rewrite (frame_v _ _ Fr), Ev1. exact Nm.
        -- exact Nd.
        -- eapply live_weaken; [exact L5|]. intros es _ R. destruct Fr as (e & p & ->). exact R.
        -- intros c5 [[_ Kp5] L6]. assert (S5 : st_sat (c_st c5) = Unknown).
           { rewrite (ke_sat _ _ Kp5), (ke_sat _ _ (kept_frame _ _ Fr)), Est. change (c_st c2) with (c_st c1). rewrite (ke_sat _ _ Kp). exact St. }
           eapply live_weaken; [exact L6|]. intros es _. apply rel_open. congruence.
Qed.

(** * Reducing and moving the clauses *)
Lemma tier_irred a b : (a = Irred <-> b = Irred) -> tier_eqb a Irred = tier_eqb b Irred.
Proof. destruct a, b; intros [H1 H2]; cbn; try reflexivity; first [discriminate (H1 eq_refl)|discriminate (H2 eq_refl)]. Qed.
Lemma entries_tiers v s d d' bin : ClauseDb.live d' = ClauseDb.live d -> (forall x, In x (ClauseDb.live d) -> (htier d' x = Irred <-> htier d x = Irred)) ->
  entries v s d' bin = entries v s d bin.
Proof.
  intros E H. unfold entries. rewrite E. f_equal. apply map_ext_in. intros x I. unfold long_entry. rewrite (tier_irred _ _ (H x I)). reflexivity.
Qed.
Lemma entries_reduced v s d d' bin out : NoDup (ClauseDb.live d) -> NoDup out -> reduced s d d' out ->
  Permutation (entries v s d bin) (map (del_entry v) (map (fun x => (s_lits s x, DRedundant)) out) ++ entries v s d' bin).
Proof.
  intros Nl No R. unfold entries. rewrite app_assoc. apply Permutation_app_tail.
  assert (P : Permutation (ClauseDb.live d) (out ++ ClauseDb.live d')).
  { rewrite (rd_live_eq _ _ _ _ R). eapply Permutation_trans; [apply (filter_perm (fun c => existsb (N.eqb c) out))|]. apply Permutation_app_tail.
    apply NoDup_Permutation; [apply NoDup_filter; exact Nl|exact No|]. intros x. rewrite filter_In, memb_in. split; [tauto|]. intros I. split; [apply (rd_out _ _ _ _ R _ I)|exact I]. }
  eapply Permutation_trans; [apply Permutation_map; exact P|]. rewrite map_app, map_map.
  replace (map (long_entry v s d) out) with (map (fun x => del_entry v (s_lits s x, DRedundant)) out).
  - replace (map (long_entry v s d) (ClauseDb.live d')) with (map (long_entry v s d') (ClauseDb.live d')); [apply Permutation_refl|].
    apply map_ext_in. intros x I. unfold long_entry. rewrite (tier_irred _ _ (rd_irred _ _ _ _ R x (proj1 (proj1 (rd_live _ _ _ _ R x) I)))). reflexivity.
  - apply map_ext_in. intros x I. unfold long_entry, del_entry. cbn [fst snd CheckerSteps.is_red]. destruct (rd_out _ _ _ _ R x I) as [_ T]. destruct (htier d x); [congruence| | |]; reflexivity.
Qed.
Lemma entries_moved v s d s' d' bin ρ : moved ρ s d s' d' -> entries v s' d' bin = entries v s d bin.
Proof.
  intros M. unfold entries. rewrite (mv_live _ _ _ _ _ M), map_map. f_equal. apply map_ext_in. intros x I.
  unfold long_entry, htier. rewrite (mv_lits _ _ _ _ _ M x I), (mv_hdr _ _ _ _ _ M x I). reflexivity.
Qed.
Lemma schedule_step_sim z w S0 U F A fuel c : progress True z w S0 U F A c -> live c (rel A c) ->
  csim (schedule_step fuel c) (fun '(c', more) => live c' (rel A c')).
Proof.
  intros Pr L. unfold schedule_step.
  destruct (st_sat (c_st c)) eqn:St; try (apply csim_ret; exact L).
  destruct (st_error (c_st c)) as [e|] eqn:Er; [apply csim_ret; exact L|]. cbv zeta.
  destruct Pr as (B & Vi & Pr). rewrite St in Pr. destruct Pr as (K & Bd & Cl).
  assert (L0 : live c (orel A c)) by (eapply live_weaken; [exact L|]; intros es _; apply rel_open; congruence).
  assert (Ks : forall c1, st_sat (c_st c1) = Unknown -> inv false F A c1 -> c_v c1 = c_v c -> c_tmp c1 = c_tmp c -> progress True z w S0 U F A c1).
  { intros c1 S1 K1 V1 T1. split; [apply K1|]. split; [rewrite V1; exact Vi|]. rewrite S1. split; [exact K1|]. split; [eapply ties_gu; [rewrite V1; reflexivity|eassumption]|]. intros H x. rewrite T1. apply Cl. exact H. }
  match goal with |- context [reduce_locals (c_s ?X) _] => set (c1 := X) end.
  assert (K1 : inv false F A c1 /\ c_st c1 = c_st c /\ c_v c1 = c_v c /\ c_tmp c1 = c_tmp c /\ live c1 (orel A c1)).
  { unfold c1. destruct (_ =? _)%N; [|split; [exact K|auto]]. destruct (luby_advance _) as [x lb].
    destruct (backtrack_inv false F A c (as_levels (c_as c)) K) as (K1 & _ & _ & Ev & _ & _ & _ & Es & _); [discriminate|].
    assert (Et : c_tmp (restart c) = c_tmp c) by (unfold restart, backtrack_to; destruct (backtrack _ _ _); reflexivity).
    split; [split; [apply core_sc; apply K1|apply K1]|]. split; [exact Es|]. split; [exact Ev|]. split; [exact Et|].
    eapply live_same; [| |apply (backtrack_live false F A A c (as_levels (c_as c)) K); [discriminate|exact L0]]; reflexivity. }
  destruct K1 as (K1 & S1 & V1 & T1 & L1). clearbody c1.
  eapply (csim_bind _ _ (fun c2 => inv false F A c2 /\ st_sat (c_st c2) = Unknown /\ c_v c2 = c_v c /\ c_tmp c2 = c_tmp c /\ live c2 (orel A c2))).
  { destruct (_ =? _)%N; [|apply csim_ret; rewrite S1; auto].
    destruct (reduce_locals (c_s c1) (c_d c1)) as [[s d] out] eqn:Er2. pose proof (P_Db.out_nodup _ _ _ _ _ (iv_db _ _ _ _ (proj1 K1)) Er2) as No.
    destruct (reduce_locals_spec _ _ _ _ _ (iv_db _ _ _ _ (proj1 K1)) Er2) as (Db & Sw & Wo & R & _).
    pose proof (inv_reduced F A c1 s d out K1 Db Sw Wo R) as K2.
    assert (El : s_lits s = s_lits (c_s c1)) by (destruct Sw as (w0 & -> & _); reflexivity).
    assert (Gf : forall l, gfix (c_v c1) (c_s c1) l <-> gfix (c_v c1) s l).
    { apply gfix_same. intros x y. destruct Sw as (w0 & -> & _). reflexivity. }
    rewrite <- (map_map (fun cref => (s_lits s cref, DRedundant)) del_step).
    eapply csim_weaken; [apply (delete_all (gfix (c_v c1) s) A (entries (c_v c1) s d (c_bin c1)))|].
    - intros q Iq. apply in_map_iff in Iq as (x & <- & Ix). cbn [cw_d cw_s c_v]. split; [|left; reflexivity]. cbn [fst].
      pose proof (proj1 (rd_out _ _ _ _ R x Ix)) as Lx. rewrite El. apply gls_taut.
      + apply (b_vars _ (iv_base _ _ _ _ (proj1 K1))).
      + intros l Il. apply in_use_named. apply (proj1 (iv_used _ _ _ _ (proj1 K1)) x l Lx Il).
      + apply (so_clause _ _ _ _ (in_store _ _ _ _ _ (iv_search _ _ _ _ (proj1 K1))) x Lx).
    - eapply live_same; [| |eapply live_weaken; [exact L1|]]; [reflexivity|reflexivity|]. intros es _ [R1 R2]. cbn [cw_d cw_s c_v c_s c_d c_bin]. split; [exact R1|].
      eapply db_ext; [|exact Gf|intros l; reflexivity|exact R2]. rewrite (map_ext _ _ (fun x => f_equal (fun a => (a x, DRedundant)) El)).
      rewrite (entries_lits _ _ _ d _ El). apply entries_reduced; [apply (live_nodup _ _ _ (proj1 (iv_db _ _ _ _ (proj1 K1))))|exact No|exact R].
    - intros c2 [Fr L2]. split; [eapply inv_frame; eassumption|]. destruct Fr as (e & p & ->). split; [cbn; rewrite S1; exact St|]. split; [exact V1|]. split; [exact T1|]. exact L2. }
  intros c2 (K2 & S2 & V2 & T2 & L2).
  match goal with |- context [collect_garbage (c_s ?X) _] => set (c3 := X) end.
  assert (K3 : inv false F A c3 /\ c_st c3 = c_st c2 /\ c_v c3 = c_v c2 /\ c_tmp c3 = c_tmp c2 /\ live c3 (orel A c3)).
  { unfold c3. destruct (_ =? _)%N; [|split; [exact K2|auto]].
    destruct (reduce_mids_spec (c_s c2) (c_d c2) (iv_db _ _ _ _ (proj1 K2))) as (Db & R & Lv & _).
    split; [split; [apply core_d; [apply K2|exact Db|exact Lv|apply (rd_irred _ _ _ _ R)]|apply K2]|]. do 3 (split; [reflexivity|]).
    eapply live_same; [| |eapply live_weaken; [exact L2|]]; [reflexivity|reflexivity|]. intros es _ [R1 R2]. split; [exact R1|]. cbn [cw_d c_v c_s c_d c_bin].
    rewrite (entries_tiers _ _ _ _ _ Lv (rd_irred _ _ _ _ R)). exact R2. }
  destruct K3 as (K3 & S3 & V3 & T3 & L3). clearbody c3. destruct (iv_search _ _ _ _ (proj1 K3)) as [T S W P].
  destruct (collect_spec (c_s c3) (c_d c3) (iv_db _ _ _ _ (proj1 K3)) (tk_nodup _ _ T)) as (s' & d' & ρ & Ec & M & Or & Db).
  { intros l y Il Ey. split; [exact (so_rlong _ _ _ _ S l y Il Ey)|]. apply In_nth_error in Il as (p & Hp). pose proof (tk_reason _ _ T _ _ Hp) as Q.
    unfold reason_ok in Q. rewrite Ey in Q. destruct Q as (_ & rest & Q & _). exists rest. exact Q. }
  rewrite Ec. destruct (d_full d') eqn:Fu; [discriminate|].
  pose proof (inv_moved F A c3 s' d' ρ K3 M Or (Db eq_refl)) as K4.
  assert (L4 : live (cw_d (cw_s c3 s') d') (orel A (cw_d (cw_s c3 s') d'))).
  { eapply live_same; [| |eapply live_weaken; [exact L3|]]; [reflexivity|reflexivity|]. intros es _ [R1 R2]. split; [exact R1|]. cbn [cw_d cw_s c_v c_s c_d c_bin].
    rewrite (entries_moved _ _ _ _ _ _ _ M). eapply db_ext; [apply Permutation_refl| |intros l; reflexivity|exact R2]. apply gfix_same. intros x y.
    destruct (mv_search _ _ _ _ _ M) as [->| ->]; reflexivity. }
  eapply csim_bind; [apply (conflict_step_sim z w S0 U F A fuel)|].
  - cbn [cw_d cw_s c_st]. rewrite S3. exact S2.
  - apply Ks; [cbn [cw_d cw_s c_st]; rewrite S3; exact S2|exact K4|cbn [cw_d cw_s c_v]; congruence|cbn [cw_d cw_s c_tmp]; congruence].
  - exact L4.
  - intros c5 L5. apply csim_ret. eapply live_same; [| |eapply live_weaken; [exact L5|]]; [reflexivity|reflexivity|]. intros es _ R. exact R.
Qed.
Lemma schedule_loop_sim z w S0 U F A fuel : forall n c, progress True z w S0 U F A c -> live c (rel A c) ->
  csim (schedule_loop fuel n c) (fun c' => live c' (rel A c')).
Proof.
  induction n as [|n IH]; intros c P L; cbn [schedule_loop]; [exact Logic.I|].
  eapply csim_bind; [apply csim_spec; [apply schedule_step_spec; exact P|apply (schedule_step_sim z w S0 U F A); assumption]|]. intros [c1 more] [[P1 _] L1].
  destruct more; [apply IH; assumption|]. apply csim_ret. auto.
Qed.
Theorem solve_sim z w S0 U F A fuel c : progress True z w S0 U F A c -> live c (rel A c) ->
  csim (solve fuel c) (fun '(c', a) => live c' (rel A c')).
Proof.
  intros P L. unfold solve. cbv zeta. destruct (st_invalid (c_st (set_invoked c true))); [discriminate|].
  eapply csim_bind; [apply csim_spec; [apply (schedule_loop_spec True z w S0 U F A)|apply (schedule_loop_sim z w S0 U F A)]|].
  - eapply progress_st; [|exact P]. eexists. exists (c_pf c). split; reflexivity.
  - eapply progress_st; [|exact P]. eexists. exists (c_pf c). split; reflexivity.
  - eapply live_same; [| |exact L]; reflexivity.
  - intros c1 [_ L1]. eapply csim_bind; [apply finished_live; exact L1|]. intros c2 [Fr L2].
    assert (L3 : live c2 (rel A c2)) by (eapply live_weaken; [exact L2|]; intros es _ R; destruct Fr as (e & p & ->); exact R).
    unfold take_error. destruct (st_error (c_st c2)) as [e|] eqn:Er; apply csim_ret.
    + destruct L3 as [J H]. split; [exact J|]. intros Ch FT. destruct (H Ch FT) as (X & _). congruence.
    + exact L3.
Qed.
