(** C50: the calls end. *)
From Coq Require Import Lia Arith PeanoNat Permutation ZArith ZifyBool ZifyNat ZifyN.
From Verif Require Import Spec Lit LitProofs BinFormat Hash F32 Vsids VsidsProofs VsidsWf Luby Config P_Config Search SearchBase
  Propagate P_Search ClauseDb DbProofs Analyze AnalyzeProofs P_Analyze SolverCtx CtxFrame VarsProofs Solver SolverInv SolverSimplify
  SolverAdd SolverLoad SolverFailed SolverSearch SolverSolve P_Solver Terminate TerminateLoop.
From Verif Require P_Luby VarsBound.
Local Open Scope nat_scope.

Lemma run_all_last fuel ks k : forall c, run_all fuel (ks ++ [k]) c =
  do (c, r) <- run_all fuel ks c ; do (c, a) <- run fuel k c ; Ret (c, r ++ [a]).
Proof.
  induction ks as [|k0 ks IH]; intros c; cbn [run_all app bind].
  - destruct (run fuel k c) as [[c1 a]|p|]; reflexivity.
  - destruct (run fuel k0 c) as [[c1 a]|p|]; cbn [bind]; try reflexivity. rewrite IH.
    destruct (run_all fuel ks c1) as [[c2 r]|p|]; cbn [bind]; try reflexivity. destruct (run fuel k c2) as [[c3 b]|p|]; reflexivity.
Qed.
Lemma history_progress fuel pick judge io ks c answers : run_all fuel ks (ctx_default pick judge io) = Ret (c, answers) ->
  exists t z w S U F A, progress t z w S U F A c.
Proof.
  intros E. destruct (history_good fuel pick judge io ks c answers E) as (S & _ & _ & (fr & vis & _ & _ & G) & _).
  destruct (good_progress _ _ _ _ _ G) as (F & A & P). do 7 eexists. exact P.
Qed.
Lemma history_luby fuel pick judge io : forall ks c answers, run_all fuel ks (ctx_default pick judge io) = Ret (c, answers) -> luby_ok (sc_luby (c_sc c)).
Proof.
  induction ks as [|k ks IH] using rev_ind; intros c answers E; [injection E as <- _; exact default_luby_ok|].
  rewrite run_all_last in E. destruct (run_all fuel ks (ctx_default pick judge io)) as [[c1 r1]|p|] eqn:E1; cbn [bind] in E; try discriminate.
  destruct (run fuel k c1) as [[c2 a]|p|] eqn:E2; cbn [bind] in E; try discriminate. injection E as <- _. specialize (IH _ _ eq_refl).
  assert (D : k = CSolve \/ k <> CSolve) by (destruct k; (left; reflexivity) || (right; discriminate)). destruct D as [->|Nk].
  - destruct (history_progress _ _ _ _ _ _ _ E1) as (t & z & w & S & U & F & A & P). exact (solve_luby t z w S U F A fuel c1 P IH _ E2).
  - pose proof (clk_run fuel k c1 Nk) as C. rewrite E2 in C. cbn [clk fst] in C. rewrite C. exact IH.
Qed.
Lemma history_scale fuel pick judge io ks c answers : run_all fuel ks (ctx_default pick judge io) = Ret (c, answers) -> (1 <= cf_luby_scale (c_cfg c))%N.
Proof.
  intros E. destruct (history_good fuel pick judge io ks c answers E) as (S & _ & _ & _ & V & _). pose proof (V LubyScale) as Q. cbn in Q. lia.
Qed.

(** Every call but [solve] ends, in every state and without a bound on the steps. *)
Theorem C50_calls : forall fuel k c, k <> CSolve -> run fuel k c <> NoFuel.
Proof. intros fuel k c Nk. exact (clk_ends _ _ _ (clk_run fuel k c Nk)). Qed.

(** How many steps the model is given does not matter: every bound that suffices leads to the same answers and the same state. *)
Theorem C50_bound_irrelevant : forall fuel fuel' ks c, run_all fuel ks c <> NoFuel -> run_all fuel' ks c <> NoFuel -> run_all fuel ks c = run_all fuel' ks c.
Proof.
  intros fuel fuel' ks c H H'. destruct (Nat.le_ge_cases fuel fuel') as [L|L]; [symmetry|]; apply run_all_more; assumption.
Qed.

(** The state after [n] steps of the search *)
Fixpoint stepped (fuel n : nat) (c : ctx) : out ctx :=
  match n with O => Ret c | S n => do (c, _) <- schedule_step fuel c ; stepped fuel n c end.

(** The search between two conflicts and the handling of a conflict end; as many rounds as there are variables suffice. *)
Theorem C50_step : forall fuel0 pick judge io ks c answers n fuel c', run_all fuel0 ks (ctx_default pick judge io) = Ret (c, answers) ->
  N.to_nat (v_slen (c_v c)) < fuel -> stepped fuel n c = Ret c' -> schedule_step fuel c' <> NoFuel.
Proof.
  intros fuel0 pick judge io ks c answers n fuel c' E L It. destruct (history_progress _ _ _ _ _ _ _ E) as (t & z & w & S & U & F & A & P). clear E.
  revert c P L It. induction n as [|n IH]; intros c P L It; cbn [stepped] in It.
  - injection It as <-. apply (proj1 (schedule_step_grows t z w S U F A fuel c P)). exact L.
  - destruct (schedule_step fuel c) as [[c1 b]|p|] eqn:E1; cbn [bind] in It; try discriminate. apply (IH c1); [| |exact It].
    + apply (spec_get _ _ _ (schedule_step_spec t z w S U F A fuel c P) E1).
    + destruct (proj2 (schedule_step_grows t z w S U F A fuel c P) _ E1) as (V & _). cbn [fst] in V. rewrite V. exact L.
Qed.

(** With [v] variables there are less than [2^v] conflicts between two restarts: if no restart is due within the next [2^v] conflicts then the
    search ends before. *)
Theorem C50_conflicts : forall fuel0 pick judge io ks c answers fuel, run_all fuel0 ks (ctx_default pick judge io) = Ret (c, answers) ->
  let v := N.to_nat (v_slen (c_v c)) in
  v < fuel -> (sc_next (c_sc c) < sc_conflicts (c_sc c) \/ sc_conflicts (c_sc c) + 2 ^ v_slen (c_v c) <= sc_next (c_sc c))%N ->
  schedule_loop fuel (S (2 ^ v)) c <> NoFuel.
Proof.
  intros fuel0 pick judge io ks c answers fuel E v L H. destruct (history_progress _ _ _ _ _ _ _ E) as (t & z & w & S & U & F & A & P).
  apply (climb t z w S U F A fuel _ c P L).
  - intros i Q. assert (X : (N.of_nat (2 ^ v) = 2 ^ v_slen (c_v c))%N) by (rewrite Nat2N.inj_pow; unfold v; rewrite N2Nat.id; reflexivity). lia.
  - unfold limit. fold v. pose proof (pow_pos 2 v ltac:(discriminate)). lia.
Qed.

(** [solve] ends if the longest interval between two restarts is longer than that; the default is [128 * 2^63].
    Partial: for more variables (62 of them for the smallest [luby_restart_interval_scale], 69 for the default) the bound does not suffice because the
    iterator of the Luby sequence is a [u64] and starts again after [2^63]. *)
Lemma solve_ends fuel0 pick judge io ks c answers : run_all fuel0 ks (ctx_default pick judge io) = Ret (c, answers) ->
  (2 ^ v_slen (c_v c) < cf_luby_scale (c_cfg c) * 2 ^ 63)%N -> exists fuel, run fuel CSolve c <> NoFuel.
Proof.
  intros E H. destruct (history_progress _ _ _ _ _ _ _ E) as (t & z & w & S & U & F & A & P).
  destruct (top_reached _ (history_luby _ _ _ _ _ _ _ E)) as (m & Em). set (f := Datatypes.S (N.to_nat (v_slen (c_v c)))).
  destruct (long_enough t z w S U F A f m (set_invoked c true)) as (s & Es).
  - apply invoked_progress. exact P.
  - unfold f. cbn. lia.
  - change (c_v (set_invoked c true)) with (c_v c). change (c_cfg (set_invoked c true)) with (c_cfg c). change (c_sc (set_invoked c true)) with (c_sc c).
    rewrite Em. cbn [lb_v]. unfold limit. set (v := N.to_nat (v_slen (c_v c))).
    assert (X : (N.of_nat (2 ^ v) = 2 ^ v_slen (c_v c))%N) by (rewrite Nat2N.inj_pow; unfold v; rewrite N2Nat.id; reflexivity).
    pose proof (pow_pos 2 v ltac:(discriminate)). lia.
  - exists (Nat.max f s). cbn [run]. apply ends_solve. unfold ends. rewrite (loop_more s f (Nat.max f s) (Nat.max f s)) by (try lia; exact Es). exact Es.
Qed.
Theorem C50_solve_partial : forall fuel0 pick judge io ks c answers, run_all fuel0 ks (ctx_default pick judge io) = Ret (c, answers) ->
  (2 ^ v_slen (c_v c) < cf_luby_scale (c_cfg c) * 2 ^ 63)%N ->
  exists fuel r, r <> NoFuel /\ forall fuel', fuel <= fuel' -> run fuel' CSolve c = r.
Proof.
  intros fuel0 pick judge io ks c answers E H. destruct (solve_ends _ _ _ _ _ _ _ E H) as (fuel & Ef).
  exists fuel, (run fuel CSolve c). split; [exact Ef|]. intros fuel' L. apply run_more; assumption.
Qed.

(** Every history of calls that names variables below [n], and [h] times hides a variable or asks for a new one, ends if [n + h] is at most 62, for
    every configuration, every order of hash sets, every checker and every failure of the proof file. *)
Theorem C50_history_partial : forall pick judge io ks n, Forall (VarsBound.named_below n) ks ->
  (n + N.of_nat (length (filter (fun k => match k with CHide _ | CNewVar => true | _ => false end) ks)) <= 62)%N ->
  exists fuel r, r <> NoFuel /\ forall fuel', fuel <= fuel' -> run_all fuel' ks (ctx_default pick judge io) = r.
Proof.
  intros pick judge io ks n Nb B.
  assert (Eh : N.of_nat (length (filter (fun k => match k with CHide _ | CNewVar => true | _ => false end) ks)) = VarsBound.extras ks).
  { clear. induction ks as [|k ks IH]; cbn [filter VarsBound.extras]; [reflexivity|]. destruct k; cbn [VarsBound.extra length]; lia. }
  rewrite Eh in B. clear Eh. revert Nb B. induction ks as [|k ks IH] using rev_ind; intros Nb B.
  { exists 0, (Ret (ctx_default pick judge io, [])). split; [discriminate|]. reflexivity. }
  assert (Ex : (VarsBound.extras (ks ++ [k]) = VarsBound.extras ks + VarsBound.extra k)%N).
  { clear. induction ks as [|k0 ks IH]; cbn [app VarsBound.extras]; [lia|]. rewrite IH. lia. }
  rewrite Ex in B. apply Forall_app in Nb as [Nb _]. destruct (IH Nb ltac:(lia)) as (f0 & r0 & R0 & M0).
  destruct r0 as [[c answers]|p|]; [|exists f0, (Panic p); split; [discriminate|]; intros f' L; rewrite run_all_last, (M0 _ L); reflexivity|contradiction].
  assert (E0 : run_all f0 ks (ctx_default pick judge io) = Ret (c, answers)) by (apply M0; lia).
  assert (Q : exists f1, run f1 k c <> NoFuel).
  { assert (D : k = CSolve \/ k <> CSolve) by (destruct k; (left; reflexivity) || (right; discriminate)). destruct D as [->|Nk]; [|exists 0; apply C50_calls; exact Nk].
    apply (solve_ends _ _ _ _ _ _ _ E0). pose proof (history_scale _ _ _ _ _ _ _ E0) as Sc.
    destruct (VarsBound.history_bnd n _ _ _ _ _ _ _ E0 Nb) as (_ & Vs & _).
    assert (2 ^ v_slen (c_v c) <= 2 ^ 62)%N by (apply N.pow_le_mono_r; lia). change (2 ^ 63)%N with (2 * 2 ^ 62)%N. lia. }
  destruct Q as (f1 & E1). exists (Nat.max f0 f1), (do (c, a) <- run f1 k c ; Ret (c, answers ++ [a])). split.
  - destruct (run f1 k c) as [[c2 a]|p|]; try discriminate. contradiction.
  - intros f' L. rewrite run_all_last, (M0 f') by lia. cbn [bind]. rewrite (run_more f1 f' k c) by (try lia; exact E1). reflexivity.
Qed.

(** * Deciding satisfiability *)
Lemma sat_assignment fr vis S A c : good fr vis S A c -> st_sat (c_st c) = Sat -> exists b, S b /\ forall l, In l A -> lit_holds b l = true.
Proof.
  intros (B & _ & _ & G) St. rewrite St in G. destruct G as (Kn & F & K & T & An). unfold answered in An. rewrite St in An.
  destruct (An (fun g => match nth_error (c_model c) (N.to_nat g) with Some (Some y) => y | _ => false end)) as (b' & Ag & Mb & Ha).
  { intros g y D En. rewrite En. reflexivity. }
  set (b := fun u => match v_gu (c_v c) u with Some g => b' g | None => false end).
  assert (L : linked (v_gu (c_v c)) b' b) by (intros u g Eu; unfold b; rewrite Eu; reflexivity).
  exists b. split; [apply T; exists b'; auto|]. exact (proj1 (glob_all (c_v c) b' b A L Kn) Ha).
Qed.
(** Clauses, variables, assumptions, options and earlier calls of [solve], with at most 62 variables: the next call of [solve] ends.  Its answer says
    whether some assignment satisfies the clauses and the assumptions, unless the clause allocator is full.
    Partial for the same reason. *)
Theorem C50_decides_partial : forall pick judge io ks n,
  (forall k, In k ks -> match k with CAdd _ | CNewVar | CAssume _ | CSolve | CConfig _ => True | _ => False end) -> Forall (VarsBound.named_below n) ks ->
  (n + N.of_nat (length (filter (fun k => match k with CNewVar => true | _ => false end) ks)) <= 62)%N ->
  exists fuel, forall fuel', fuel <= fuel' ->
    run_all fuel' (ks ++ [CSolve]) (ctx_default pick judge io) = Panic PFull \/
    exists c answers b, run_all fuel' (ks ++ [CSolve]) (ctx_default pick judge io) = Ret (c, answers ++ [ASolved b]) /\
      (b = true <-> exists a, formula_holds a (added ks) = true /\ cube_holds a (assumed ks) = true).
Proof.
  intros pick judge io ks n Pl Nb B.
  assert (Pl' : forall k, In k (ks ++ [CSolve]) -> match k with CAdd _ | CNewVar | CAssume _ | CSolve | CConfig _ => True | _ => False end).
  { intros k I. apply in_app_or in I as [I|[<-|[]]]; [exact (Pl k I)|exact Logic.I]. }
  destruct (C50_history_partial pick judge io (ks ++ [CSolve]) n) as (fuel & r & R & M).
  { apply Forall_app. split; [exact Nb|]. constructor; [exact Logic.I|constructor]. }
  { rewrite filter_app. cbn [filter]. rewrite app_nil_r. etransitivity; [|exact B]. apply N.add_le_mono_l.
    assert (X : filter (fun k => match k with CHide _ | CNewVar => true | _ => false end) ks = filter (fun k => match k with CNewVar => true | _ => false end) ks).
    { apply filter_ext_in. intros k I. specialize (Pl k I). destruct k; try reflexivity. destruct Pl. }
    rewrite X. apply N.le_refl. }
  exists fuel. intros fuel' L. specialize (M fuel' L).
  pose proof (C39_plain_use fuel' pick judge io _ Pl') as Q. pose proof (M) as E. rewrite run_all_last in E.
  destruct (run_all fuel' (ks ++ [CSolve]) (ctx_default pick judge io)) as [[c0 an]|p|] eqn:E0.
  - right. destruct (run_all fuel' ks (ctx_default pick judge io)) as [[c answers]|p|] eqn:E1; cbn [bind] in E; try congruence.
    destruct (run fuel' CSolve c) as [[c2 a]|p|] eqn:E2; cbn [bind] in E; try congruence.
    assert (An : an = answers ++ [a]) by congruence. subst an. assert (c0 = c2) by congruence. subst c0.
    destruct (history_good _ _ _ _ _ _ _ E1) as (S & _ & So & (fr & vis & _ & _ & G) & V & _).
    destruct (spec_get _ _ _ (run_spec fuel' CSolve fr vis _ _ c G V) E2) as (S' & Ms & G2 & _ & T & _). cbn [tells assumed_after step_means] in *.
    assert (Nh : no_hide ks) by (intros v I; exact (Pl _ I)).
    assert (Sol : forall b, S b <-> formula_holds b (added ks) = true).
    { intros b. rewrite (So (no_hide_reveal _ Nh)). rewrite (solutions_added ks b Nh). unfold formula_holds. rewrite forallb_forall. reflexivity. }
    destruct a as [|sat|e|v|vs|ok]; try (unfold run, solve in E2; cbv zeta in E2; destruct (st_invalid _); [discriminate|]; destruct (schedule_loop _ _ _) as [x| |]; [|discriminate..];
      cbn [bind] in E2; destruct (solve_finished x) as [y| |]; [|discriminate..]; cbn [bind] in E2; destruct (take_error y) as [zz [e|]]; [discriminate|destruct (st_sat (c_st zz)); discriminate]).
    + exists c2, answers, sat. split; [congruence|]. destruct sat.
      * split; [intros _|reflexivity]. destruct (sat_assignment _ _ _ _ _ G2 T) as (b & Sb & Hb). exists b. split; [apply Sol; apply Ms; exact Sb|].
        unfold cube_holds. apply forallb_forall. exact Hb.
      * split; [discriminate|]. intros (b & Hb & Ha). exfalso.
        destruct (C28_unsat_clauses _ _ _ _ _ _ _ _ Nh E1 E2) as [Un _]. unfold formula_holds, cube_holds in *. rewrite forallb_forall in Hb, Ha. exact (Un b Hb Ha).
    + exfalso. apply (Q e). apply in_or_app. right. left. reflexivity.
  - left. congruence.
  - exfalso. apply R. congruence.
Qed.

(** Three pigeons and two holes, with a restart after every conflict, asked twice: once without and once with a new variable that switches the clauses off. *)
Definition C50_pigeons : list call :=
  [CConfig (Update None None None None (Some 1%N))] ++
  flat_map (fun i => [CAdd [P (2 * i); P (2 * i + 1); P 6]])%N [0; 1; 2]%N ++
  flat_map (fun h => map (fun '(i, j) => CAdd [M (2 * i + h); M (2 * j + h)])%N [(0, 1); (0, 2); (1, 2)]%N) [0; 1]%N ++
  [CAssume [M 6]; CSolve; CNewVar; CAssume []; CHide 6; CSolve].
Example C50_case : Forall (VarsBound.named_below 7) C50_pigeons /\
  (7 + N.of_nat (length (filter (fun k => match k with CHide _ | CNewVar => true | _ => false end) C50_pigeons)) <= 62)%N /\
  run_all 4 C50_pigeons plain_ctx = NoFuel /\
  match run_all 20 C50_pigeons plain_ctx with Ret (c, answers) => filter (fun a => match a with ASolved _ => true | _ => false end) answers = [ASolved false; ASolved true] /\
    (2 ^ v_slen (c_v c) < cf_luby_scale (c_cfg c) * 2 ^ 63)%N /\ v_slen (c_v c) = 7%N | _ => False end.
Proof.
  split; [repeat constructor|]. split; [vm_compute; discriminate|]. split; [vm_compute; reflexivity|]. vm_compute. repeat split; reflexivity.
Qed.
Print Assumptions C50_calls.
Print Assumptions C50_bound_irrelevant.
Print Assumptions C50_step.
Print Assumptions C50_conflicts.
Print Assumptions C50_solve_partial.
Print Assumptions C50_history_partial.
Print Assumptions C50_decides_partial.
