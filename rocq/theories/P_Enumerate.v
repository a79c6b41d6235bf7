(** C51: what [solve] answers depends on the meaning of the history only, and blocking the models that were found lists all solutions. *)
From Coq Require Import Lia Arith PeanoNat Permutation ZArith ZifyBool ZifyNat ZifyN.
From Verif Require Import Spec Lit LitProofs BinFormat Hash F32 Vsids VsidsProofs VsidsWf Luby Config P_Config Search SearchBase
  Propagate P_Search ClauseDb DbProofs Analyze AnalyzeProofs P_Analyze SolverCtx CtxFrame VarsProofs Solver SolverInv SolverSimplify
  SolverAdd SolverLoad SolverFailed SolverSearch SolverSolve P_Solver.
From Verif Require VarsBound TerminateLoop P_Terminate.
Local Open Scope nat_scope.

(** * Histories with the same meaning *)
Definition allows (ks : list call) (b : N -> bool) : Prop := solutions ks b /\ forall a, In a (assumed ks) -> lit_holds b a = true.
Lemma answer_right fuel pick judge io ks r c c' x : no_reveal ks -> run_all fuel ks (ctx_default pick judge io) = Ret (c, r) -> run fuel CSolve c = Ret (c', ASolved x) ->
  (x = true <-> exists b, allows ks b).
Proof.
  intros R E Es. destruct x.
  - split; [intros _|reflexivity]. destruct (history_good _ _ _ _ _ _ _ E) as (S & _ & So & (fr & vis & _ & _ & G) & V & _).
    destruct (spec_get _ _ _ (run_spec fuel CSolve fr vis _ _ c G V) Es) as (S' & Ms & G2 & _ & T & _). cbn [tells assumed_after step_means] in *.
    destruct (P_Terminate.sat_assignment _ _ _ _ _ G2 T) as (b & Sb & Hb). exists b. split; [apply (So R); apply Ms; exact Sb|exact Hb].
  - split; [discriminate|]. intros (b & Sb & Hb). exfalso. destruct (C28_unsat_solutions _ _ _ _ _ _ _ _ R E Es) as [Un _]. exact (Un b Sb Hb).
Qed.
(** Two solvers, however they are configured, checked and used before: if the assignments that their clauses and assumptions allow are the same, or just
    if both or none of them allow some, then they give the same answer. *)
Theorem C51_same_answer : forall fuel1 pick1 judge1 io1 ks1 r1 c1 d1 x1 fuel2 pick2 judge2 io2 ks2 r2 c2 d2 x2, no_reveal ks1 -> no_reveal ks2 ->
  run_all fuel1 ks1 (ctx_default pick1 judge1 io1) = Ret (c1, r1) -> run fuel1 CSolve c1 = Ret (d1, ASolved x1) ->
  run_all fuel2 ks2 (ctx_default pick2 judge2 io2) = Ret (c2, r2) -> run fuel2 CSolve c2 = Ret (d2, ASolved x2) ->
  ((exists b, allows ks1 b) <-> exists b, allows ks2 b) -> x1 = x2.
Proof.
  intros. assert (x1 = true <-> x2 = true) as Q.
  { etransitivity; [eapply answer_right with (ks := ks1); eassumption|]. etransitivity; [eassumption|]. symmetry. eapply answer_right with (ks := ks2); eassumption. }
  destruct x1, x2; try reflexivity; exfalso; destruct Q; intuition discriminate.
Qed.
(** In particular assumptions are the same as unit clauses for one call of [solve]. *)
Theorem C51_assumptions_as_units : forall fuel1 pick1 judge1 io1 F A r1 c1 d1 x1 fuel2 pick2 judge2 io2 r2 c2 d2 x2,
  run_all fuel1 (map CAdd F ++ [CAssume A]) (ctx_default pick1 judge1 io1) = Ret (c1, r1) -> run fuel1 CSolve c1 = Ret (d1, ASolved x1) ->
  run_all fuel2 (map CAdd F ++ map (fun a => CAdd [a]) A) (ctx_default pick2 judge2 io2) = Ret (c2, r2) -> run fuel2 CSolve c2 = Ret (d2, ASolved x2) -> x1 = x2.
Proof.
  intros fuel1 pick1 judge1 io1 F A r1 c1 d1 x1 fuel2 pick2 judge2 io2 r2 c2 d2 x2 E1 S1 E2 S2.
  assert (Ad : forall G, added (map CAdd G) = G) by (induction G as [|C G IH]; [reflexivity|]; cbn; unfold added in IH; rewrite IH; reflexivity).
  assert (As : forall G, assumed (map CAdd G) = []).
  { unfold assumed. intros G. generalize (@nil N). induction G as [|C G IH]; intros l; [reflexivity|]. cbn. apply IH. }
  assert (Nh1 : no_hide (map CAdd F ++ [CAssume A])) by (intros v I; apply in_app_or in I as [I|[I|[]]]; [apply in_map_iff in I as (C & I & _)|]; discriminate).
  assert (Nh2 : no_hide (map CAdd F ++ map (fun a => CAdd [a]) A)) by (intros v I; apply in_app_or in I as [I|I]; apply in_map_iff in I as (C & I & _); discriminate).
  rewrite <- (map_map (fun a => [a]) CAdd) in *.
  refine (C51_same_answer _ _ _ _ _ _ _ _ _ _ _ _ _ _ _ _ _ _ (no_hide_reveal _ Nh1) (no_hide_reveal _ Nh2) E1 S1 E2 S2 _).
  unfold allows. split; intros (b & Sb & Hb); exists b; rewrite solutions_added in * by assumption.
  - unfold added in Sb |- *. rewrite flat_map_app in *. fold (added (map CAdd F)) in *. fold (added (map CAdd (map (fun a => [a]) A))). rewrite !Ad in *. cbn [flat_map] in Sb. rewrite app_nil_r in Sb.
    assert (Ha : forall a, In a A -> lit_holds b a = true) by (intros a I; apply Hb; unfold assumed; rewrite fold_left_app; exact I).
    split; [|intros a I; unfold assumed in I; rewrite <- map_app in I; fold (assumed (map CAdd (F ++ map (fun a => [a]) A))) in I; rewrite As in I; destruct I].
    intros C I. apply in_app_or in I as [I|I]; [exact (Sb C I)|]. apply in_map_iff in I as (a & <- & I). cbn. rewrite (Ha a I). reflexivity.
  - unfold added in Sb |- *. rewrite flat_map_app in *. fold (added (map CAdd F)) in *. fold (added (map CAdd (map (fun a => [a]) A))) in *. rewrite !Ad in *. cbn [flat_map]. rewrite app_nil_r.
    split; [intros C I; apply Sb; apply in_or_app; left; exact I|]. intros a I. unfold assumed in I. rewrite fold_left_app in I. cbn [fold_left] in I.
    assert (Q : clause_holds b [a] = true) by (apply Sb; apply in_or_app; right; apply in_map_iff; exists a; auto). cbn in Q. rewrite Bool.orb_false_r in Q. exact Q.
Qed.

(** * Enumeration *)
(** The loop of a user of the API: call [solve], take the [model], forbid it by a clause, and start over, until there is no model left or [rounds] rounds are
    over.  The models, and whether the last answer was [Ok(false)]. *)
Fixpoint enumerate (fuel rounds : nat) (c : ctx) : out (list (list N) * bool) :=
  match rounds with
  | O => Ret ([], false)
  | S rounds =>
      do (c, a) <- run fuel CSolve c ;
      match a with
      | ASolved true =>
          do m <- get_model c ;
          match m with
          | Some m =>
              do (c, _) <- run fuel (CAdd (map lnot m)) c ;
              do (ms, done) <- enumerate fuel rounds c ; Ret (m :: ms, done)
          | None => Ret ([], false)
          end
      | ASolved false => Ret ([], true)
      | _ => Ret ([], false)
      end
  end.
Definition agrees (b : N -> bool) (m : list N) : Prop := forall l, In l m -> lit_holds b l = true.

Lemma blocked b m : clause_holds b (map lnot m) = true <-> ~ agrees b m.
Proof.
  rewrite ch_in. split.
  - intros (l & I & H) A. apply in_map_iff in I as (k & <- & I). specialize (A k I). rewrite lit_holds_lnot, A in H. discriminate.
  - intros H. induction m as [|k m IH]; [exfalso; apply H; intros l []|]. destruct (lit_holds b k) eqn:E.
    + destruct IH as (l & I & Hl); [intros A; apply H; intros l [<-|I]; [exact E|exact (A l I)]|]. exists l. split; [right; exact I|exact Hl].
    + exists (lnot k). split; [left; reflexivity|]. rewrite lit_holds_lnot, E. reflexivity.
Qed.
Lemma agrees_dec b m : agrees b m \/ ~ agrees b m.
Proof.
  induction m as [|k m IH]; [left; intros l []|]. destruct (lit_holds b k) eqn:E; [|right; intros A; rewrite (A k) in E; [discriminate|left; reflexivity]].
  destruct IH as [A|A]; [left; intros l [<-|I]; [exact E|exact (A l I)]|right; intros X; apply A; intros l I; apply X; right; exact I].
Qed.
Lemma no_reveal_more ks C : no_reveal ks -> no_reveal (ks ++ [CSolve; CAdd C]).
Proof.
  induction ks as [|k ks IH]; intros H; [exact Logic.I|]. cbn [app]. destruct k; cbn [no_reveal] in *; auto.
  intros I. apply in_app_or in I as [I|[I|[I|[]]]]; [exact (H I)|discriminate..].
Qed.
Lemma solutions_more ks C b : solutions (ks ++ [CSolve; CAdd C]) b <-> solutions ks b /\ clause_holds b C = true.
Proof. unfold solutions. rewrite fold_left_app. reflexivity. Qed.
Lemma assumed_more ks C : assumed (ks ++ [CSolve; CAdd C]) = assumed ks.
Proof. unfold assumed. rewrite fold_left_app. reflexivity. Qed.
Lemma more_run fuel ks c0 c r c1 C c2 a : run_all fuel ks c0 = Ret (c, r) -> run fuel CSolve c = Ret (c1, ASolved true) -> run fuel (CAdd C) c1 = Ret (c2, a) ->
  run_all fuel (ks ++ [CSolve; CAdd C]) c0 = Ret (c2, r ++ [ASolved true; a]).
Proof.
  intros E1 E2 E3. change [CSolve; CAdd C] with ([CSolve] ++ [CAdd C]). rewrite app_assoc. rewrite P_Terminate.run_all_last, P_Terminate.run_all_last, E1. cbn [bind]. rewrite E2. cbn [bind]. rewrite E3. cbn [bind].
  rewrite <- app_assoc. reflexivity.
Qed.

(** When the loop ends with [Ok(false)], every allowed assignment agrees with exactly one of the models, and everything that agrees with a model is allowed. *)
Theorem C51_enumeration : forall fuel rounds pick judge io ks r c ms, no_reveal ks ->
  run_all fuel ks (ctx_default pick judge io) = Ret (c, r) -> enumerate fuel rounds c = Ret (ms, true) ->
  forall b, (allows ks b <-> exists m, In m ms /\ agrees b m) /\
    forall i j m m', nth_error ms i = Some m -> nth_error ms j = Some m' -> agrees b m -> agrees b m' -> i = j.
Proof.
  intros fuel rounds pick judge io. induction rounds as [|rounds IH]; intros ks r c ms R E En b; cbn [enumerate] in En; [discriminate|].
  destruct (run fuel CSolve c) as [[c1 a]| |] eqn:E1; cbn [bind] in En; try discriminate. destruct a as [|[|]| | | |]; try discriminate.
  - destruct (get_model c1) as [m| |] eqn:Em; cbn [bind] in En; try discriminate. destruct (C27_model_solutions _ _ _ _ _ _ _ _ _ R E E1 Em) as (m' & -> & _ & Gi).
    rename m' into m. destruct (run fuel (CAdd (map lnot m)) c1) as [[c2 a]| |] eqn:E2; cbn [bind] in En; try discriminate.
    destruct (enumerate fuel rounds c2) as [[ms' d]| |] eqn:E3; cbn [bind] in En; try discriminate. injection En as <- ->.
    pose proof (more_run _ _ _ _ _ _ _ _ _ E E1 E2) as E4. destruct (IH _ _ _ _ (no_reveal_more _ _ R) E4 E3 b) as [I1 I2]. clear IH.
    unfold allows in I1. rewrite solutions_more, assumed_more, blocked in I1. split.
    + split.
      * intros [Sb Hb]. destruct (agrees_dec b m) as [A|A]; [exists m; split; [left; reflexivity|exact A]|].
        destruct (proj1 I1 (conj (conj Sb A) Hb)) as (m' & Im & Am). exists m'. split; [right; exact Im|exact Am].
      * intros (m' & [<-|Im] & Am); [exact (Gi b Am)|]. destruct (proj2 I1 (ex_intro _ m' (conj Im Am))) as [[Sb _] Hb]. split; assumption.
    + assert (X : forall i m', nth_error ms' i = Some m' -> agrees b m' -> ~ agrees b m).
      { intros i m' N A. apply nth_error_In in N. apply (proj2 I1 (ex_intro _ m' (conj N A))). }
      intros [|i] [|j] m1 m2 N1 N2 A1 A2; cbn [nth_error] in N1, N2; [reflexivity| | |f_equal; exact (I2 i j m1 m2 N1 N2 A1 A2)]; exfalso.
      * injection N1 as <-. exact (X _ _ N2 A2 A1).
      * injection N2 as <-. exact (X _ _ N1 A1 A2).
  - injection En as <-. split; [|intros [|i] j m m' N; discriminate]. split; [|intros (m & [] & _)]. intros [Sb Hb].
    destruct (C28_unsat_solutions _ _ _ _ _ _ _ _ R E E1) as [Un _]. exfalso. exact (Un b Sb Hb).
Qed.

(** * The loop ends *)
Fixpoint bit_lists (n : nat) : list (list bool) := match n with O => [[]] | S n => map (cons true) (bit_lists n) ++ map (cons false) (bit_lists n) end.
Definition from_bits (l : list bool) : N -> bool := fun x => nth (N.to_nat x) l false.
Definition to_bits (n : nat) (b : N -> bool) : list bool := map (fun i => b (N.of_nat i)) (seq 0 n).
Lemma bit_lists_in n : forall l, length l = n -> In l (bit_lists n).
Proof.
  induction n as [|n IH]; intros [|x l] H; try discriminate; cbn [bit_lists]; [left; reflexivity|]. injection H as H. apply in_or_app. destruct x; [left|right]; apply in_map; apply IH; exact H.
Qed.
Lemma from_to n b x : (x < N.of_nat n)%N -> from_bits (to_bits n b) x = b x.
Proof.
  intros H. unfold from_bits, to_bits. assert (L : N.to_nat x < length (seq 0 n)) by (rewrite seq_length; lia).
  rewrite (nth_indep _ false (b (N.of_nat 0))) by (rewrite map_length; exact L). rewrite (map_nth (fun i => b (N.of_nat i))). rewrite seq_nth by lia. rewrite Nat.add_0_l, N2Nat.id. reflexivity.
Qed.
Definition remaining (n : nat) (F : list (list N)) : nat := length (filter (fun l => formula_holds (from_bits l) F) (bit_lists n)).
Lemma filter_fewer {A} (p q : A -> bool) l x : (forall y, q y = true -> p y = true) -> In x l -> p x = true -> q x = false -> length (filter q l) < length (filter p l).
Proof.
  intros H I Px Qx. assert (Le : forall l, length (filter q l) <= length (filter p l)).
  { induction l0 as [|y l0 IH]; [reflexivity|]. cbn [filter]. destruct (q y) eqn:Qy; [rewrite (H y Qy); cbn [length]; lia|]. destruct (p y); cbn [length]; lia. }
  induction l as [|y l IH]; [destruct I|]. cbn [filter]. destruct I as [->|I].
  - rewrite Px, Qx. cbn [length]. specialize (Le l). lia.
  - specialize (IH I). destruct (q y) eqn:Qy; [rewrite (H y Qy); cbn [length]; lia|]. destruct (p y); cbn [length]; lia.
Qed.

Definition plain_call (k : call) : Prop := match k with CAdd _ | CAssume _ | CSolve | CConfig _ => True | _ => False end.
Lemma plain_covered ks : Forall plain_call ks -> covered ks = true.
Proof.
  intros H. unfold covered. assert (X : forall s, snd s = true -> snd (fold_left cover1 ks s) = true); [|apply X; reflexivity].
  induction H as [|k ks Hk H IH]; intros s E; [exact E|]. cbn [fold_left]. apply IH. destruct k; try destruct Hk; try exact E; reflexivity.
Qed.
Lemma plain_hide ks : Forall plain_call ks -> no_hide ks.
Proof. intros H v I. rewrite Forall_forall in H. exact (H _ I). Qed.
Lemma plain_extras ks : Forall plain_call ks -> VarsBound.extras ks = 0%N.
Proof. induction 1 as [|k ks Hk H IH]; [reflexivity|]. cbn [VarsBound.extras]. rewrite IH. destruct k; try destruct Hk; reflexivity. Qed.
Lemma plain_filter ks : Forall plain_call ks -> filter (fun k => match k with CHide _ | CNewVar => true | _ => false end) ks = [].
Proof. induction 1 as [|k ks Hk H IH]; [reflexivity|]. cbn [filter]. destruct k; try destruct Hk; exact IH. Qed.
Lemma solve_answers fuel c c' a : run fuel CSolve c = Ret (c', a) -> (exists b, a = ASolved b) \/ exists e, a = AError e.
Proof.
  intros E. unfold run, solve in E. cbv zeta in E. destruct (st_invalid _); [discriminate|]. destruct (schedule_loop _ _ _) as [x| |]; [|discriminate..]. cbn [bind] in E.
  destruct (solve_finished x) as [y| |]; [|discriminate..]. cbn [bind] in E. destruct (take_error y) as [zz [e|]]; [injection E as _ <-; eauto|destruct (st_sat (c_st zz)); injection E as _ <-; eauto].
Qed.

(** Clauses and assumptions over at most 62 variables: the loop ends, and with [Ok(false)], unless the clause allocator is full.
    Partial: see [C50_solve_partial]. *)
Theorem C51_enumeration_ends_partial : forall pick judge io ks n fuel0 c r, Forall plain_call ks -> Forall (VarsBound.named_below n) ks -> (n <= 62)%N ->
  run_all fuel0 ks (ctx_default pick judge io) = Ret (c, r) ->
  exists fuel, forall fuel' rounds, fuel <= fuel' -> 2 ^ N.to_nat n < rounds ->
    enumerate fuel' rounds c = Panic PFull \/ exists ms, enumerate fuel' rounds c = Ret (ms, true).
Proof.
  intros pick judge io ks n fuel0 c r Pl Nb Ln E.
  assert (Rm : remaining (N.to_nat n) (added ks) <= 2 ^ N.to_nat n).
  { unfold remaining. assert (Fl : forall (q : list bool -> bool) l, length (filter q l) <= length l) by (intros q; induction l as [|y l IHl]; [reflexivity|]; cbn [filter length]; destruct (q y); cbn [length]; lia). etransitivity; [apply Fl|]. clear. apply Nat.eq_le_incl. induction (N.to_nat n) as [|k IH]; [reflexivity|]. cbn [bit_lists]. rewrite app_length, !map_length, IH. cbn [Nat.pow]. lia. }
  enough (H : forall k ks fuel0 c r, Forall plain_call ks -> Forall (VarsBound.named_below n) ks -> run_all fuel0 ks (ctx_default pick judge io) = Ret (c, r) ->
    remaining (N.to_nat n) (added ks) <= k ->
    exists fuel, forall fuel' rounds, fuel <= fuel' -> k < rounds -> enumerate fuel' rounds c = Panic PFull \/ exists ms, enumerate fuel' rounds c = Ret (ms, true)).
  { destruct (H _ _ _ _ _ Pl Nb E Rm) as (fuel & Hf). exists fuel. intros fuel' rounds L1 L2. apply Hf; lia. }
  clear ks fuel0 c r Pl Nb E Rm. induction k as [k IH] using lt_wf_ind. intros ks fuel0 c r Pl Nb E Rk.
  assert (Pl1 : Forall plain_call (ks ++ [CSolve])) by (apply Forall_app; split; [exact Pl|repeat constructor]).
  assert (Nb1 : Forall (VarsBound.named_below n) (ks ++ [CSolve])) by (apply Forall_app; split; [exact Nb|repeat constructor]).
  assert (Pb : forall ks, Forall plain_call ks -> forall k, In k ks -> match k with CAdd _ | CNewVar | CAssume _ | CSolve | CConfig _ => True | _ => False end).
  { intros l H k0 I. rewrite Forall_forall in H. specialize (H k0 I). destruct k0; try destruct H; exact Logic.I. }
  destruct (P_Terminate.C50_history_partial pick judge io (ks ++ [CSolve]) n Nb1) as (fuel1 & res & R & M); [rewrite (plain_filter _ Pl1); cbn [length]; lia|].
  set (f := Nat.max fuel0 fuel1).
  assert (Ek : forall f', f <= f' -> run_all f' ks (ctx_default pick judge io) = Ret (c, r)).
  { intros f' L. rewrite (TerminateLoop.run_all_more fuel0 f') by (try (unfold f in L; lia); rewrite E; discriminate). exact E. }
  assert (Hq : run f CSolve c <> NoFuel).
  { intros X. apply R. rewrite <- (M f ltac:(unfold f; lia)), P_Terminate.run_all_last, (Ek f (le_n f)). cbn [bind]. rewrite X. reflexivity. }
  assert (Mq : forall f', f <= f' -> run f' CSolve c = run f CSolve c) by (intros f' L; apply TerminateLoop.run_more; [exact L|exact Hq]).
  pose proof (C39_plain_use f pick judge io _ (Pb _ Pl1)) as Q. rewrite P_Terminate.run_all_last, (Ek f (le_n f)) in Q. cbn [bind] in Q.
  assert (E1 : run_all f (ks ++ [CSolve]) (ctx_default pick judge io) = do (c, a) <- run f CSolve c ; Ret (c, r ++ [a])) by (rewrite P_Terminate.run_all_last, (Ek f (le_n f)); reflexivity).
  destruct (run f CSolve c) as [[c1 a]|p|] eqn:Es; [|exists f; intros f' rounds L1 L2; left; destruct rounds; [lia|]; cbn [enumerate]; rewrite (Mq f' L1); cbn [bind]; f_equal; exact Q|contradiction].
  cbn [bind] in E1. destruct (solve_answers _ _ _ _ Es) as [[b ->]|[e ->]]; [|exfalso; apply (Q e), in_or_app; right; left; reflexivity].
  destruct b; [|exists f; intros f' rounds L1 L2; right; exists []; destruct rounds; [lia|]; cbn [enumerate]; rewrite (Mq f' L1); reflexivity].
  pose proof (plain_hide _ Pl) as Nh. pose proof (no_hide_reveal _ Nh) as Nr.
  destruct (C27_model_returned _ _ _ _ _ _ _ _ (plain_covered _ Pl) (Ek f (le_n f)) Es) as (S0 & m & Em & _).
  destruct (C27_model_solutions _ _ _ _ _ _ _ _ _ Nr (Ek f (le_n f)) Es Em) as (m' & Eq & Nd & Gi). injection Eq as <-.
  assert (Hm : forall l, In l m -> (lit_var l < n)%N).
  { destruct (VarsBound.history_bnd n _ _ _ _ _ _ _ E1 Nb1) as (_ & _ & Bu). rewrite (plain_extras _ Pl1) in Bu.
    unfold get_model in Em. destruct (st_sat (c_st c1)); try discriminate. destruct (model_lits c1 _) as [r1| |] eqn:Er; try discriminate. cbn [bind] in Em. injection Em as ->.
    intros l I. destruct (model_lits_in c1 _ _ Er) as [H1 _]. apply H1 in I as (u & g & y & Iu & _ & _ & ->). rewrite lo_var. apply codes_in in Iu. lia. }
  set (C := map lnot m). assert (Pl2 : Forall plain_call (ks ++ [CSolve; CAdd C])) by (apply Forall_app; split; [exact Pl|repeat constructor]).
  assert (Nb2 : Forall (VarsBound.named_below n) (ks ++ [CSolve; CAdd C])).
  { apply Forall_app. split; [exact Nb|]. constructor; [exact Logic.I|]. constructor; [|constructor]. cbn [VarsBound.named_below]. apply Forall_forall. intros l I. apply in_map_iff in I as (x & <- & I). rewrite lnot_var. exact (Hm x I). }
  assert (Ha : run f (CAdd C) c1 <> NoFuel) by (apply P_Terminate.C50_calls; discriminate).
  assert (Ma : forall f', f <= f' -> run f' (CAdd C) c1 = run f (CAdd C) c1) by (intros f' L; apply TerminateLoop.run_more; [exact L|exact Ha]).
  pose proof (C39_plain_use f pick judge io _ (Pb _ Pl2)) as Q2. change [CSolve; CAdd C] with ([CSolve] ++ [CAdd C]) in Q2. rewrite app_assoc, P_Terminate.run_all_last, E1 in Q2. cbn [bind] in Q2.
  destruct (run f (CAdd C) c1) as [[c2 a2]|p|] eqn:Ea; [|exists f; intros f' rounds L1 L2; left; destruct rounds; [lia|]; cbn [enumerate]; rewrite (Mq f' L1); cbn [bind]; rewrite Em; cbn [bind]; fold C; rewrite (Ma f' L1); cbn [bind]; f_equal; exact Q2|contradiction].
  pose proof (more_run _ _ _ _ _ _ _ _ _ (Ek f (le_n f)) Es Ea) as E4.
  assert (Ad : added (ks ++ [CSolve; CAdd C]) = added ks ++ [C]) by (unfold added; rewrite flat_map_app; reflexivity).
  assert (De : remaining (N.to_nat n) (added (ks ++ [CSolve; CAdd C])) < remaining (N.to_nat n) (added ks)).
  { set (x := to_bits (N.to_nat n) (choose m [])). assert (Ag : agrees (from_bits x) m).
    { intros l I. specialize (Hm l I). pose proof (choose_true m [] Nd l I) as T. apply lh_true. apply lh_true in T. unfold x. rewrite from_to by lia. exact T. }
    destruct (Gi (from_bits x) Ag) as [Sx _]. pose proof (proj1 (solutions_added ks _ Nh) Sx) as Sc. unfold remaining. rewrite Ad. apply (filter_fewer _ _ _ x).
    - intros y Hy. unfold formula_holds in *. rewrite forallb_app in Hy. apply andb_prop in Hy. apply Hy.
    - apply bit_lists_in. unfold x, to_bits. rewrite map_length, seq_length. reflexivity.
    - unfold formula_holds. apply forallb_forall. exact Sc.
    - unfold formula_holds. rewrite forallb_app. cbn [forallb]. destruct (clause_holds (from_bits x) C) eqn:Ec; [exfalso; apply (proj1 (blocked _ _) Ec); exact Ag|]. rewrite !Bool.andb_false_r. reflexivity. }
  destruct (IH (k - 1) ltac:(lia) _ _ _ _ Pl2 Nb2 E4 ltac:(lia)) as (f2 & Hf2). exists (Nat.max f f2). intros f' rounds L1 L2. destruct rounds as [|rounds]; [lia|].
  cbn [enumerate]. rewrite (Mq f') by lia. cbn [bind]. rewrite Em. cbn [bind]. fold C. rewrite (Ma f') by lia. cbn [bind].
  destruct (Hf2 f' rounds ltac:(lia) ltac:(lia)) as [->|(ms & ->)]; [left; reflexivity|right; eexists; reflexivity].
Qed.
Print Assumptions C51_same_answer.
Print Assumptions C51_assumptions_as_units.
Print Assumptions C51_enumeration.
Print Assumptions C51_enumeration_ends_partial.

(** Three variables with four solutions under an assumption on a fourth *)
Definition C51_history : list call := [CAdd [P 0; P 1; P 2]; CAdd [M 0; M 2; M 3]; CAdd [M 3; P 1; P 0]; CAssume [P 3]].
Example C51_case : no_reveal C51_history /\ Forall plain_call C51_history /\ Forall (VarsBound.named_below 4) C51_history /\
  after (run_all 200 C51_history plain_ctx) (fun c _ => match enumerate 200 20 c with Ret (ms, true) => map (@length N) ms | _ => [] end) [] = [4; 4; 4; 4].
Proof. split; [exact Logic.I|]. split; [repeat constructor|]. split; [repeat constructor|]. vm_compute. reflexivity. Qed.
