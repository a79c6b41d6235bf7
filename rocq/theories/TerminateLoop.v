(** Why a call ends: the loop over the steps of the search, and the calls without a search. *)
From Coq Require Import Lia Arith PeanoNat Permutation ZArith ZifyBool ZifyNat ZifyN.
From Verif Require Import Spec Lit LitProofs BinFormat Hash F32 Vsids VsidsProofs VsidsWf Luby Config P_Config Search SearchBase
  Propagate P_Search ClauseDb DbProofs Analyze AnalyzeProofs P_Analyze SolverCtx CtxFrame VarsProofs Solver SolverInv SolverSimplify
  SolverAdd SolverLoad SolverFailed SolverSearch SolverSolve Terminate.
From Verif Require P_Luby.
Local Open Scope N_scope.

(** * The Luby sequence reaches its largest value again and again *)
(** The states of the iterator; it is at 0 after 2^64 - 1 rounds of the outer sequence. *)
Definition luby_ok (l : luby) : Prop :=
  lb_u l < 2^64 /\
  ((exists k a e, lb_u l = 2^k * (2 * a + 1) /\ lb_v l = 2^e /\ e <= k) \/
   (lb_u l = 0 /\ (lb_v l = 0 \/ exists e, e < 64 /\ lb_v l = 2^e))).
Lemma odd_part : forall n, n <> 0 -> exists k a, n = 2^k * (2 * a + 1).
Proof.
  intros n. induction n as [n IH] using (well_founded_induction N.lt_wf_0). intros H.
  destruct (N.even n) eqn:E.
  - apply N.even_spec in E as [m ->]. destruct (IH m ltac:(lia) ltac:(lia)) as (k & a & ->). exists (k + 1), a. rewrite N.pow_add_r. change (2^1) with 2. ring.
  - exists 0, (N.div2 n). assert (O : N.odd n = true) by (rewrite <- N.negb_even, E; reflexivity). rewrite N.pow_0_r. pose proof (N.div2_odd n) as D. rewrite O in D. cbn [N.b2n] in D. lia.
Qed.
Lemma small_pow k a : 2^k * (2 * a + 1) < 2^64 -> k < 64.
Proof.
  intros H. destruct (N.lt_ge_cases k 64) as [L|L]; [exact L|]. exfalso. assert (2^64 <= 2^k) by (apply N.pow_le_mono_r; lia). nia.
Qed.
Lemma wrap_zero x : N.land 0 x = 0.
Proof. apply N.land_0_l. Qed.
Lemma double_mod e : e < 63 -> N.shiftl (2^e) 1 mod 2^64 = 2^(e + 1).
Proof.
  intros L. rewrite N.shiftl_mul_pow2, <- N.pow_add_r, N.mod_small; [reflexivity|]. apply N.pow_lt_mono_r; lia.
Qed.
Lemma advance_up k a e : 2^k * (2 * a + 1) < 2^64 -> e < k -> luby_advance (Luby (2^k * (2 * a + 1)) (2^e)) = (2^e, Luby (2^k * (2 * a + 1)) (2^(e + 1))).
Proof.
  intros H L. pose proof (small_pow _ _ H). unfold luby_advance. cbn [lb_u lb_v]. rewrite P_Luby.lowbit_odd by exact H.
  destruct (N.eqb_spec (2^k) (2^e)) as [E|_]; [apply N.pow_inj_r in E; lia|]. rewrite double_mod by lia. reflexivity.
Qed.
Lemma advance_next k a : 2^k * (2 * a + 1) < 2^64 -> luby_advance (Luby (2^k * (2 * a + 1)) (2^k)) = (2^k, Luby ((2^k * (2 * a + 1) + 1) mod 2^64) 1).
Proof. intros H. unfold luby_advance. cbn [lb_u lb_v]. rewrite P_Luby.lowbit_odd by exact H. rewrite N.eqb_refl. reflexivity. Qed.
Lemma restart_ok u : u < 2^64 -> luby_ok (Luby u 1).
Proof.
  intros H. split; [exact H|]. cbn [lb_u lb_v]. destruct (N.eq_dec u 0) as [->|Z].
  - right. split; [reflexivity|]. right. exists 0. split; [lia|reflexivity].
  - left. destruct (odd_part u Z) as (k & a & ->). exists k, a, 0. split; [reflexivity|]. split; [reflexivity|lia].
Qed.
Lemma mod_below x : x mod 2^64 < 2^64.
Proof. apply N.mod_lt. discriminate. Qed.
Lemma advance_ok l : luby_ok l -> luby_ok (snd (luby_advance l)).
Proof.
  destruct l as [u v]. intros [H [(k & a & e & Eu & Ev & L)|(Eu & Ev)]]; cbn [lb_u lb_v] in *.
  - subst u v. destruct (N.eq_dec e k) as [->|NE].
    + rewrite advance_next by exact H. apply restart_ok. apply mod_below.
    + rewrite advance_up by (exact H || lia). split; [exact H|]. left. exists k, a, (e + 1). cbn [snd lb_u lb_v]. split; [reflexivity|]. split; [reflexivity|lia].
  - subst u. unfold luby_advance. cbn [lb_u lb_v snd]. rewrite wrap_zero. destruct (N.eqb_spec 0 v) as [E|E].
    + apply restart_ok. apply mod_below.
    + destruct Ev as [->|(e & L & ->)]; [congruence|]. split; [reflexivity|]. right. split; [reflexivity|]. cbn [lb_v].
      destruct (N.eq_dec e 63) as [->|NE]; [left; reflexivity|]. right. exists (e + 1). split; [lia|]. apply double_mod. lia.
Qed.
Lemma default_luby_ok : luby_ok luby_default.
Proof. apply restart_ok. reflexivity. Qed.

(** [m] steps later *)
Definition later (l l' : luby) : Prop := exists m, P_Luby.run m l = l'.
Lemma later_refl l : later l l.
Proof. exists 0%nat. reflexivity. Qed.
Lemma later_trans a b c : later a b -> later b c -> later a c.
Proof. intros (m & <-) (k & <-). exists (m + k)%nat. apply P_Luby.run_add. Qed.
Lemma later_one l x l' : luby_advance l = (x, l') -> later l l'.
Proof. intros E. exists 1%nat. cbn [P_Luby.run]. rewrite E. reflexivity. Qed.
Lemma doubling k a : 2^k * (2 * a + 1) < 2^64 -> forall d e, e + N.of_nat d = k -> later (Luby (2^k * (2 * a + 1)) (2^e)) (Luby (2^k * (2 * a + 1)) (2^k)).
Proof.
  intros H. induction d as [|d IH]; intros e E.
  - replace e with k by lia. apply later_refl.
  - eapply later_trans; [eapply later_one; apply advance_up; [exact H|lia]|]. apply IH. lia.
Qed.
Lemma zero_next : forall d e, e + N.of_nat d = 63 -> later (Luby 0 (2^e)) (Luby 1 1).
Proof.
  induction d as [|d IH]; intros e E.
  - replace e with 63 by lia. exists 2%nat. reflexivity.
  - eapply later_trans; [|apply (IH (e + 1)); lia]. eapply later_one. unfold luby_advance. cbn [lb_u lb_v]. rewrite wrap_zero.
    destruct (N.eqb_spec 0 (2^e)) as [Z|_]; [pose proof (N.pow_nonzero 2 e); lia|]. rewrite double_mod by lia. reflexivity.
Qed.
(** From every state the outer sequence goes on. *)
Lemma outer_next l : luby_ok l -> later l (Luby ((lb_u l + 1) mod 2^64) 1).
Proof.
  destruct l as [u v]. intros [H [(k & a & e & Eu & Ev & L)|(Eu & Ev)]]; cbn [lb_u lb_v] in *.
  - subst u v. eapply later_trans; [apply (doubling k a H (N.to_nat (k - e)) e); lia|]. eapply later_one. apply advance_next. exact H.
  - subst u. destruct Ev as [->|(e & L & ->)]; [exists 1%nat; reflexivity|]. apply (zero_next (N.to_nat (63 - e)) e). lia.
Qed.
Lemma outer_reach : forall d l, luby_ok l -> lb_u l + N.of_nat d < 2^64 -> exists v, later l (Luby (lb_u l + N.of_nat d) v) /\ luby_ok (Luby (lb_u l + N.of_nat d) v).
Proof.
  induction d as [|d IH]; intros l K H.
  - exists (lb_v l). rewrite N.add_0_r. destruct l. split; [apply later_refl|exact K].
  - pose proof (outer_next l K) as Nx. rewrite N.mod_small in Nx by lia.
    destruct (IH (Luby (lb_u l + 1) 1)) as (v & P & Q); [apply restart_ok; lia|cbn [lb_u]; lia|]. cbn [lb_u] in P, Q.
    replace (lb_u l + N.of_nat (S d)) with (lb_u l + 1 + N.of_nat d) by lia. exists v. split; [eapply later_trans; eassumption|exact Q].
Qed.
Lemma top_reached l : luby_ok l -> later l (Luby (2^63) (2^63)).
Proof.
  assert (Top : forall v, luby_ok (Luby (2^63) v) -> later (Luby (2^63) v) (Luby (2^63) (2^63))).
  { intros v [_ [(k & a & e & Eu & Ev & L)|(Eu & _)]]; cbn [lb_u lb_v] in *; [|discriminate]. subst v.
    assert (H : 2^k * (2 * a + 1) < 2^64) by (rewrite <- Eu; reflexivity).
    assert (k = 63 /\ a = 0) as [-> ->].
    { pose proof (small_pow _ _ H) as Lk. pose proof (P_Luby.lowbit_odd k a H) as Lb. rewrite <- Eu in Lb.
      assert (Lc : N.land (2^63) (wneg64 (2^63)) = 2^63) by reflexivity. rewrite Lb in Lc. apply N.pow_inj_r in Lc; [|lia]. subst k. split; [reflexivity|]. nia. }
    rewrite Eu. replace (2^63 * (2 * 0 + 1)) with (2^63) in * by lia. 
    pose proof (doubling 63 0 eq_refl (N.to_nat (63 - e)) e ltac:(lia)) as D. replace (2^63 * (2 * 0 + 1)) with (2^63) in D by lia. exact D. }
  assert (Low : forall l, luby_ok l -> lb_u l <= 2^63 -> later l (Luby (2^63) (2^63))).
  { intros l0 K L. assert (P : 2^63 < 2^64) by reflexivity. destruct (outer_reach (N.to_nat (2^63 - lb_u l0)) l0 K) as (v & P1 & P2); [lia|].
    replace (lb_u l0 + N.of_nat (N.to_nat (2^63 - lb_u l0))) with (2^63) in * by lia. eapply later_trans; [exact P1|apply Top; exact P2]. }
  intros K. destruct (N.le_gt_cases (lb_u l) (2^63)) as [L|L]; [apply Low; assumption|].
  assert (H : lb_u l < 2^64) by apply K. destruct (outer_reach (N.to_nat (2^64 - 1 - lb_u l)) l K) as (v & P1 & P2); [lia|].
  replace (lb_u l + N.of_nat (N.to_nat (2^64 - 1 - lb_u l))) with (2^64 - 1) in * by lia.
  eapply later_trans; [exact P1|]. eapply later_trans; [apply outer_next; exact P2|]. apply Low; [apply restart_ok; reflexivity|]. intros X; discriminate X.
Qed.

Local Open Scope nat_scope.
(** * More fuel changes nothing *)
Lemma find_more : forall fuel c fuel', fuel <= fuel' -> find_conflict fuel c <> NoFuel -> find_conflict fuel' c = find_conflict fuel c.
Proof.
  induction fuel as [|fuel IH]; intros c fuel' L H; [contradiction|]. destruct fuel' as [|fuel']; [lia|]. rewrite !find_round in *.
  destruct (round c) as [[c1 [f|]]|p|]; cbn [bind] in *; try reflexivity. apply IH; [lia|exact H].
Qed.
Lemma step_more fuel fuel' c : fuel <= fuel' -> schedule_step fuel c <> NoFuel -> schedule_step fuel' c = schedule_step fuel c.
Proof.
  intros L. unfold schedule_step. destruct (st_sat (c_st c)); try reflexivity. destruct (st_error (c_st c)); [reflexivity|]. cbv zeta.
  match goal with |- bind ?m _ <> _ -> _ => destruct m as [c1|p|] end; cbn [bind]; try reflexivity.
  destruct (collect_garbage _ _) as [[s d]|]; [|reflexivity]. destruct (d_full d); [reflexivity|]. unfold conflict_step.
  match goal with |- bind (bind (find_conflict fuel ?x) _) _ <> _ -> _ => pose proof (find_more fuel x fuel' L) as M; destruct (find_conflict fuel x) as [[c2 f]|p|] end; intros H.
  1,2: rewrite M by discriminate; reflexivity. exfalso. apply H. reflexivity.
Qed.
Lemma loop_more : forall n fuel fuel' n' c, fuel <= fuel' -> n <= n' -> schedule_loop fuel n c <> NoFuel -> schedule_loop fuel' n' c = schedule_loop fuel n c.
Proof.
  induction n as [|n IH]; intros fuel fuel' n' c L Ln H; [contradiction|]. destruct n' as [|n']; [lia|]. cbn [schedule_loop] in *.
  rewrite (step_more fuel fuel' c L) by (intros X; rewrite X in H; apply H; reflexivity).
  destruct (schedule_step fuel c) as [[c1 more]|p|]; cbn [bind] in *; try reflexivity. destruct more; [|reflexivity]. apply IH; [exact L|lia|exact H].
Qed.
Lemma run_more fuel fuel' k c : fuel <= fuel' -> run fuel k c <> NoFuel -> run fuel' k c = run fuel k c.
Proof.
  intros L H. destruct k; try reflexivity. cbn [run] in *. unfold solve in *. cbv zeta in *. destruct (st_invalid _); [reflexivity|].
  rewrite (loop_more fuel fuel fuel' fuel') by (try exact L; intros X; rewrite X in H; apply H; reflexivity). reflexivity.
Qed.
Lemma run_all_more fuel fuel' : fuel <= fuel' -> forall ks c, run_all fuel ks c <> NoFuel -> run_all fuel' ks c = run_all fuel ks c.
Proof.
  intros L. induction ks as [|k ks IH]; intros c H; [reflexivity|]. cbn [run_all] in *.
  rewrite (run_more fuel fuel') by (try exact L; intros X; rewrite X in H; apply H; reflexivity).
  destruct (run fuel k c) as [[c1 a]|p|]; cbn [bind] in *; try reflexivity.
  rewrite IH by (intros X; rewrite X in H; apply H; reflexivity). reflexivity.
Qed.

(** * The loop *)
(** The number of conflicts between two restarts is at most this. *)
Definition limit (n : nat) : nat := 2 ^ n - 1.
Lemma loop_over fuel s c : st_sat (c_st c) <> Unknown -> ends (schedule_loop fuel (S s) c).
Proof. intros H. cbn [schedule_loop]. unfold schedule_step. destruct (st_sat (c_st c)); try congruence; discriminate. Qed.
Lemma wt_max c : wt c <= limit (N.to_nat (v_slen (c_v c))).
Proof. unfold wt, limit. lia. Qed.
Lemma climb t z w S0 U F A fuel : forall g c, progress t z w S0 U F A c -> N.to_nat (v_slen (c_v c)) < fuel ->
  (forall i, i < g -> sc_next (c_sc c) <> (sc_conflicts (c_sc c) + N.of_nat i)%N) -> limit (N.to_nat (v_slen (c_v c))) < g + wt c ->
  ends (schedule_loop fuel (S g) c).
Proof.
  induction g as [|g IH]; intros c P L R W; [pose proof (wt_max c); lia|]. cbn [schedule_loop].
  destruct (schedule_step_grows t z w S0 U F A fuel c P) as [E Q]. apply ends_bind; [apply E; exact L|]. intros [c1 more] E1.
  destruct more; [|discriminate]. specialize (Q _ E1). cbn [fst snd] in Q. destruct Q as (V1 & _ & Q). destruct (Q eq_refl) as (C1 & Q1).
  assert (Rf : restarts c = false). { unfold restarts. apply N.eqb_neq. specialize (R 0 ltac:(lia)). rewrite N.add_0_r in R. exact R. }
  rewrite Rf in Q1. destruct Q1 as (N1 & _ & W1). destruct (st_sat (c_st c1)) eqn:S1; try (apply loop_over; congruence).
  specialize (W1 eq_refl). apply IH.
  - apply (spec_get _ _ _ (schedule_step_spec t z w S0 U F A fuel c P) E1).
  - rewrite V1. exact L.
  - intros i Li. rewrite N1, C1. specialize (R (S i) ltac:(lia)). lia.
  - rewrite V1. lia.
Qed.
Lemma run_up t z w S0 U F A fuel : forall g c, progress t z w S0 U F A c -> N.to_nat (v_slen (c_v c)) < fuel ->
  sc_next (c_sc c) = (sc_conflicts (c_sc c) + N.of_nat g)%N ->
  (forall c', progress t z w S0 U F A c' -> v_slen (c_v c') = v_slen (c_v c) -> c_cfg c' = c_cfg c -> sc_luby (c_sc c') = sc_luby (c_sc c) ->
     restarts c' = true -> exists s, ends (schedule_loop fuel s c')) ->
  exists s, ends (schedule_loop fuel s c).
Proof.
  induction g as [|g IH]; intros c P L R H.
  - apply H; auto. unfold restarts. rewrite R, N.add_0_r. apply N.eqb_refl.
  - destruct (schedule_step_grows t z w S0 U F A fuel c P) as [E Q]. specialize (E L).
    assert (Rf : restarts c = false) by (unfold restarts; apply N.eqb_neq; lia). rewrite Rf in Q.
    destruct (schedule_step fuel c) as [[c1 more]|p|] eqn:E1; [|exists 1; cbn [schedule_loop]; rewrite E1; discriminate|contradiction].
    specialize (Q _ eq_refl). cbn [fst snd] in Q. destruct Q as (V1 & F1 & Q). destruct more; [|exists 1; cbn [schedule_loop]; rewrite E1; discriminate].
    destruct (Q eq_refl) as (C1 & N1 & B1 & _).
    destruct (IH c1) as (s & Es).
    + apply (spec_get _ _ _ (schedule_step_spec t z w S0 U F A fuel c P) E1).
    + rewrite V1. exact L.
    + rewrite N1, C1, R. lia.
    + intros c' P' V' F' B'. apply H; congruence || assumption.
    + exists (S s). cbn [schedule_loop]. rewrite E1. exact Es.
Qed.
Lemma long_enough t z w S0 U F A fuel : forall m c, progress t z w S0 U F A c -> N.to_nat (v_slen (c_v c)) < fuel ->
  (N.of_nat (limit (N.to_nat (v_slen (c_v c)))) + 1 < cf_luby_scale (c_cfg c) * lb_v (P_Luby.run m (sc_luby (c_sc c))))%N ->
  exists s, ends (schedule_loop fuel s c).
Proof.
  induction m as [|m IH]; intros c P L H; (destruct (N.lt_ge_cases (sc_next (c_sc c)) (sc_conflicts (c_sc c))) as [Lt|Ge];
    [eexists; apply (climb t z w S0 U F A fuel (S (limit (N.to_nat (v_slen (c_v c))))) c P L); [intros i _; lia|lia]|]).
  all: apply (run_up t z w S0 U F A fuel (N.to_nat (sc_next (c_sc c) - sc_conflicts (c_sc c))) c P L); [lia|];
    intros c' P' V' F' B' R'; rewrite <- V', <- F', <- B' in H; rewrite <- V' in L; clear c P Ge V' F' B'; rename c' into c, P' into P.
  all: destruct (schedule_step_grows t z w S0 U F A fuel c P) as [E Q]; specialize (E L); rewrite R' in Q;
    (destruct (schedule_step fuel c) as [[c1 more]|p|] eqn:E1; [|exists 1; cbn [schedule_loop]; rewrite E1; discriminate|contradiction]);
    specialize (Q _ eq_refl); cbn [fst snd] in Q; destruct Q as (V1 & F1 & Q);
    (destruct more; [|exists 1; cbn [schedule_loop]; rewrite E1; discriminate]); destruct (Q eq_refl) as (C1 & N1 & B1);
    pose proof (proj1 (spec_get _ _ _ (schedule_step_spec t z w S0 U F A fuel c P) E1)) as P1.
  - unfold restarts in R'. apply N.eqb_eq in R'. cbn [P_Luby.run] in H. change (fst (luby_advance (sc_luby (c_sc c)))) with (lb_v (sc_luby (c_sc c))) in N1.
    assert (C : ends (schedule_loop fuel (S (S (limit (N.to_nat (v_slen (c_v c)))))) c1)).
    { apply (climb t z w S0 U F A fuel _ c1 P1); [rewrite V1; exact L| |rewrite V1; lia]. intros i Li. rewrite N1, C1, R'. intros Eq. lia. }
    remember (S (S (limit (N.to_nat (v_slen (c_v c)))))) as s. exists (S s). cbn [schedule_loop]. rewrite E1. exact C.
  - destruct (IH c1 P1) as (s & Es); [rewrite V1; exact L| |].
    + rewrite V1, F1, B1. exact H.
    + exists (S s). cbn [schedule_loop]. rewrite E1. exact Es.
Qed.

(** * Calls that do not search *)
(** The computation ends and does not touch the restart schedule. *)
Definition clk {A} (c0 : ctx) (pr : A -> ctx) (m : out A) : Prop :=
  match m with Ret a => c_sc (pr a) = c_sc c0 | Panic _ => True | NoFuel => False end.
Notation self := (fun c : ctx => c).
Lemma clk_bind {A B} c0 (pa : A -> ctx) (pb : B -> ctx) m f : clk c0 pa m -> (forall a, clk (pa a) pb (f a)) -> clk c0 pb (bind m f).
Proof.
  intros H K. destruct m as [a|p|]; cbn [bind clk] in *; auto. specialize (K a). destruct (f a); cbn [clk] in *; auto. congruence.
Qed.
Lemma clk_as {A} c0 c1 (pa : A -> ctx) m : c_sc c1 = c_sc c0 -> clk c1 pa m -> clk c0 pa m.
Proof. intros E H. destruct m; cbn [clk] in *; auto. congruence. Qed.
Lemma clk_frame c m : ends m -> post m (frame c) -> clk c self m.
Proof. intros E P. destruct m as [c'|p|]; cbn [clk]; auto. destruct (P _ eq_refl) as (e & p & ->). reflexivity. Qed.
Lemma clk_step sv s c : clk c self (add_step sv s c).
Proof. apply clk_frame; [apply ends_step|apply add_step_post]. Qed.
Lemma clk_proof cl c : clk c self (proof_add_clause cl c).
Proof.
  apply clk_frame; [|apply proof_add_clause_post]. unfold proof_add_clause. destruct (st_invoked _); [apply ends_step|]. apply ends_bind; [|intros c1 _; discriminate].
  destruct (p_checker _); [|discriminate]. destruct (map_lits _ _); [apply ends_ask|discriminate].
Qed.
Lemma clk_gfu1 u rs c : clk c fst (global_from_user1 u rs c).
Proof.
  unfold global_from_user1. cbv zeta. destruct (v_gu (c_v c) u); [destruct (_ && _); [exact Logic.I|reflexivity]|].
  eapply (clk_bind _ self); [|intros c1; reflexivity]. eapply clk_as; [|apply clk_step]. reflexivity.
Qed.
Lemma clk_fill : forall n c, clk c self (fill_users n c).
Proof.
  induction n as [|n IH]; intros c; cbn [fill_users]; [reflexivity|]. eapply (clk_bind _ fst); [apply clk_gfu1|]. intros [c1 g]. apply IH.
Qed.
Lemma clk_gfu u rs c : clk c fst (global_from_user u rs c).
Proof. unfold global_from_user. eapply (clk_bind _ self); [apply clk_fill|]. intros c1. apply clk_gfu1. Qed.
Lemma clk_sfg g c : clk c fst (solver_from_global g c).
Proof.
  unfold solver_from_global. cbv zeta. destruct (v_sg (c_v c) g); [reflexivity|]. eapply (clk_bind _ self); [|intros c1; eapply (clk_bind _ self); [apply clk_step|intros c2; reflexivity]].
  unfold initialize_solver_var. cbv zeta. destruct (vsids_reset _ _); [reflexivity|exact Logic.I].
Qed.
Lemma clk_lits rs : forall l c, clk c fst (solver_from_user_lits l rs c).
Proof.
  induction l as [|x l IH]; intros c; cbn [solver_from_user_lits]; [reflexivity|]. eapply (clk_bind _ fst).
  - unfold solver_from_user. eapply (clk_bind _ fst); [apply clk_gfu|]. intros [c1 g]. apply clk_sfg.
  - intros [c1 y]. eapply (clk_bind _ fst); [apply IH|]. intros [c2 r]. reflexivity.
Qed.
Lemma clk_delete g c : clk c self (delete_global_if_unused g c).
Proof.
  unfold delete_global_if_unused. cbv zeta. destruct (v_ug (c_v c) g); [reflexivity|]. destruct (v_sg (c_v c) g); [reflexivity|].
  destruct (negb _); [exact Logic.I|]. destruct (negb _); [reflexivity|]. eapply (clk_bind _ self); [|intros c1; reflexivity]. eapply clk_as; [|apply clk_step]. reflexivity.
Qed.
Lemma clk_mode g m c : clk c fst (set_sampling_mode g m c).
Proof.
  unfold set_sampling_mode. cbv zeta. destruct (vd_deleted _); [exact Logic.I|]. destruct (vd_assumed _); [exact Logic.I|]. destruct (smode_eqb _ m); [reflexivity|].
  eapply (clk_bind _ self).
  - destruct (smode_eqb m Hide); [reflexivity|]. eapply clk_as; [|apply clk_step]. reflexivity.
  - intros c1. destruct (smode_eqb _ Hide).
    + eapply (clk_bind _ self); [|intros c2; reflexivity]. eapply clk_as; [|apply clk_step]. reflexivity.
    + destruct (smode_eqb m Hide); [|reflexivity]. eapply (clk_bind _ self); [eapply clk_as; [|apply clk_step]; reflexivity|].
      intros c2. eapply (clk_bind _ self); [apply clk_delete|]. intros c3. reflexivity.
Qed.
Lemma clk_observe : forall n g c, clk c fst (observe_loop n g c).
Proof.
  induction n as [|n IH]; intros g c; cbn [observe_loop]; [reflexivity|]. cbv zeta. destruct (_ && _); [|apply IH].
  eapply (clk_bind _ fst); [apply clk_mode|]. intros [c1 [u|]]; [|exact Logic.I]. eapply (clk_bind _ fst); [apply IH|]. intros [c2 r]. reflexivity.
Qed.
Lemma clk_data f : forall l c, clk c self (map_data_lits l f c).
Proof.
  induction l as [|x l IH]; intros c; cbn [map_data_lits]; [reflexivity|]. eapply (clk_bind _ self); [|intros c1; apply IH].
  unfold map_data_solver. destruct (v_gs _ _); [reflexivity|exact Logic.I].
Qed.
Lemma full_restart_sc c : c_sc (full_restart c) = c_sc c.
Proof. unfold full_restart, backtrack_to. cbv zeta. destruct (backtrack _ _ _). reflexivity. Qed.
Lemma clk_load l c : clk c self (load_clause l c).
Proof.
  unfold load_clause. destruct (st_sat (c_st c)) eqn:St; try reflexivity; cbv zeta.
  all: eapply (clk_bind _ fst); [eapply clk_as; [|apply clk_lits]; rewrite full_restart_sc; reflexivity|]; intros [c1 ls]; cbn [fst].
  all: eapply (clk_bind _ self); [apply clk_proof|]; intros c2; (destruct (tautology _); [reflexivity|]).
  all: eapply (clk_bind _ self); [destruct (Nat.ltb _ _); [apply clk_data|reflexivity]|]; intros c3; destruct (scan_lits _ _) as [[kept fl] tr].
  all: destruct tr; [destruct (Nat.ltb _ _); [eapply clk_as; [|apply clk_step]; reflexivity|reflexivity]|].
  all: destruct (kept ++ fl) as [|l0 [|l1 [|l2 r]]]; try reflexivity.
  all: try (destruct kept; reflexivity).
  all: eapply (clk_bind _ fst); [|intros [c4 x]; reflexivity]; unfold db_add_clause; destruct (add_long _ _ _ _) as [[s d] x]; destruct (d_full d); [exact Logic.I|reflexivity].
Qed.
Lemma clk_assume l c : clk c self (set_assumptions l c).
Proof.
  unfold set_assumptions. cbv zeta. eapply (clk_bind _ self); [eapply clk_as; [|apply clk_data]; rewrite <- (full_restart_sc c); destruct (st_sat _); reflexivity|].
  intros c1. eapply (clk_bind _ fst); [apply clk_lits|]. intros [c2 ls]. eapply (clk_bind _ self); [eapply clk_as; [|apply clk_data]; reflexivity|]. intros c3. apply clk_step.
Qed.
Lemma clk_close c : clk c self (close_proof c).
Proof.
  unfold close_proof. eapply (clk_bind _ self); [apply clk_step|]. intros c1. cbv zeta. unfold flush_proof.
  destruct (handle_io_frame c1 (match p_format (c_pf c1) with Some _ => p_io (c_pf c1) (p_out (c_pf c1)) | None => false end)) as (e & p & ->). reflexivity.
Qed.
Lemma take_error_sc c : c_sc (fst (take_error c)) = c_sc c.
Proof. unfold take_error. destruct (st_error _); reflexivity. Qed.
Lemma clk_run fuel k c : k <> CSolve -> clk c fst (run fuel k c).
Proof.
  intros Nk. destruct k; cbn [run]; try congruence.
  - eapply (clk_bind _ self); [apply clk_load|]. intros c1. reflexivity.
  - eapply (clk_bind _ fst); [|intros [c1 u]; reflexivity]. unfold new_user_var. cbv zeta. eapply (clk_bind _ fst); [eapply clk_as; [|apply clk_gfu]; reflexivity|].
    intros [c1 g]. reflexivity.
  - eapply (clk_bind _ self); [|intros c1; reflexivity]. unfold change_mode. eapply (clk_bind _ fst); [apply clk_gfu|]. intros [c1 g]. eapply (clk_bind _ fst); [apply clk_mode|]. intros [c2 o]. reflexivity.
  - eapply (clk_bind _ self); [|intros c1; reflexivity]. unfold change_mode. eapply (clk_bind _ fst); [apply clk_gfu|]. intros [c1 g]. eapply (clk_bind _ fst); [apply clk_mode|]. intros [c2 o]. reflexivity.
  - eapply (clk_bind _ self); [|intros c1; reflexivity]. unfold change_mode. eapply (clk_bind _ fst); [apply clk_gfu|]. intros [c1 g]. eapply (clk_bind _ fst); [apply clk_mode|]. intros [c2 o]. reflexivity.
  - eapply (clk_bind _ fst); [apply clk_observe|]. intros [c1 l]. reflexivity.
  - eapply (clk_bind _ self); [apply clk_assume|]. intros c1. reflexivity.
  - destruct (st_empty _); [reflexivity|exact Logic.I].
  - eapply (clk_bind _ self); [apply clk_close|]. intros c1. pose proof (take_error_sc c1) as T. destruct (take_error c1) as [c2 [e|]]; exact T.
  - destruct (st_empty _); [reflexivity|exact Logic.I].
  - destruct (update_apply _ _) as [ok cfg]. destruct ok; [|reflexivity]. destruct (_ && _); [reflexivity|exact Logic.I].
Qed.
Lemma clk_ends {A} c (pr : A -> ctx) m : clk c pr m -> ends m.
Proof. intros H E. rewrite E in H. exact H. Qed.

(** * The state of the Luby iterator *)
Lemma step_stops fuel c c' : schedule_step fuel c = Ret (c', false) -> c' = c.
Proof.
  unfold schedule_step. destruct (st_sat (c_st c)); try (intros E; injection E as <-; reflexivity). destruct (st_error (c_st c)); [intros E; injection E as <-; reflexivity|]. cbv zeta.
  match goal with |- bind ?m _ = _ -> _ => destruct m as [c1|p|] end; cbn [bind]; try discriminate.
  destruct (collect_garbage _ _) as [[s d]|]; [|discriminate]. destruct (d_full d); [discriminate|].
  match goal with |- bind ?m _ = _ -> _ => destruct m as [c2|p|] end; cbn [bind]; discriminate.
Qed.
Lemma loop_luby t z w S0 U F A fuel : forall n c, progress t z w S0 U F A c -> luby_ok (sc_luby (c_sc c)) -> post (schedule_loop fuel n c) (fun c' => luby_ok (sc_luby (c_sc c'))).
Proof.
  induction n as [|n IH]; intros c P L; cbn [schedule_loop]; [apply post_nofuel|]. intros c' E.
  destruct (schedule_step fuel c) as [[c1 more]|p|] eqn:E1; cbn [bind] in E; try discriminate. destruct more.
  - apply (IH c1); [apply (spec_get _ _ _ (schedule_step_spec t z w S0 U F A fuel c P) E1)| |exact E].
    destruct (proj2 (schedule_step_grows t z w S0 U F A fuel c P) _ E1) as (_ & _ & Q). destruct (Q eq_refl) as (_ & Q1). cbn [fst] in Q1.
    destruct (restarts c); [destruct Q1 as (_ & ->); apply advance_ok; exact L|destruct Q1 as (_ & -> & _); exact L].
  - injection E as <-. apply step_stops in E1. subst c1. exact L.
Qed.
Lemma finished_sc c : post (solve_finished c) (fun c' => c_sc c' = c_sc c).
Proof. intros c' E. destruct (spec_get _ _ _ (solve_finished_spec c) E) as (e & p & ->). reflexivity. Qed.
Lemma invoked_progress t z w S0 U F A c : progress t z w S0 U F A c -> progress t z w S0 U F A (set_invoked c true).
Proof. apply progress_st. eexists. exists (c_pf c). split; reflexivity. Qed.
Lemma solve_luby t z w S0 U F A fuel c : progress t z w S0 U F A c -> luby_ok (sc_luby (c_sc c)) -> post (solve fuel c) (fun r => luby_ok (sc_luby (c_sc (fst r)))).
Proof.
  intros P L. unfold solve. cbv zeta. destruct (st_invalid _); [apply post_panic|].
  eapply post_bind; [apply (loop_luby t z w S0 U F A); [apply invoked_progress; exact P|exact L]|]. intros c1 L1. cbv beta in L1.
  eapply post_bind; [apply finished_sc|]. intros c2 E2. cbv beta in E2. rewrite <- E2 in L1. pose proof (take_error_sc c2) as T.
  destruct (take_error c2) as [c3 [e|]]; apply post_ret; cbn [fst] in *; rewrite T; exact L1.
Qed.
Lemma ends_solve fuel c : ends (schedule_loop fuel fuel (set_invoked c true)) -> ends (solve fuel c).
Proof.
  intros H. unfold solve. cbv zeta. destruct (st_invalid _); [discriminate|]. apply ends_bind; [exact H|]. intros c1 _. apply ends_bind.
  - unfold solve_finished. cbv zeta. destruct (p_checker _); [apply ends_ask|discriminate].
  - intros c2 _. destruct (take_error c2) as [c3 [e|]]; discriminate.
Qed.
