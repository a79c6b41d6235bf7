(** The checker follows the loading of clauses and assumptions (load.rs, assumptions.rs). *)
From Coq Require Import Lia Arith PeanoNat Permutation Sorted ZArith ZifyBool ZifyNat ZifyN.
From Verif Require Import Spec Lit LitProofs BinFormat Hash HashProofs SortedLits F32 Vsids VsidsProofs VsidsWf Luby Config Search SearchBase
  Propagate P_Search ClauseDb DbProofs Analyze AnalyzeProofs Rup AnalyzeHints P_Hints SolverCtx CtxFrame VarsProofs Solver SolverInv SolverSimplify SolverAdd
  SolverLoad SolverSearch CtxEvents P_Proof ProofLog ProofSim ProofDerive ProofUnits.
From Verif Require SortedLitsProofs Checker CheckerSteps CheckerRun CheckerSafe CheckerNames CheckerUsers CheckerCount CheckerValid.
Local Open Scope N_scope.

(** * Variables in clauses and assumptions are sampling variables *)
Definition sampled (v : vars) (l : list N) : Prop := forall x g, In x l -> v_gs v (lit_var x) = Some g -> vd_mode (v_data v g) = Sample.
Lemma spec_post {A} (m : out A) (P Q : A -> Prop) : spec m P -> post m Q -> spec m (fun a => P a /\ Q a).
Proof. intros H K. destruct m as [a|p|]; cbn in *; auto. Qed.
Lemma spec_to_post {A} (m : out A) (P : A -> Prop) : spec m P -> post m P.
Proof. intros H a E. rewrite E in H. exact H. Qed.
Lemma gfu1_sample u c : base0 c -> u <= v_ulen (c_v c) -> post (global_from_user1 u true c) (fun '(c', g) => vd_mode (v_data (c_v c') g) = Sample).
Proof.
  intros B LE [c' g]. unfold global_from_user1. cbv zeta. destruct (v_gu (c_v c) u) as [h|] eqn:E.
  - cbn [andb]. destruct (vd_mode (v_data (c_v c) h)) eqn:M; cbn [smode_eqb negb]; try discriminate. intros X. injection X as <- <-. exact M.
  - fold (fresh_global (c_v c) u). set (h := fresh_global (c_v c) u).
    change (bind (add_step false (UserVarName h (Some u)) (add_var c u h)) (fun c => Ret (c, h)) = Ret (c', g) -> vd_mode (v_data (c_v c') g) = Sample).
    assert (SP : spec (add_step false (UserVarName h (Some u)) (add_var c u h)) (frame (add_var c u h))) by (apply add_step_spec; discriminate).
    destruct (add_step false (UserVarName h (Some u)) (add_var c u h)) as [c1| |]; cbn [bind]; try discriminate.
    intros X. injection X as <- <-. cbn [spec] in SP. rename SP into F.
    rewrite (frame_v _ _ F). cbn [add_var cw_v c_v v_add v_data]. rewrite upd_eq. reflexivity.
Qed.
Lemma gfu_sample u c : base0 c -> post (global_from_user u true c) (fun '(c', g) => vd_mode (v_data (c_v c') g) = Sample).
Proof.
  intros B. unfold global_from_user. eapply post_bind; [apply spec_to_post, (fill_users_steps _ c B)|]. intros c1 [V1 E1].
  apply gfu1_sample; [exact (vsteps_base0 _ _ (vadds_steps _ _ V1) B)|lia].
Qed.
Lemma sful_sample : forall l c, base0 c -> post (solver_from_user_lits l true c) (fun '(c', r) => sampled (c_v c') r).
Proof.
  induction l as [|u l IH]; intros c B; cbn [solver_from_user_lits]; [apply post_ret; intros x g []|].
  eapply post_bind with (P := fun '(c', x) => base0 c' /\ exists g, v_gs (c_v c') x = Some g /\ vd_mode (v_data (c_v c') g) = Sample).
  { unfold solver_from_user. eapply post_bind; [apply spec_to_post, spec_post; [apply (global_from_user_steps (lit_var u) true c B)|apply (gfu_sample (lit_var u) c B)]|].
    intros [c1 g] [[E1 V1] M1]. pose proof (vsteps_base0 _ _ (vadds_steps _ _ V1) B) as B1.
    pose proof (gu_alive _ _ _ (z_vars _ B1) E1) as AL. intros [c2 x] E. pose proof (spec_to_post _ _ (solver_from_global_steps g c1 B1 AL) _ E) as [G2 V2].
    split; [exact (vsteps_base0 _ _ V2 B1)|]. exists g. split; [exact G2|]. rewrite (vsteps_data _ _ _ V2 B1 AL). exact M1. }
  intros [c1 x] (B1&g&G1&M1).
  eapply post_bind; [apply spec_to_post, spec_post; [apply (solver_from_user_lits_steps true l c1 B1)|apply (IH c1 B1)]|].
  intros [c2 r] ((_&_&V2)&S2). apply post_ret. intros y h [<-|I]; [|apply S2; exact I]. rewrite lo_var.
  rewrite (vsteps_gs _ _ _ _ V2 B1 G1). intros X. injection X as <-. rewrite (vsteps_data _ _ _ V2 B1 (gs_alive _ _ _ B1 G1)). exact M1.
Qed.
Lemma sampled_modes v es l : vars_ok v -> names_rel v es -> named v l -> sampled v l ->
  Forall (fun x => CheckerUsers.var_modes es (lit_var x) = Checker.Sample) (gls v l).
Proof.
  intros OK NR NM SA. apply Forall_forall. intros x I. apply gls_in in I as (y&<-&I). destruct (v_gs v (lit_var y)) as [g|] eqn:E; [|destruct (NM y I E)].
  rewrite (proj1 (gl_named _ _ _ E)), (nr_mode _ _ NR). unfold mode_of. rewrite (SA y g I E). destruct (vd_deleted _); reflexivity.
Qed.

(** * Backtracking *)
Lemma gfix_same v s s' : (forall x y, fixv s' x y <-> fixv s x y) -> forall l, gfix v s l <-> gfix v s' l.
Proof. intros H l. unfold gfix. destruct (v_sg v (lit_var l)); [symmetry; apply H|reflexivity]. Qed.
Lemma orel_fixed A c c' es : c_v c' = c_v c -> s_lits (c_s c') = s_lits (c_s c) -> (forall x y, fixv (c_s c') x y <-> fixv (c_s c) x y) ->
  c_d c' = c_d c -> c_bin c' = c_bin c -> orel A c es -> orel A c' es.
Proof.
  intros E1 E2 E3 E4 E5 [NR R]. unfold orel. rewrite E1, E4, E5. split; [exact NR|]. eapply db_ext; [| |intros l; reflexivity|exact R].
  - unfold entries. erewrite (map_ext (long_entry (c_v c) (c_s c') (c_d c))); [apply Permutation_refl|]. intros x. unfold long_entry. rewrite E2. reflexivity.
  - apply gfix_same. exact E3.
Qed.
Lemma backtrack_fixed f F A c k : inv f F A c -> (f = true -> (k < clevel (c_s c))%nat) ->
  s_lits (c_s (backtrack_to k c)) = s_lits (c_s c) /\ (forall x y, fixv (c_s (backtrack_to k c)) x y <-> fixv (c_s c) x y).
Proof.
  intros K Hf. destruct (backtrack_inv f F A c k K Hf) as (_&U&E&_). destruct (Nat.lt_ge_cases k (clevel (c_s c))) as [H|H].
  - specialize (U H). split; [exact (ud_lits _ _ _ U)|]. apply (fixv_undone (v_slen (c_v c)) _ k); [apply (in_trail _ _ _ _ _ (iv_search _ _ _ _ (proj1 K)))|exact U|exact H].
  - rewrite (E H). split; [reflexivity|intros; reflexivity].
Qed.
Lemma backtrack_orel f F A B c k es : inv f F A c -> (f = true -> (k < clevel (c_s c))%nat) -> orel B c es -> orel B (backtrack_to k c) es.
Proof.
  intros K Hf. destruct (backtrack_fixed f F A c k K Hf) as [E1 E2]. destruct (backtrack_inv f F A c k K Hf) as (_&_&_&E3&E4&E5&_).
  apply orel_fixed; assumption.
Qed.
Lemma backtrack_pf c k : c_pf (backtrack_to k c) = c_pf c.
Proof. unfold backtrack_to. destruct (backtrack _ _ _). reflexivity. Qed.
Lemma backtrack_st c k : c_st (backtrack_to k c) = c_st c.
Proof. unfold backtrack_to. destruct (backtrack _ _ _). reflexivity. Qed.
Lemma backtrack_live f F A B c k : inv f F A c -> (f = true -> (k < clevel (c_s c))%nat) -> live c (orel B c) -> live (backtrack_to k c) (orel B (backtrack_to k c)).
Proof.
  intros K Hf L. eapply live_same; [apply backtrack_pf|rewrite backtrack_st; reflexivity|]. eapply live_weaken; [exact L|]. intros es _. apply (backtrack_orel f F A); assumption.
Qed.
Lemma full_restart_live F A B c : inv false F A c -> live c (orel B c) -> live (full_restart c) (orel B (full_restart c)).
Proof.
  intros K L. unfold full_restart. apply (backtrack_live false F A); [apply set_levels_inv; exact K|discriminate|]. eapply live_same; [| |exact L]; reflexivity.
Qed.

(** * Clauses *)
(** A clause has been written to the proof that is not yet among the clauses of the solver. *)
Definition loaded (B : list N) (cl : list N) (c : ctx) (es' : list event) : Prop :=
  names_rel (c_v c) es' /\ exists es e, es' = es ++ [e] /\ given e (gls (c_v c) cl) /\
  db_rel (entries (c_v c) (c_s c) (c_d c) (c_bin c)) (gfix (c_v c) (c_s c)) B es.

Lemma loaded_frame B cl c c' es : frame c c' -> (loaded B cl c' es <-> loaded B cl c es).
Proof. intros (e&p&->). unfold loaded. cbn [cw_pf set_error cw_st c_v c_s c_d c_bin]. reflexivity. Qed.
Lemma loaded_data B cl c D es : (forall g, vd_deleted (D g) = vd_deleted (v_data (c_v c) g) /\ vd_unit (D g) = vd_unit (v_data (c_v c) g) /\ vd_mode (D g) = vd_mode (v_data (c_v c) g)) ->
  loaded B cl c es -> loaded B cl (cw_v c (set_data (c_v c) D)) es.
Proof.
  intros H (NR&es0&e&->&G&R). split.
  - eapply names_data; try exact NR; try reflexivity. intros g. cbn [cw_v c_v set_data v_data]. destruct (H g) as (E1&E2&E3). unfold mode_of. rewrite E1, E3. reflexivity.
  - exists es0, e. split; [reflexivity|]. split; [exact G|]. eapply db_ext; [| |intros l; reflexivity|exact R].
    + apply Permutation_refl.
    + intros l. symmetry. apply gfix_data; try reflexivity; cbn [cw_v c_v set_data v_data]; apply H.
Qed.
Lemma loaded_fixed B cl c s' es : s_lits s' = s_lits (c_s c) -> (forall x y, fixv s' x y <-> fixv (c_s c) x y) ->
  loaded B cl c es -> loaded B cl (cw_s c s') es.
Proof.
  intros E1 E2 (NR&es0&e&->&G&R). split; [exact NR|]. exists es0, e. split; [reflexivity|]. split; [exact G|].
  cbn [cw_s c_v c_s c_d c_bin]. rewrite (entries_lits _ _ _ _ _ E1). eapply db_ext; [apply Permutation_refl| |intros l; reflexivity|exact R]. apply gfix_same. exact E2.
Qed.
Lemma resurrect_lits : forall fl s, s_lits (fold_left (fun s l => resurrect_unit s (lnot l)) fl s) = s_lits s.
Proof.
  induction fl as [|l fl IH]; intros s; cbn [fold_left]; [reflexivity|]. rewrite IH. unfold resurrect_unit. destruct (is_removed_unit _ _); reflexivity.
Qed.
Lemma ground_fixed F A c x y : ground F A c -> (fixv (c_s c) x y <-> s_val (c_s c) x = Some y).
Proof.
  intros [[K _] D]. split; [intros [H _]; exact H|]. apply (assigned_fixed (v_slen (c_v c))); [apply (in_trail _ _ _ _ _ (iv_search _ _ _ _ K))|exact D].
Qed.
Lemma core_named f F A c D r l : core f F A c -> In (D, r) (entries (c_v c) (c_s c) (c_d c) (c_bin c)) -> In l D -> v_sg (c_v c) (lit_var l) <> None.
Proof.
  intros K. pose proof (in_store _ _ _ _ _ (iv_search _ _ _ _ K)) as ST. apply entries_named; [exact (b_vars _ (iv_base _ _ _ _ K))| |].
  - intros x y I J. apply in_use_named. apply (proj1 (iv_used _ _ _ _ K) x y I J).
  - intros y o I. destruct (bin_use _ _ _ _ y o (iv_used _ _ _ _ K)) as [U1 U2]; [intros; apply (so_bin _ _ _ _ ST); assumption|exact I|].
    split; apply in_use_named; assumption.
Qed.
Lemma entries_added v s d bin cl h s' d' x : added s d cl h s' d' x ->
  Permutation (entries v s' d' bin) ((canon (gls v cl), negb (tier_eqb (h_tier h) Irred)) :: entries v s d bin).
Proof.
  intros AD. unfold entries. rewrite (ad_live _ _ _ _ _ _ _ AD), map_app. cbn [map]. unfold long_entry at 2. rewrite (ad_lits _ _ _ _ _ _ _ AD x), N.eqb_refl, (ad_own _ _ _ _ _ _ _ AD).
  rewrite <- app_assoc. cbn [app]. eapply Permutation_trans; [apply Permutation_sym, Permutation_middle|]. apply perm_skip. apply Permutation_app_tail.
  erewrite map_ext_in; [apply Permutation_refl|]. intros y I. unfold long_entry. rewrite (ad_lits _ _ _ _ _ _ _ AD y), (ad_tier _ _ _ _ _ _ _ AD y I).
  destruct (N.eqb_spec y x) as [->|NE]; [|reflexivity]. destruct (ad_new _ _ _ _ _ _ _ AD I).
Qed.
Lemma canon_gls_perm v a b : Permutation a b -> canon (gls v a) = canon (gls v b).
Proof. intros P. apply canon_gls. intros x. split; intros I; eapply Permutation_in; try exact I; [exact P|apply Permutation_sym; exact P]. Qed.

Lemma load_rest_sim F A B C c : ground F A c -> st_sat (c_st c) <> Unsat -> live c (orel B c) -> csim (load_rest C c) (fun c' => live c' (rel B c')).
Proof.
  intros G0 SA LV. unfold load_rest. pose proof (core_tidy _ _ _ _ (proj1 (proj1 G0))) as TD.
  assert (KR : kept_rel B c) by (split; [exact TD|]; eapply live_weaken; [exact LV|]; intros es _; apply rel_open; exact SA).
  pose proof (td_base _ TD) as B0.
  eapply csim_bind; [apply csim_post; [apply (sful_sample C c B0)|apply csim_spec; [apply (solver_from_user_lits_steps true C c B0)|apply (sful_sim B true C c KR)]]|].
  intros [c1 r] (SM&(Ren&Kn&_)&((T1&L1)&St1)). cbv zeta.
  destruct (vsteps_ground _ _ _ _ St1 G0) as (F1 & G1 & _). pose proof (vsteps_keep _ _ St1) as Vk.
  assert (SA1 : st_sat (c_st c1) <> Unsat) by (rewrite (vk_sat _ _ Vk); exact SA).
  pose proof (z_vars _ (td_base _ T1)) as OK1.
  set (lits := dedup_n (sort_n r)).
  assert (Inr : forall x, In x lits <-> In x r) by (intros x; unfold lits; rewrite dedup_in, sort_in; tauto).
  assert (Srt : StronglySorted N.lt lits) by (apply dedup_sorted, sort_sorted).
  assert (NmR : named (c_v c1) lits) by (intros x I; apply Inr in I; apply (renames_named _ _ _ Ren x I)).
  assert (SML : sampled (c_v c1) lits) by (intros x g I; apply SM; apply Inr; exact I).
  eapply csim_bind.
  { apply (add_live lits c1 (rel B c1) (loaded B lits c1) L1). intros es e H GE _. apply (rel_open B c1 es SA1) in H. destruct H as [NR R]. split.
    - assert (V : Forall (fun x => CheckerUsers.var_modes es (lit_var x) = Checker.Sample) (gls (c_v c1) lits)) by (apply sampled_modes; assumption).
      destruct GE as [->| ->]; cbn [valid]; right; right; exact V.
    - split; [apply names_plain; [exact (given_plain _ _ GE)|exact NR]|]. exists es, e. split; [reflexivity|]. split; [exact GE|exact R]. }
  intros c2 [Fr L2]. pose proof (ground_frame _ _ _ _ Fr G1) as G2.
  assert (SA2 : st_sat (c_st c2) <> Unsat) by (destruct Fr as (e&p&->); exact SA1).
  assert (OK2 : vars_ok (c_v c2)) by (rewrite (frame_v _ _ Fr); exact OK1).
  assert (NmR2 : named (c_v c2) lits) by (rewrite (frame_v _ _ Fr); exact NmR).
  assert (L2' : live c2 (loaded B lits c2)) by (eapply live_weaken; [exact L2|]; intros es _; apply loaded_frame; exact Fr).
  clear L2. destruct (tautology lits) eqn:Tau.
  { apply csim_ret. eapply live_weaken; [exact L2'|]. intros es' _ (NR&es&e&->&GE&R). apply rel_open; [exact SA2|]. split; [exact NR|].
    apply (given_taut _ _ _ es e _ GE); [|exact R]. apply SortedLitsProofs.canonical_taut. destruct (taut_true _ Tau) as (x&I&J).
    exists (gl (c_v c2) x). split; [apply gls_in; eauto|]. rewrite <- gl_not. apply gls_in. eauto. }
  pose proof (taut_false _ Srt Tau) as Nd.
  assert (X : csim (if (1 <? length lits)%nat then map_data_lits lits (fun d => vd_set_isolated d false) c2 else Ret c2)
    (fun c3 => ground F1 A c3 /\ st_sat (c_st c3) <> Unsat /\ vars_ok (c_v c3) /\ named (c_v c3) lits /\ live c3 (loaded B lits c3))).
  { destruct (Nat.ltb 1 (length lits)).
    - destruct (map_data_lits_eq (fun d => vd_set_isolated d false) (fun d => eq_refl) lits c2 NmR2) as (D&E&ED).
      pose proof (isolated_grow F1 A c2 lits G2 NmR2) as SP. rewrite E in *. cbn [spec] in SP. destruct SP as (v'&EV&G3&Q3&_).
      apply csim_ret. split; [exact G3|]. split; [exact SA2|]. split; [exact (b_vars _ (iv_base _ _ _ _ (proj1 (proj1 G3))))|]. split; [exact NmR2|].
      eapply live_same; [| |eapply live_weaken; [exact L2'|]]; [reflexivity|reflexivity|]. intros es _. apply loaded_data. intros g. rewrite ED. destruct (touched _ _ _); auto.
    - apply csim_ret. auto 6. }
  eapply csim_bind; [exact X|]. clear X. intros c3 (G3&SA3&OK3&NmR3&L3).
  destruct (scan_lits (c_s c3) lits) as [[kept fl] found] eqn:Sc. destruct (scan_spec _ _ _ _ _ Sc) as (Pm & Hf & Hk).
  assert (Nmf : named (c_v c3) fl) by (intros x I; apply NmR3; apply (Permutation_in _ Pm); apply in_or_app; right; exact I).
  destruct (resurrect_all F1 A fl c3 G3 Nmf Hf) as (G4 & V4 & On4 & _).
  pose proof (resurrect_lits fl (c_s c3)) as EL.
  set (s4 := fold_left (fun s l => resurrect_unit s (lnot l)) fl (c_s c3)) in *. set (c4 := cw_s c3 s4) in *.
  assert (L4 : live c4 (loaded B lits c4)).
  { eapply live_same; [| |eapply live_weaken; [exact L3|]]; [reflexivity|reflexivity|]. intros es _. apply loaded_fixed; [exact EL|]. intros x y.
    change s4 with (c_s c4). rewrite (ground_fixed _ _ _ x y G4), (ground_fixed _ _ _ x y G3). unfold c4. cbn [cw_s c_s]. rewrite V4. reflexivity. }
  assert (Nm4 : named (c_v c4) (kept ++ fl)) by (intros x I; apply NmR3; apply (Permutation_in _ Pm); exact I).
  assert (Nd4 : NoDup (map lit_var (kept ++ fl))) by (eapply Permutation_NoDup; [apply Permutation_map; symmetry; exact Pm|exact Nd]).
  assert (TA : CheckerSteps.taut (gls (c_v c4) lits) = false) by (apply gls_taut; assumption).
  assert (CP : canon (gls (c_v c4) (kept ++ fl)) = canon (gls (c_v c4) lits)) by (apply canon_gls_perm; exact Pm).
  assert (CN : length (canon (gls (c_v c4) lits)) = length (kept ++ fl)).
  { rewrite <- CP. apply canon_len; assumption. }
  assert (OK4 : vars_ok (c_v c4)) by exact OK3.
  assert (SA4 : st_sat (c_st c4) <> Unsat) by exact SA3.
  assert (FX : forall x, v_gs (c_v c4) (lit_var x) <> None -> (gfix (c_v c4) (c_s c4) (gl (c_v c4) x) <-> s_val (c_s c4) (lit_var x) = Some (is_positive x))).
  { intros x NM. rewrite (gfix_gl _ _ _ OK4 NM). apply (ground_fixed _ _ _ _ _ G4). }
  assert (Q1 : forall es e, given e (gls (c_v c4) lits) -> (2 <= length (kept ++ fl))%nat ->
     db_rel (entries (c_v c4) (c_s c4) (c_d c4) (c_bin c4)) (gfix (c_v c4) (c_s c4)) B es ->
     db_rel ((canon (gls (c_v c4) (kept ++ fl)), false) :: entries (c_v c4) (c_s c4) (c_d c4) (c_bin c4)) (gfix (c_v c4) (c_s c4)) B (es ++ [e])).
  { intros es e GE LE R. rewrite CP. apply given_long; [exact GE|exact TA|rewrite CN; exact LE|exact R]. }
  destruct found.
  - destruct Hk as (t&IT&TT).
    assert (TT4 : s_val (c_s c4) (lit_var t) = Some (is_positive t)) by (unfold c4; cbn [cw_s c_s]; rewrite V4; exact TT).
    destruct (Nat.ltb_spec 1 (length (kept ++ fl))) as [HL|HL].
    + eapply csim_weaken; [apply (step_live true (DeleteClause (kept ++ fl) DSatisfied) c4 _ (orel B c4) L4)|].
      * intros es' (NR&es&e&->&GE&R) s' FT. subst s'. unfold gstep. specialize (Q1 es e GE ltac:(lia) R). split.
        -- cbn [valid]. split; [apply gls_taut; assumption|]. split; [eapply Permutation_in; [apply Permutation_sym; apply (dr_cls _ _ _ _ Q1)|left; reflexivity]|].
           exists (gl (c_v c4) t). split; [apply gls_in; exists t; split; [reflexivity|]; apply (Permutation_in _ (Permutation_sym Pm)); exact IT|].
           apply (dr_units _ _ _ _ Q1). apply FX; [apply NmR3; exact IT|exact TT4].
        -- split; [apply names_plain; [exact Logic.I|exact NR]|]. eapply delete_rel; [|exact Q1]. apply Permutation_refl.
      * intros c5 [F5 L5]. eapply live_weaken; [exact L5|]. intros es _ H. apply rel_open; [destruct F5 as (e&p&->); exact SA4|]. apply (orel_frame _ _ _ _ F5). exact H.
    + apply csim_ret. eapply live_weaken; [exact L4|]. intros es' _ (NR&es&e&->&GE&R). apply rel_open; [exact SA4|]. split; [exact NR|].
      pose proof (Permutation_length Pm) as PL. destruct lits as [|t' [|? ?]] eqn:EL2; [destruct IT| |cbn [length] in PL; lia].
      destruct IT as [->|[]]. cbn [gls map] in GE.
      assert (GT : gfix (c_v c4) (c_s c4) (gl (c_v c4) t)) by (apply FX; [apply NmR3; left; reflexivity|exact TT4]).
      eapply db_ext; [apply Permutation_refl| |intros l; reflexivity|eapply (given_unit _ _ _ _ _ _ GE); [|exact R]].
      * intros l. split; [intros [->|H]; [exact GT|exact H]|tauto].
      * rewrite <- gl_not. rewrite FX by (rewrite lnot_var; apply NmR3; left; reflexivity). rewrite lnot_var, TT4, pos_lnot. destruct (is_positive t); discriminate.
  - destruct (kept ++ fl) as [|l0 [|l1 [|l2 rest]]] eqn:Ekf.
    + apply csim_ret. eapply live_same; [| |eapply live_weaken; [exact L4|]]; [reflexivity|reflexivity|]. intros es' _ (NR&es&e&->&GE&R). split; [exact NR|].
      cbn [set_sat cw_st c_st st_sat c_v]. eapply (given_dead _ _ _ _ es e _ GE (fun D r l => core_named _ _ _ _ D r l (proj1 (proj1 G4)))); [|exact R].
      apply Permutation_nil in Pm. rewrite Pm. left. reflexivity.
    + apply Permutation_length_1_inv in Pm. rewrite Pm in *. destruct kept as [|k0 kr].
      * cbn [app] in Ekf. subst fl. apply csim_ret. eapply live_same; [| |eapply live_weaken; [exact L4|]]; [reflexivity|reflexivity|]. intros es' _ (NR&es&e&->&GE&R). split; [exact NR|].
        cbn [set_sat cw_st c_st st_sat c_v]. eapply (given_dead _ _ _ _ es e _ GE (fun D r l => core_named _ _ _ _ D r l (proj1 (proj1 G4)))); [|exact R].
        right. exists (gl (c_v c4) l0). split; [reflexivity|]. assert (NM0 : v_gs (c_v c4) (lit_var l0) <> None) by (apply NmR3; left; reflexivity).
        assert (VF : s_val (c_s c4) (lit_var l0) = Some (negb (is_positive l0))).
        { unfold c4. cbn [cw_s c_s]. rewrite V4. pose proof (Hf l0 (or_introl eq_refl)) as H. unfold isfalse, istrue in H. rewrite lnot_var, pos_lnot in H. exact H. }
        rewrite <- gl_not, !FX; rewrite ?lnot_var, ?pos_lnot; try exact NM0. rewrite VF. split; [destruct (is_positive l0); discriminate|reflexivity].
      * cbn [app] in Ekf. injection Ekf as -> Ek. apply csim_ret.
        assert (U0 : s_val (c_s c4) (lit_var l0) = None) by (unfold c4; cbn [cw_s c_s]; rewrite V4; apply Hk; left; reflexivity).
        assert (NM0 : v_gs (c_v c4) (lit_var l0) <> None) by (apply NmR3; left; reflexivity).
        pose proof (in_trail _ _ _ _ _ (iv_search _ _ _ _ (proj1 (proj1 G4)))) as T4.
        eapply live_same; [| |eapply live_weaken; [exact L4|]]; [reflexivity|reflexivity|]. intros es' _ (NR&es&e&->&GE&R). apply rel_open; [exact SA4|]. split; [exact NR|].
        cbn [cw_s c_v c_s c_d c_bin].
        eapply db_ext; [apply Permutation_refl| |intros l; reflexivity|eapply (given_unit _ _ _ _ _ _ GE); [|exact R]].
        -- intros l. split.
           ++ intros [->|H].
              ** apply (gfix_gl _ _ _ OK4 NM0). apply (fixv_enqueue _ _ _ _ _ _ T4 U0). right. split; [apply G4|auto].
              ** unfold gfix in *. destruct (v_sg (c_v c4) (lit_var l)); [|exact H]. apply (fixv_enqueue _ _ _ _ _ _ T4 U0). left. exact H.
           ++ unfold gfix. destruct (v_sg (c_v c4) (lit_var l)) as [x|] eqn:SG; [|tauto]. intros H. apply (fixv_enqueue _ _ _ _ _ _ T4 U0) in H. destruct H as [H|(_&->&EP)]; [right; exact H|left].
              symmetry. unfold gl. apply (vo_sg _ OK4) in SG. rewrite SG, <- EP. apply lo_eta.
        -- rewrite <- gl_not. rewrite FX by (rewrite lnot_var; exact NM0). rewrite lnot_var, U0. discriminate.
    + apply csim_ret. eapply live_same; [| |eapply live_weaken; [exact L4|]]; [reflexivity|reflexivity|]. intros es' _ (NR&es&e&->&GE&R). apply rel_open; [exact SA4|]. split; [exact NR|].
      eapply db_ext; [| |intros l; reflexivity|apply (Q1 es e GE); [cbn [length]; lia|exact R]].
      * apply Permutation_sym. apply entries_bin.
        -- pose proof (Nm4 l0 (or_introl eq_refl)) as E. destruct (v_gs (c_v c4) (lit_var l0)) eqn:Eg; [|congruence]. eapply (vo_x _ OK4); exact Eg.
        -- pose proof (Nm4 l1 (or_intror (or_introl eq_refl))) as E. destruct (v_gs (c_v c4) (lit_var l1)) eqn:Eg; [|congruence]. eapply (vo_x _ OK4); exact Eg.
        -- cbn [map] in Nd4. inversion Nd4 as [|? ? N1 _]; subst. intros E. apply N1. left. symmetry. exact E.
      * intros l. reflexivity.
    + unfold db_add_clause. destruct (add_long (c_s c4) (c_d c4) (set_tier hdr_new Irred) (l0 :: l1 :: l2 :: rest)) as [[s5 d5] x5] eqn:Ad.
      destruct (d_full d5) eqn:Fu; [cbn; congruence|]. cbn [bind]. apply csim_ret.
      pose proof (core_meaning _ _ _ _ (proj1 (proj1 G4))) as M4.
      pose proof (add_long_added _ _ _ _ _ _ _ Ad (mn_db _ _ _ M4) Fu eq_refl eq_refl (fun _ => eq_refl)) as AD.
      eapply live_same; [| |eapply live_weaken; [exact L4|]]; [reflexivity|reflexivity|]. intros es' _ (NR&es&e&->&GE&R). apply rel_open; [exact SA4|]. split; [exact NR|].
      cbn [cw_s cw_d c_v c_s c_d c_bin].
      eapply db_ext; [| |intros l; reflexivity|apply (Q1 es e GE); [cbn [length]; lia|exact R]].
      * apply Permutation_sym. apply (entries_added _ _ _ _ _ _ _ _ _ AD).
      * apply gfix_same. intros x y. unfold fixv. rewrite (ad_val _ _ _ _ _ _ _ AD), (ad_trail _ _ _ _ _ _ _ AD), (ad_level _ _ _ _ _ _ _ AD). reflexivity.
Qed.

(** * The calls *)
Definition gu_kept (c c' : ctx) : Prop := forall u g, v_gu (c_v c) u = Some g -> v_gu (c_v c') u = Some g.
Lemma load_clause_sim fr vis S U B C c : good fr vis S U c -> live c (rel B c) ->
  csim (load_clause C c) (fun c' => live c' (rel B c') /\ gu_kept c c').
Proof.
  intros (Ba & Fr & Vi & H) LV. rewrite load_clause_rest. destruct (st_sat (c_st c)) eqn:St.
  3: { apply csim_ret. split; [exact LV|intros u g E; exact E]. }
  all: destruct H as (Kn & F & K & T & An).
  all: assert (L1 : live c (orel B c)) by (eapply live_weaken; [exact LV|]; intros es _; apply rel_open; congruence).
  all: match goal with |- csim (load_rest _ (full_restart ?c0)) _ => set (d := c0) end.
  all: assert (Kd : inv false F (map (glob (c_v c)) U) d) by (unfold d, set_empty, set_sat; repeat apply inv_st; exact K).
  all: assert (Ld : live d (orel B d)) by (eapply live_same; [| |exact L1]; reflexivity).
  all: destruct (full_restart_ground F _ d Kd) as (G & Ev & Es & _).
  all: pose proof (full_restart_live F _ B d Kd Ld) as Lr.
  all: eapply csim_weaken; [apply csim_spec; [apply (load_rest_spec F _ C _ G)|apply (load_rest_sim F _ B C _ G); [rewrite Es; unfold d; cbn [set_empty set_sat cw_st c_st st_sat]; congruence|exact Lr]]|].
  all: intros c' [(_&Gu&_) L']; (split; [exact L'|]); rewrite Ev in Gu; exact Gu.
Qed.

Lemma data_rel A c D es : (forall g, vd_deleted (D g) = vd_deleted (v_data (c_v c) g) /\ vd_unit (D g) = vd_unit (v_data (c_v c) g) /\ vd_mode (D g) = vd_mode (v_data (c_v c) g)) ->
  rel A c es -> rel A (cw_v c (set_data (c_v c) D)) es.
Proof. intros H. unfold rel. cbn [cw_v c_v c_s c_d c_bin c_st]. apply srel_data; try reflexivity. intros g. cbn [set_data v_data]. apply H. Qed.
Lemma assumed_live A c lits y : named (c_v c) lits -> live c (rel A c) -> exists D,
  map_data_lits lits (fun d => vd_set_assumed d y) c = Ret (cw_v c (set_data (c_v c) D)) /\
  (forall g, vd_deleted (D g) = vd_deleted (v_data (c_v c) g) /\ vd_unit (D g) = vd_unit (v_data (c_v c) g) /\ vd_mode (D g) = vd_mode (v_data (c_v c) g)) /\
  live (cw_v c (set_data (c_v c) D)) (rel A (cw_v c (set_data (c_v c) D))).
Proof.
  intros NM L. destruct (map_data_lits_eq (fun d => vd_set_assumed d y) (fun d => eq_refl) lits c NM) as (D&E&ED). exists D. split; [exact E|].
  assert (X : forall g, vd_deleted (D g) = vd_deleted (v_data (c_v c) g) /\ vd_unit (D g) = vd_unit (v_data (c_v c) g) /\ vd_mode (D g) = vd_mode (v_data (c_v c) g)).
  { intros g. rewrite ED. destruct (touched _ _ _); auto. }
  split; [exact X|]. eapply live_same; [| |eapply live_weaken; [exact L|]]; [reflexivity|reflexivity|]. intros es _. apply data_rel. exact X.
Qed.
Lemma renames_gls v l r : Forall2 (renames v) l r -> gls v r = l.
Proof.
  intros H. induction H as [|a x l r [E P] _ IH]; [reflexivity|]. cbn [gls map]. fold (gls v r). rewrite IH. f_equal. unfold gl. rewrite E, P. apply lo_eta.
Qed.
Lemma assume_rest_sim B user c : base c -> tidy c -> live c (rel B c) ->
  csim (assume_rest user c) (fun c' => live c' (rel (map (glob (c_v c')) user) c')).
Proof.
  intros Ba TD LV. unfold assume_rest. pose proof (base_base0 _ Ba) as B0.
  destruct (assumed_live B c (as_lits (c_as c)) false) as (D1&E1&H1&L1); [|exact LV|].
  { intros l I. destruct (b_as _ Ba l I) as (g & E & _). congruence. }
  destruct (assumed_grow c (as_lits (c_as c)) false B0) as (v1 & E1' & G1 & Sh1 & Gu1 & Ug1 & _).
  { intros l I. destruct (b_as _ Ba l I) as (g & E & _). congruence. }
  { discriminate. }
  rewrite E1 in *. injection E1' as Ev1. cbn [bind].
  pose proof (base0_v _ _ B0 G1 Sh1) as B1. rewrite <- Ev1 in B1. set (c1 := cw_v c (set_data (c_v c) D1)) in *.
  assert (T1 : tidy c1).
  { apply (tidy_ext c); try reflexivity; [exact B1|auto|exact TD]. }
  eapply csim_bind; [apply csim_post; [apply (sful_sample user c1 B1)|apply csim_spec; [apply (solver_from_user_lits_steps true user c1 B1)|apply (sful_sim B true user c1 (conj T1 L1))]]|].
  intros [c2 lits] (SM&(Ren&Kn&_)&((T2&L2)&St2)). cbv zeta.
  set (a := Assum lits (as_core (c_as c2)) (as_user (c_as c2)) (as_levels (c_as c2)) (as_hashes (c_as c2))).
  assert (L2' : live (cw_as c2 a) (rel B (cw_as c2 a))) by (eapply live_same; [| |exact L2]; reflexivity).
  destruct (assumed_live B (cw_as c2 a) lits true (renames_named _ _ _ Ren) L2') as (D3&E3&H3&L3). rewrite E3. cbn [bind].
  set (c3 := cw_v (cw_as c2 a) (set_data (c_v (cw_as c2 a)) D3)) in *.
  assert (R3 : Forall2 (renames (c_v c3)) (map (glob (c_v c3)) user) lits) by exact Ren.
  eapply csim_weaken; [apply (step_live true (Assumptions lits) c3 _ (rel (map (glob (c_v c3)) user) c3) L3)|].
  - intros es H s' FT. subst s'. unfold gstep. rewrite (renames_gls _ _ _ R3). pose proof (proj1 H) as NR. split.
    + cbn [valid]. rewrite <- (renames_gls _ _ _ R3). 
      assert (MO : forall x, In x lits -> CheckerUsers.var_modes es (lit_var (gl (c_v c3) x)) = Checker.Sample).
      { intros x I. pose proof (renames_named _ _ _ Ren x I) as NM. destruct (v_gs (c_v c2) (lit_var x)) as [g|] eqn:E; [|congruence].
        assert (E' : v_gs (c_v c3) (lit_var x) = Some g) by exact E. rewrite (proj1 (gl_named _ _ _ E')), (nr_mode _ _ NR). unfold mode_of.
        change (v_data (c_v c3)) with D3. destruct (H3 g) as (_&_&X). rewrite X. change (c_v (cw_as c2 a)) with (c_v c2). rewrite (SM x g I E). destruct (vd_deleted _); reflexivity. }
      apply Forall_forall. intros x I. apply gls_in in I as (y&<-&I). apply MO. exact I.
    + unfold rel in *. apply (srel_step _ _ _ _ _ _ _ _ _ _ _ _ _ H).
      * apply names_plain; [exact Logic.I|exact NR].
      * intros _ [P Q]. constructor; rewrite db_ev; cbn [CheckerValid.db_event db_unsat db_cls]; assumption.
      * intros _ [P Q R U]. constructor; rewrite ?db_ev, ?as_ev; cbn [CheckerValid.db_event db_unsat db_cls db_units CheckerRun.assume_event]; try assumption.
        intros l. reflexivity.
  - intros c4 [F4 L4]. rewrite (frame_v _ _ F4). rewrite <- (rel_frame _ _ _ F4). exact L4.
Qed.
Lemma set_assumptions_sim fr vis S U B user c : good fr vis S U c -> live c (rel B c) ->
  csim (set_assumptions user c) (fun c' => live c' (rel (map (glob (c_v c')) user) c')).
Proof.
  intros GD LV. pose proof (good_tidy _ _ _ _ _ GD) as TD. destruct GD as (Ba & Fr & Vi & H).
  assert (E : set_assumptions user c = assume_rest user (match st_sat (c_st (full_restart c)) with Unsat => full_restart c | _ => set_sat (full_restart c) Unknown end)) by reflexivity.
  rewrite E. clear E. destruct (st_sat (c_st c)) eqn:St.
  3: { destruct H as [D M]. rewrite (full_restart_zero _ D). change (st_sat (c_st (set_levels 0 c))) with (st_sat (c_st c)). rewrite St.
       apply (assume_rest_sim B).
       - destruct Ba; constructor; assumption.
       - destruct TD; constructor; auto. destruct td_base; constructor; assumption.
       - eapply live_same; [| |exact LV]; reflexivity. }
  all: assert (L1 : live c (orel B c)) by (eapply live_weaken; [exact LV|]; intros es _; apply rel_open; congruence).
  all: destruct H as (Kn & F & K & T & An); destruct (full_restart_ground F _ c K) as (G & Ev & Es & _); rewrite Es, St.
  all: assert (G' : ground F (map (glob (c_v c)) U) (set_sat (full_restart c) Unknown)) by (destruct G as [Gi Gd]; split; [apply inv_st; exact Gi|exact Gd]).
  all: pose proof (full_restart_live F _ B c K L1) as Lr.
  all: apply (assume_rest_sim B); [apply G'|exact (core_tidy _ _ _ _ (proj1 (proj1 G')))|].
  all: eapply live_same; [| |eapply live_weaken; [exact Lr|]]; [reflexivity|reflexivity|]; intros es _ H; apply rel_open; [discriminate|exact H].
Qed.
