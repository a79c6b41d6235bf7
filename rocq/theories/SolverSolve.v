(** The calls of the solver (Solver.v): every one keeps the state of the solver good. *)
From Coq Require Import Lia Arith PeanoNat Permutation ZArith ZifyBool ZifyNat ZifyN.
From Verif Require Import Spec Lit LitProofs BinFormat Hash F32 Vsids VsidsProofs VsidsWf Luby Config P_Config Search SearchBase
  Propagate P_Search ClauseDb DbProofs Analyze AnalyzeProofs P_Analyze SolverCtx CtxFrame VarsProofs Solver SolverInv SolverSimplify
  SolverAdd SolverLoad SolverFailed SolverSearch.
From Verif Require CtxEvents.
Local Open Scope nat_scope.

(** * Solving *)
Lemma schedule_loop_spec t z w S0 U F A fuel : forall n c, progress t z w S0 U F A c -> spec (schedule_loop fuel n c) (fun c' => progress t z w S0 U F A c' /\
  (st_sat (c_st c') <> Unknown \/ st_error (c_st c') <> None)).
Proof.
  induction n as [|n IH]; intros c P; cbn [schedule_loop]; [exact Logic.I|].
  eapply spec_bind; [apply schedule_step_spec; exact P|]. intros [c1 more] [P1 M]. destruct more; [apply IH; exact P1|].
  apply spec_ret. split; [exact P1|apply M; reflexivity].
Qed.

(** Only proof, error and flags of the state change *)
Lemma progress_st t z w S0 U F A c c' : (exists st p, c' = cw_pf (cw_st c st) p /\ st_sat st = st_sat (c_st c)) -> progress t z w S0 U F A c -> progress t z w S0 U F A c'.
Proof.
  intros (st & p & -> & E) (B & W & P). split; [destruct B; constructor; assumption|]. split; [exact W|].
  change (st_sat (c_st (cw_pf (cw_st c st) p))) with (st_sat st). rewrite E.
  assert (K : forall f, inv f F A c -> inv f F A (cw_pf (cw_st c st) p)).
  { intros f K. apply (inv_frame f F A (cw_st c st)); [apply frame_pf|apply inv_st; exact K]. }
  destruct (st_sat (c_st c)); try exact P; destruct P as (P1 & P2); (split; [apply K; exact P1|exact P2]).
Qed.
Lemma frame_st c c' : frame c c' -> exists st p, c' = cw_pf (cw_st c st) p /\ st_sat st = st_sat (c_st c).
Proof. intros (e & p & ->). eexists. exists p. split; reflexivity. Qed.

Lemma take_error_st c : exists st p, fst (take_error c) = cw_pf (cw_st c st) p /\ st_sat st = st_sat (c_st c).
Proof.
  unfold take_error. destruct (st_error (c_st c)); cbn [fst].
  - exists (c_st (set_invalid (set_error c None) true)), (c_pf c). split; reflexivity.
  - exists (c_st c), (c_pf c). split; [destruct c; reflexivity|reflexivity].
Qed.

Theorem solve_spec t z w S0 U F A fuel c : progress t z w S0 U F A c -> spec (solve fuel c) (fun '(c', a) => progress t z w S0 U F A c' /\
  match a with
  | ASolved true => st_sat (c_st c') = Sat
  | ASolved false => st_sat (c_st c') = Unsat \/ st_sat (c_st c') = UnsatAssum
  | AError _ => True
  | _ => False
  end).
Proof.
  intros P. unfold solve. cbv zeta. destruct (st_invalid (c_st (set_invoked c true))); [exact Logic.I|].
  eapply spec_bind; [apply (schedule_loop_spec t z w S0 U F A)|].
  - eapply progress_st; [|exact P]. eexists. exists (c_pf c). split; [|]; reflexivity.
  - intros c1 [P1 _]. eapply spec_bind; [apply solve_finished_spec|]. intros c2 Fr.
    pose proof (progress_st _ _ _ _ _ _ _ _ _ (frame_st _ _ Fr) P1) as P2. pose proof (take_error_st c2) as T.
    destruct (take_error c2) as [c3 [e|]]; cbn [fst] in T; pose proof (progress_st _ _ _ _ _ _ _ _ _ T P2) as P3; apply spec_ret.
    + split; [exact P3|exact Logic.I].
    + split; [exact P3|]. destruct (st_sat (c_st c3)); auto.
Qed.

(** * Good states *)
Definition sized (c : ctx) : Prop := st_sat (c_st c) = Sat -> covers c.
Lemma unsat_user S U F A v : ties S U F A v -> unsat_with F A -> unsat_with S U.
Proof. intros (Kn & -> & Ti) H bu Mb Hu. apply Ti in Mb as (b & Mb & L). apply (H b Mb). apply (glob_all _ _ _ _ L Kn). exact Hu. Qed.
Lemma good_progress fr vis S U c : good fr vis S U c -> exists F A, progress (fr = true) (sized c) (vis = true) S U F A c.
Proof.
  intros (B & Fr & Vi & G). unfold progress, sized. destruct (st_sat (c_st c)) eqn:St.
  3: { exists (fun _ => True), []. split; [exact B|]. split; [exact Vi|]. destruct G as (D & M). split; [exact D|]. split; [exact M|]. intros T. apply Fr. exact T. }
  all: destruct G as (Kn & F & K & T & An); exists F, (map (glob (c_v c)) U); unfold answered in An; rewrite St in An;
    assert (Ti : ties S U F (map (glob (c_v c)) U) (c_v c)) by (split; [exact Kn|split; [reflexivity|exact T]]).
  all: split; [exact B|]; split; [exact Vi|]; split; [exact K|]; split; [exact Ti|].
  - intros X. apply Fr. exact X.
  - split; [exact An|]. split; [intros X; apply Fr; exact X|auto].
  - destruct An as (Un & I). split; [exact Un|]. split; [eapply unsat_user; eassumption|]. split; [exact I|]. intros X. destruct (Fr X) as [Cl Y]. split; [apply Y; exact St|left; exact Cl].
Qed.
(** [failed_core] returns one literal. *)
Definition lone (c : ctx) : bool := match get_failed_core c with Some [_] => true | _ => false end.
Lemma progress_good fr t z vis S U F A c : progress t z (vis = true) S U F A c -> (fr = true -> t /\ lone c = false) -> good fr vis S U c.
Proof.
  intros (B & Vi & P) Fr. split; [exact B|]. unfold holds, answered, fresh. destruct (st_sat (c_st c)) eqn:St.
  - destruct P as (K & (Kn & -> & T) & C). split; [intros X; split; [apply C; apply Fr; exact X|congruence]|]. split; [exact Vi|]. split; [exact Kn|]. exists F. auto.
  - destruct P as (K & (Kn & -> & T) & M & C & _). split; [intros X; split; [apply C; apply Fr; exact X|congruence]|]. split; [exact Vi|]. split; [exact Kn|]. exists F. auto.
  - destruct P as (D & M & C). split; [intros X; split; [apply C; apply Fr; exact X|congruence]|]. auto.
  - destruct P as (K & (Kn & -> & T) & Un & _ & I & Ti). split.
    { intros X. destruct (Fr X) as [X1 X2]. destruct (Ti X1) as [Y [Cl|(u & Eu)]]; [auto|]. exfalso. unfold lone, get_failed_core in X2. rewrite St, Eu in X2. discriminate. }
    split; [exact Vi|]. split; [exact Kn|]. exists F. auto.
Qed.
Lemma good_weaken fr x vis S U c : good fr vis S U c -> good (fr && x) vis S U c.
Proof. intros (B & Fr & G). split; [exact B|]. split; [|exact G]. intros E. apply andb_prop in E as [E _]. apply Fr. exact E. Qed.

Lemma good_st fr vis S U c c' : (exists st p, c' = cw_pf (cw_st c st) p /\ st_sat st = st_sat (c_st c)) -> good fr vis S U c -> good fr vis S U c'.
Proof.
  intros (st & p & -> & E) (B & Fr & Vi & G). split; [destruct B; constructor; assumption|]. unfold fresh, holds, answered in *.
  change (st_sat (c_st (cw_pf (cw_st c st) p))) with (st_sat st). rewrite E. split; [exact Fr|]. split; [exact Vi|].
  destruct (st_sat (c_st c)); try exact G; destruct G as (Kn & F & K & X); (split; [exact Kn|]; exists F; split; [|exact X]);
    apply (inv_frame _ _ _ (cw_st c st)); try apply frame_pf; apply inv_st; exact K.
Qed.

(** * Variables *)
Lemma vadds_good fr vis S U c c' : vadds c c' -> good fr vis S U c -> good fr vis S U c'.
Proof.
  intros V (B & Fr & Vi & G). pose proof (vadds_steps _ _ V) as Vs. pose proof (vsteps_keep _ _ Vs) as Vk.
  split; [eapply vsteps_base; eassumption|]. unfold holds, answered, fresh, clean in *.
  rewrite (vk_sat _ _ Vk), (vk_model _ _ Vk), (vk_tmp _ _ Vk), (vk_as _ _ Vk), (vk_decs _ _ Vk).
  split; [exact Fr|]. split; [intros X; apply (vk_all _ _ Vk); auto|]. destruct (st_sat (c_st c)); try exact G; destruct G as (Kn & F & K & T & An);
    destruct (vadds_inv _ _ _ _ _ V K) as (F' & K' & Sp);
    (split; [eapply known_ext; [apply (vk_gu _ _ Vk)|exact Kn]|]; exists F'; rewrite (glob_map _ _ _ (vk_gu _ _ Vk) Kn); split; [exact K'|];
     split; [apply (sp_tied _ _ _ _ _ Sp); exact T|]).
  - exact Logic.I.
  - apply (sp_model _ _ _ _ _ Sp). exact An.
  - destruct An as [Un I]. split; [apply (sp_unsat _ _ _ _ _ Sp); exact Un|exact I].
Qed.

(** A change of the variables; [R] relates the new problem to the old one. *)
Lemma good_v (R : problem -> Prop) fr vis vis' S U c v' : good fr vis S U c -> base (cw_v c v') -> (vis' = true -> all_shown v') ->
  ((forall b, ~ models b S) -> exists S', R S' /\ forall b, ~ models b S') ->
  (forall F, known (c_v c) U -> inv false F (map (glob (c_v c)) U) c -> tied S F (v_gu (c_v c)) ->
    exists S', R S' /\ known v' U /\ map (glob v') U = map (glob (c_v c)) U /\ inv false F (map (glob (c_v c)) U) (cw_v c v') /\ tied S' F (v_gu v') /\
      (forall L, incl L U -> unsat_with S L -> unsat_with S' L) /\
      forall m, model_of (c_v c) F (map (glob (c_v c)) U) m -> model_of v' F (map (glob (c_v c)) U) m) ->
  exists S', R S' /\ good fr vis' S' U (cw_v c v').
Proof.
  intros (B & Fr & Vi & G) B' Vi' Un H. unfold good, holds, answered, fresh, clean in *. cbn [cw_v c_st c_s c_v c_model c_as c_tmp]. destruct (st_sat (c_st c)) eqn:St.
  3: { destruct G as [D M]. destruct (Un M) as (S' & HR & M'). exists S'. split; [exact HR|]. split; [exact B'|]. split; [|auto]. intros X. split; [apply Fr; exact X|discriminate]. }
  all: destruct G as (Kn & F & K & T & An); destruct (H F Kn K T) as (S' & HR & Kn' & Eg & K' & T' & Uw & Mo); exists S'; (split; [exact HR|]).
  all: split; [exact B'|]; split; [intros X; destruct (Fr X) as [F1 F2]; split; [exact F1|]|].
  all: try (split; [exact Vi'|]; split; [exact Kn'|]; exists F; rewrite Eg; split; [exact K'|]; split; [exact T'|]).
  all: try discriminate.
  - exact Logic.I.
  - apply Mo. exact An.
  - intros _. apply Uw; [exact (proj2 An)|auto].
  - exact An.
Qed.

(** Only the names and the mode of one variable change. *)
Lemma mode_grow v v' g m : vars_ok v' -> v_gs v' = v_gs v -> v_sg v' = v_sg v -> v_slen v' = v_slen v ->
  v_data v' = upd (v_data v) g (vd_set_mode (v_data v g) m) -> vgrow v v'.
Proof.
  intros V E1 E2 E3 E4. constructor; auto; intros h; rewrite E4; unfold upd; destruct (N.eqb_spec h g) as [->|]; auto.
Qed.
Section Mode.
  Context (c : ctx) (v' : vars) (g : N) (m : smode) (B : base c) (Ed : v_data v' = upd (v_data (c_v c)) g (vd_set_mode (v_data (c_v c) g) m)).
  Context (V : vgrow (c_v c) v').
  Lemma mode_flags h : vd_assumed (v_data v' h) = vd_assumed (v_data (c_v c) h) /\ vd_deleted (v_data v' h) = vd_deleted (v_data (c_v c) h).
  Proof. rewrite Ed. unfold upd. destruct (N.eqb_spec h g) as [->|]; auto. Qed.
  Lemma mode_base : (forall h, vd_assumed (v_data (c_v c) h) = true -> v_ug (c_v c) h <> None -> v_ug v' h <> None) -> base (cw_v c v').
  Proof.
    intros H. apply base_v; [exact B|exact V| |].
    - intros h D A. destruct (mode_flags h) as [E1 E2]. rewrite E1 in A. rewrite E2 in D. apply H; [exact A|]. exact (b_shown _ B h D A).
    - intros l Il. destruct (b_as _ B l Il) as (h & H1 & H2). exists h. rewrite (vg_gs _ _ V). split; [exact H1|]. rewrite (proj1 (mode_flags h)). exact H2.
  Qed.
  Lemma mode_inv f F A : base (cw_v c v') -> inv f F A c -> inv f F A (cw_v c v').
  Proof.
    intros B' [K L]. split; [|exact L]. apply core_v; [exact K|exact V|exact (b_shown _ B')|exact (b_as _ B')|].
    intros a I. destruct (iv_kept _ _ _ _ K a I) as [K1 K2]. destruct (mode_flags (lit_var a)) as [E1 E2]. rewrite E1, E2. auto.
  Qed.
  Lemma mode_model F A x : model_of (c_v c) F A x -> model_of v' F A x.
  Proof.
    intros H b Sy. destruct (H b) as (b' & Ag & R).
    - intros h y D. apply Sy. rewrite (proj2 (mode_flags h)). exact D.
    - exists b'. split; [|exact R]. intros h D. apply Ag. rewrite <- (proj2 (mode_flags h)). exact D.
  Qed.
End Mode.

Lemma core_drop f F A c g : core f F A c -> v_ug (c_v c) g = None -> v_sg (c_v c) g = None -> core f F A (cw_v c (v_drop (c_v c) g)).
Proof.
  intros K U S. pose proof (iv_base _ _ _ _ K) as Ba. pose proof (drop_base _ _ Ba U S) as Bd.
  destruct K. constructor; cbn [cw_v c_s c_d c_bin c_v c_vs c_as]; auto.
  - destruct iv_used as [U1 U2]. split; [intros w l I1 I2|intros l o I]; apply drop_use; eauto.
  - intros g' x y Sg. cbn [v_drop v_data v_sg] in *. unfold upd. destruct (N.eqb_spec g' g) as [->|]; [congruence|]. apply iv_unit. exact Sg.
  - intros b M. destruct (iv_sound b M) as (S1 & Kb & Ub). split; [exact S1|]. split; [exact Kb|]. apply drop_units. exact Ub.
  - apply drop_complete; [exact S|apply Ba|exact iv_comp].
  - apply drop_kept; [apply Ba|exact U|exact (b_shown _ Ba)|exact iv_kept].
Qed.
Lemma drop_model v F A g x : as_kept (v_drop v g) A -> model_of v F A x -> model_of (v_drop v g) F A x.
Proof.
  intros Ke H b Sy.
  destruct (H (match nth_error x (N.to_nat g) with Some (Some y) => upd b g y | _ => b end)) as (b' & Ag & M & Ha).
  - intros h y D E. destruct (N.eq_dec h g) as [->|NE].
    + rewrite E. apply upd_eq.
    + assert (Q : b h = y) by (apply Sy; [cbn [v_drop v_data]; rewrite upd_ne by exact NE; exact D|exact E]).
      destruct (nth_error x (N.to_nat g)) as [[z|]|]; [rewrite upd_ne by exact NE|..]; exact Q.
  - exists b'. split; [|auto]. intros h D. cbn [v_drop v_data] in D. destruct (N.eq_dec h g) as [->|NE]; [rewrite upd_eq in D; discriminate|].
    rewrite upd_ne in D by exact NE. rewrite (Ag h D). destruct (nth_error x (N.to_nat g)) as [[z|]|]; [rewrite upd_ne by exact NE|..]; reflexivity.
Qed.

(** What is left of the problem without a variable, and a problem with more variables *)
Definition without (u : N) (S : problem) : problem := fun b => exists b0, models b0 S /\ forall x, x <> u -> b0 x = b x.
Definition extends (l : list N) (S S' : problem) : Prop :=
  forall b, models b S <-> exists b', models b' S' /\ forall x, ~ In x l -> b' x = b x.
Lemma tied_hide S F gu u g : gu u = Some g -> tied S F gu -> tied (without u S) F (upd gu u None).
Proof.
  intros E T bu. split.
  - intros (b0 & M & H). apply T in M as (b & Mb & L). exists b. split; [exact Mb|]. intros w h. unfold upd. destruct (N.eqb_spec w u) as [|NE]; [discriminate|].
    intros Eh. rewrite <- H by exact NE. apply L. exact Eh.
  - intros (b & Mb & L). exists (upd bu u (b g)). split; [|intros x NE; apply upd_ne; exact NE]. apply T. exists b. split; [exact Mb|].
    intros w h Eh. destruct (N.eq_dec w u) as [->|NE]; [rewrite upd_eq; congruence|]. rewrite upd_ne by exact NE. apply L. rewrite upd_ne by exact NE. exact Eh.
Qed.
Lemma tied_show S F gu u g : gu u = None -> tied S F gu -> exists S', extends [u] S S' /\ tied S' F (upd gu u (Some g)).
Proof.
  intros E T. exists (fun bu => exists b, models b F /\ linked (upd gu u (Some g)) b bu). split; [|intros bu; reflexivity]. intros bu. split.
  - intros M. apply T in M as (b & Mb & L). exists (upd bu u (b g)). split; [|intros x N; apply upd_ne; intros ->; apply N; left; reflexivity].
    exists b. split; [exact Mb|]. intros w h. unfold upd. destruct (N.eqb_spec w u) as [->|NE]; [congruence|apply L].
  - intros (b' & (b & Mb & L) & H). apply T. exists b. split; [exact Mb|]. intros w h Eh. assert (NE : w <> u) by congruence.
    rewrite <- H by (intros [|[]]; congruence). apply L. rewrite upd_ne by exact NE. exact Eh.
Qed.
Lemma extends_trans l l' S S1 S' : extends l S S1 -> extends l' S1 S' -> extends (l ++ l') S S'.
Proof.
  intros H1 H2 b. rewrite (H1 b). split.
  - intros (b1 & M1 & E1). apply H2 in M1 as (b' & M & E). exists b'. split; [exact M|]. intros x N.
    rewrite E by (intros I; apply N; apply in_or_app; right; exact I). apply E1. intros I. apply N. apply in_or_app. left. exact I.
  - intros (b' & M & E). exists (fun x => if existsb (N.eqb x) l then b' x else b x). split.
    + apply H2. exists b'. split; [exact M|]. intros x N. destruct (existsb (N.eqb x) l) eqn:Ex; [reflexivity|]. apply E. intros I. apply in_app_or in I as [I|I]; [|contradiction].
      assert (Y : existsb (N.eqb x) l = true) by (apply existsb_exists; exists x; split; [exact I|apply N.eqb_refl]). congruence.
    + intros x N. destruct (existsb (N.eqb x) l) eqn:Ex; [|reflexivity]. apply existsb_exists in Ex as (y & I & Ey). apply N.eqb_eq in Ey. subst y. contradiction.
Qed.

(** What a change of the sampling mode does to the problem *)
Definition mode_means (u : N) (m : smode) (S S' : problem) : Prop := match m with Hide => S' = without u S | _ => S' = S end.
Lemma set_mode_good fr vis S U u g m c : v_gu (c_v c) u = Some g -> good fr vis S U c ->
  spec (set_sampling_mode g m c) (fun '(c', r) => st_sat (c_st c') = st_sat (c_st c) /\
    exists S', mode_means u m S S' /\ good fr (vis && negb (smode_eqb m Hide)) S' U c').
Proof.
  intros Eu G. pose proof G as (B & _ & Vi & _). pose proof (gu_alive _ _ _ (b_vars _ B) Eu) as Al.
  assert (Ug : v_ug (c_v c) g = Some u) by (apply (vo_ug _ (b_vars _ B)); exact Eu).
  assert (Vis : vd_mode (v_data (c_v c) g) <> Hide) by (intros E; apply (vo_mode _ (b_vars _ B) g Al) in E; congruence).
  eapply spec_weaken; [apply set_sampling_mode_spec; [apply B|exact Al]|]. intros [c' r]. cbv zeta.
  intros [(E & -> & _)|(NE & As & [(_ & Nm & _ & Fr)|[(E & _)|(-> & _ & u' & v' & Eu' & Hd & Fr)]])].
  - split; [reflexivity|]. exists S. assert (m <> Hide) by congruence. split; [destruct m; reflexivity || congruence|].
    destruct m; try congruence; cbn [smode_eqb negb]; rewrite Bool.andb_true_r; exact G.
  - split; [destruct Fr as (e & p & ->); reflexivity|]. set (v' := v_put _ _ _) in Fr.
    assert (Vg : vgrow (c_v c) v').
    { apply (mode_grow _ _ g m); try reflexivity. apply v_put_ok; [apply B|reflexivity|]. intros _. cbn [vd_set_mode vd_mode]. tauto. }
    assert (B' : base (cw_v c v')) by (apply (mode_base c v' g m B eq_refl Vg); auto).
    destruct (good_v (fun S' => S' = S) fr vis (vis && negb (smode_eqb m Hide)) S U c v' G B') as (S' & HR & G').
    + intros X. apply andb_prop in X as [X _]. apply (vgrow_all _ _ Vg); [reflexivity|auto].
    + intros M. exists S. auto.
    + intros F Kn K T. exists S. split; [reflexivity|]. split; [exact Kn|]. split; [reflexivity|]. split; [apply (mode_inv c v' g m eq_refl Vg); assumption|]. split; [exact T|]. split; [auto|].
      intros x. apply (mode_model c v' g m eq_refl).
    + exists S'. split; [destruct m; exact HR || congruence|]. eapply good_st; [apply frame_st; exact Fr|exact G'].
  - congruence.
  - split; [destruct Fr as (e & p & ->); reflexivity|]. assert (u' = u) by (apply (vo_ug _ (b_vars _ B)) in Eu'; congruence). subst u'.
    assert (Vg : vgrow (c_v c) (v_hide (c_v c) u g)) by (apply (mode_grow _ _ g Hide); try reflexivity; apply v_hide_ok; [apply B|exact Eu]).
    assert (B1 : base (cw_v c (v_hide (c_v c) u g))).
    { apply (mode_base c (v_hide (c_v c) u g) g Hide B eq_refl Vg). intros h Ah Nh. cbn [v_hide v_ug]. unfold upd. destruct (N.eqb_spec h g) as [->|]; [congruence|exact Nh]. }
    assert (B' : base (cw_v c v')).
    { destruct Hd as [->|(Sg & _ & ->)]; [exact B1|]. apply (drop_base (cw_v c (v_hide (c_v c) u g)) g B1); [apply upd_eq|exact Sg]. }
    assert (Eg' : v_gu v' = upd (v_gu (c_v c)) u None) by (destruct Hd as [->|(_ & _ & ->)]; reflexivity).
    destruct (good_v (fun S' => S' = without u S) fr vis (vis && negb true) S U c v' G B') as (S' & HR & G').
    + rewrite Bool.andb_false_r. discriminate.
    + intros M. eexists. split; [reflexivity|]. intros b (b0 & M0 & _). exact (M b0 M0).
    + intros F Kn K T. exists (without u S). split; [reflexivity|].
      assert (Na : forall a, In a U -> lit_var a <> u).
      { intros a I E. destruct (iv_kept _ _ _ _ (proj1 K) (glob (c_v c) a)) as [_ Q]; [apply in_map; exact I|]. unfold glob in Q. rewrite E, Eu, lo_var in Q. congruence. }
      assert (Ga : forall a, In a U -> v_gu v' (lit_var a) = v_gu (c_v c) (lit_var a)) by (intros a I; rewrite Eg'; apply upd_ne; apply Na; exact I).
      split; [intros a I; rewrite Ga by exact I; apply Kn; exact I|].
      split; [apply map_ext_in; intros a I; unfold glob; rewrite Ga by exact I; reflexivity|].
      pose proof (mode_inv c (v_hide (c_v c) u g) g Hide eq_refl Vg false F _ B1 K) as K1.
      split; [|split; [|split]].
      * destruct Hd as [->|(Sg & _ & ->)]; [exact K1|]. destruct K1 as [K1 L1]. split; [|exact L1]. apply (core_drop false F _ (cw_v c (v_hide (c_v c) u g)) g K1); [apply upd_eq|exact Sg].
      * rewrite Eg'. apply (tied_hide _ _ _ _ g); assumption.
      * intros L Il Ul b (b0 & M0 & E0) Hb. apply (Ul b0 M0). intros l I. rewrite <- (Hb l I). apply lh_ext. apply E0. apply Na. apply Il. exact I.
      * intros x Mo. apply (mode_model c (v_hide (c_v c) u g) g Hide eq_refl) in Mo. destruct Hd as [->|(Sg & _ & ->)]; [exact Mo|].
        apply drop_model; [|exact Mo]. apply drop_kept; [apply B1|apply upd_eq|exact (b_shown _ B1)|exact (iv_kept _ _ _ _ (proj1 K1))].
    + exists S'. split; [exact HR|]. eapply good_st; [apply frame_st; exact Fr|exact G'].
Qed.

Lemma change_mode_good fr vis S U u m c : good fr vis S U c ->
  spec (change_mode u m c) (fun c' => st_sat (c_st c') = st_sat (c_st c) /\ exists S', mode_means u m S S' /\ good fr (vis && negb (smode_eqb m Hide)) S' U c').
Proof.
  intros G. unfold change_mode. eapply spec_bind; [apply global_from_user_steps; apply base_base0; apply G|].
  intros [c1 g] (E & V). eapply spec_bind; [apply (set_mode_good fr vis S U u); [exact E|eapply vadds_good; eassumption]|].
  intros [c2 r] [S2 G2]. apply spec_ret. split; [|exact G2]. rewrite S2. apply (vk_sat _ _ (vsteps_keep _ _ (vadds_steps _ _ V))).
Qed.

(** Hidden variables get new names. *)
Lemma observe_good fr vis U n : forall g S c, good fr vis S U c -> spec (observe_loop n g c) (fun '(c', l) =>
  st_sat (c_st c') = st_sat (c_st c) /\ (covers c -> covers c') /\ (vis = true -> l = []) /\ exists S', extends l S S' /\ good fr vis S' U c').
Proof.
  induction n as [|n IH]; intros g S c G; cbn [observe_loop].
  { apply spec_ret. split; [reflexivity|]. split; [auto|]. split; [reflexivity|]. exists S. split; [|exact G].
    intros b. split; [intros M; exists b; auto|]. intros (b' & M & E). destruct G as (B & _ & _ & G).
    assert (X : forall x, b' x = b x) by (intros x; apply E; intros []). destruct (st_sat (c_st c)).
    3: { destruct G as [_ G]. exfalso. exact (G b' M). }
    all: destruct G as (_ & F & _ & T & _); apply T; apply T in M as (bg & Mg & L); exists bg; (split; [exact Mg|]); intros u h Eh; rewrite <- X; apply L; exact Eh. }
  destruct (negb (vd_deleted (v_data (c_v c) g)) && smode_eqb (vd_mode (v_data (c_v c) g)) Hide) eqn:E; [|apply IH; exact G].
  apply andb_prop in E as [E1 E2]. apply negb_true_iff in E1. pose proof G as (B & _ & Vi & _).
  assert (Eh : vd_mode (v_data (c_v c) g) = Hide) by (destruct (vd_mode (v_data (c_v c) g)); auto; discriminate).
  assert (Ug : v_ug (c_v c) g = None) by (apply (vo_mode _ (b_vars _ B) g E1); exact Eh).
  eapply spec_bind; [apply set_sampling_mode_spec; [apply B|exact E1]|]. intros [c1 r]. cbv zeta.
  intros [(E & _)|(NE & As & [(E & _)|[(_ & -> & Fr)|(E & _)]])]; try congruence.
  set (u := next_user (c_v c)) in *. set (v' := v_show (c_v c) u g Witness) in Fr.
  pose proof (next_user_free _ (b_vars _ B)) as [Nu _]. fold u in Nu.
  assert (Vg : vgrow (c_v c) v').
  { apply (mode_grow _ _ g Witness); try reflexivity. apply v_show_next_ok; [apply B|discriminate|exact E1|exact Eh]. }
  assert (B' : base (cw_v c v')).
  { apply (mode_base c v' g Witness B eq_refl Vg). intros h _ N. unfold v', v_show, bind_user. cbn [v_ug v_put set_data]. unfold upd. destruct (N.eqb_spec h g); [discriminate|exact N]. }
  assert (Eg' : v_gu v' = upd (v_gu (c_v c)) u (Some g)) by reflexivity.
  assert (Gk : forall w h, v_gu (c_v c) w = Some h -> v_gu v' w = Some h) by (intros w h Q; rewrite Eg', upd_ne; congruence).
  destruct (good_v (extends [u] S) fr vis vis S U c v' G B') as (S1 & HR & G1).
  + intros X h D. unfold v', v_show, bind_user. cbn [v_ug v_put set_data]. unfold upd. destruct (N.eqb_spec h g) as [|NE2]; [discriminate|].
    apply Vi; [exact X|]. rewrite <- (vg_dead _ _ Vg). exact D.
  + intros M. exists S. split; [|exact M]. intros b. split; [intros X; exfalso; exact (M b X)|intros (b' & X & _); exfalso; exact (M b' X)].
  + intros F Kn K T. destruct (tied_show S F (v_gu (c_v c)) u g Nu T) as (S' & Ex & T'). exists S'. split; [exact Ex|].
    split; [exact (known_ext _ _ _ Gk Kn)|]. split; [exact (glob_map _ _ _ Gk Kn)|]. split; [apply (mode_inv c v' g Witness eq_refl Vg); assumption|]. split; [exact T'|].
    split; [intros L _ Ul b Mb; apply Ul; apply Ex; exists b; auto|]. intros x. apply (mode_model c v' g Witness eq_refl).
  + pose proof (good_st _ _ _ _ _ _ (frame_st _ _ Fr) G1) as G1'. eapply spec_bind; [apply (IH (g + 1)%N S1 c1 G1')|].
    intros [c2 l] (St & Co & Vl & S' & Ex & G2). apply spec_ret.
    assert (Fv : c_v c1 = v' /\ c_model c1 = c_model c /\ st_sat (c_st c1) = st_sat (c_st c)) by (destruct Fr as (e & p & ->); auto). destruct Fv as (Fv & Fm & Fs).
    split; [congruence|]. split; [|split].
    * intros C0. apply Co. unfold covers. rewrite Fv, Fm. intros h D. apply C0. rewrite <- (vg_dead _ _ Vg). exact D.
    * intros X. exfalso. exact (Vi X g E1 Ug).
    * exists S'. split; [|exact G2]. apply (extends_trans [u] l S S1 S'); assumption.
Qed.

(** * Configuration *)
Lemma config_good fr vis S U c cfg vd cd : good fr vis S U c -> good fr vis S U (cw_d (cw_vs (cw_cfg c cfg) (vsids_set_decay (c_vs c) vd)) (with_inv (c_d c) cd)).
Proof.
  intros (B & Fr & Vi & G). set (c' := cw_d _ _).
  assert (Kc : forall f F A, core f F A c -> core f F A c').
  { intros f F A K. unfold c'. apply (core_d f F A (cw_vs (cw_cfg c cfg) (vsids_set_decay (c_vs c) vd))); [apply core_vs|..].
    - destruct K. constructor; auto. destruct iv_base. constructor; auto.
    - split; [|intros x; reflexivity]. change (wf (vsids_set_decay (c_vs c) vd)). destruct (b_wf _ B). constructor; assumption.
    - cbn [cw_vs cw_cfg c_s]. destruct (iv_db _ _ _ _ K) as [D Us]. split; [destruct D; constructor; assumption|exact Us].
    - reflexivity.
    - intros x _. reflexivity. }
  split; [destruct B; constructor; try assumption; destruct b_wf; constructor; assumption|]. split; [exact Fr|]. split; [exact Vi|].
  unfold holds, answered in *. unfold c' in *. cbn [cw_d cw_vs cw_cfg c_st c_s c_v c_model c_as] in *.
  destruct (st_sat (c_st c)); try exact G; destruct G as (Kn & F & [K L] & X); (split; [exact Kn|]; exists F; split; [split; [apply Kc; exact K|exact L]|exact X]).
Qed.

Lemma ev1_valid c c' f : CtxEvents.ev1 f c c' -> config_valid (c_cfg c) -> config_valid (c_cfg c').
Proof.
  intros H V. destruct H as [c c' E|c x _|c u _|sv s c c' NN NB E|cl c c' Ch E|c n|c c1 c' g x R E|c c1 c' g x R E].
  - destruct E as ((_&->)&_). exact V.
  - exact V.
  - apply C38_update_never_panics. exact V.
  - destruct (add_step_post _ _ _ _ E) as (e & p & ->). exact V.
  - destruct (ask_checker_post _ _ _ E) as (e & p & ->). exact V.
  - exact V.
  - destruct R as ((_&R0)&_). destruct (add_step_post _ _ _ _ E) as (e & p & ->). cbn. rewrite R0. exact V.
  - destruct R as ((_&R0)&_). destruct (add_step_post _ _ _ _ E) as (e & p & ->). cbn. rewrite R0. exact V.
Qed.
Lemma ev_valid c c' f : CtxEvents.ev f c c' -> config_valid (c_cfg c) -> config_valid (c_cfg c').
Proof. induction 1; intros V; [exact V|]. apply IHev. eapply ev1_valid; eassumption. Qed.
Lemma run_valid fuel k c : config_valid (c_cfg c) -> post (run fuel k c) (fun r => config_valid (c_cfg (fst r))).
Proof.
  intros V. destruct (CtxEvents.plain k) eqn:P; [intros r E; eapply ev_valid; [exact (CtxEvents.t_run fuel k c P r E)|exact V]|].
  destruct k; try discriminate; cbn [run].
  - intros [c3 a] E. unfold solve in E. cbv zeta in E. destruct (st_invalid _); [discriminate|].
    destruct (schedule_loop fuel fuel (set_invoked c true)) as [c1| |] eqn:E1; try discriminate. cbn [bind] in E.
    destruct (solve_finished c1) as [c2| |] eqn:E2; try discriminate. cbn [bind] in E.
    assert (V1 : config_valid (c_cfg c1)) by (eapply ev_valid; [exact (CtxEvents.t_schedule_loop _ _ _ _ E1)|exact V]).
    assert (V2 : config_valid (c_cfg c2)) by (destruct (spec_get _ _ _ (solve_finished_spec c1) E2) as (e & p & ->); exact V1).
    unfold take_error in E. destruct (st_error (c_st c2)); injection E as <- _; exact V2.
  - destruct (st_empty (c_st c)); [|apply post_panic]. apply post_ret. exact V.
  - eapply post_bind; [intros c1 E1; exact (spec_get _ _ _ (close_proof_spec c) E1)|]. intros c1 (e & p & ->).
    destruct (take_error_st (cw_pf (set_error c e) p)) as (st & q & T & _).
    destruct (take_error (cw_pf (set_error c e) p)) as [c2 [x|]]; cbn [fst] in T; subst c2; apply post_ret; exact V.
  - destruct (st_empty (c_st c)); [|apply post_panic]. apply post_ret. exact V.
Qed.

(** * Histories *)
(** No model is left after adding a clause or changing the assumptions. *)
Lemma load_not_sat fr vis S U C c : good fr vis S U c -> spec (load_clause C c) (fun c' => st_sat (c_st c') <> Sat).
Proof.
  intros (B & Fr & Vi & H). rewrite load_clause_rest. destruct (st_sat (c_st c)) eqn:St.
  3: apply spec_ret; congruence.
  all: destruct H as (_ & F & K & _).
  all: match goal with |- spec (load_rest ?Y (full_restart ?X)) _ => assert (K0 : inv false F (map (glob (c_v c)) U) X) by (repeat apply inv_st; exact K);
    destruct (full_restart_ground F _ X K0) as (G & _ & Es & _); eapply spec_weaken; [apply (load_rest_spec F _ Y _ G)|] end.
  all: intros c2 (_ & _ & _ & _ & _ & _ & F' & _ & _ & [(_ & R & _)|[_ R]]); [congruence|]; rewrite R, Es; cbn [set_empty set_sat cw_st c_st st_sat]; congruence.
Qed.
Lemma assume_not_sat fr vis S U user c : good fr vis S U c -> spec (set_assumptions user c) (fun c' => st_sat (c_st c') <> Sat).
Proof.
  intros (B & Fr & Vi & H).
  assert (E : set_assumptions user c = assume_rest user (match st_sat (c_st (full_restart c)) with Unsat => full_restart c | _ => set_sat (full_restart c) Unknown end)) by reflexivity.
  rewrite E. clear E. destruct (st_sat (c_st c)) eqn:St.
  3: { destruct H as [D M]. rewrite (full_restart_zero _ D). change (st_sat (c_st (set_levels 0 c))) with (st_sat (c_st c)). rewrite St.
       eapply spec_weaken; [apply assume_rest_spec; destruct B; constructor; assumption|]. intros c' (_ & S' & _). rewrite S'. change (st_sat (c_st c) <> Sat). congruence. }
  all: destruct H as (_ & F & K & _); destruct (full_restart_ground F _ c K) as (G & Ev & Es & _); rewrite Es, St.
  all: assert (G' : ground F (map (glob (c_v c)) U) (set_sat (full_restart c) Unknown)) by (destruct G as [Gi Gd]; split; [apply inv_st; exact Gi|exact Gd]).
  all: eapply spec_weaken; [apply assume_rest_spec; apply G'|]; intros c' (_ & S' & _); rewrite S'; discriminate.
Qed.

(** The problem and the assumptions after a call with its answer: a clause restricts the problem, hiding a variable projects it
    away, and variables made visible again extend the problem. *)
Definition step_means (k : call) (a : answer) (S S' : problem) : Prop :=
  match k, a with
  | CAdd C, _ => forall b, models b S' <-> models b S /\ clause_holds b C = true
  | CHide u, _ => forall b, models b S' <-> exists b0, models b0 S /\ forall x, x <> u -> b0 x = b x
  | CObserve, AVars l => extends l S S'
  | _, _ => forall b, models b S' <-> models b S
  end.
Definition assumed_after (k : call) (A : list N) : list N := match k with CAssume l => l | _ => A end.
Definition hides (k : call) : bool := match k with CHide _ => true | _ => false end.
Definition names (k : call) : bool := match k with CNewVar | CWitness _ | CSample _ | CHide _ => true | _ => false end.
Definition fresh_after (fr : bool) (c : ctx) : bool := fr && negb (lone c).
Definition tells (fr : bool) (S : problem) (U : list N) (c : ctx) (a : answer) : Prop :=
  match a with
  | ASolved true => st_sat (c_st c) = Sat
  | ASolved false => st_sat (c_st c) = Unsat \/ st_sat (c_st c) = UnsatAssum /\ user_failed S U (fr = true) c
  | _ => True
  end.
(** What is known after a call *)
Definition called (k : call) (fr vis : bool) (S : problem) (U : list N) (c c' : ctx) (a : answer) : Prop :=
  exists S', step_means k a S S' /\ good (fresh_after fr c') (vis && negb (hides k)) S' (assumed_after k U) c' /\
    (names k = false -> sized c -> sized c') /\ tells fr S' (assumed_after k U) c' a /\
    (vis = true -> match k, a with CObserve, AVars l => l = [] | _, _ => True end) /\
    match k, a with CSolve, _ => True | _, ASolved _ => False | CAdd _, _ | CAssume _, _ => st_sat (c_st c') <> Sat
    | _, _ => st_sat (c_st c) <> Sat -> st_sat (c_st c') <> Sat end.

Theorem run_spec fuel k fr vis S U c : good fr vis S U c -> config_valid (c_cfg c) ->
  spec (run fuel k c) (fun '(c', a) => called k fr vis S U c c' a).
Proof.
  intros G V.
  assert (Same : forall k' c' a, (forall S', (forall b, models b S' <-> models b S) -> step_means k' a S S') -> hides k' = false -> good (fresh_after fr c') vis S (assumed_after k' U) c' ->
    (names k' = false -> sized c -> sized c') -> tells fr S (assumed_after k' U) c' a -> (vis = true -> match k', a with CObserve, AVars l => l = [] | _, _ => True end) ->
    match k', a with CSolve, _ => True | _, ASolved _ => False | CAdd _, _ | CAssume _, _ => st_sat (c_st c') <> Sat
    | _, _ => st_sat (c_st c) <> Sat -> st_sat (c_st c') <> Sat end -> called k' fr vis S U c c' a).
  { intros k' c' a H1 H2 H3 H4 H5 H6 H7. exists S. split; [apply H1; reflexivity|]. rewrite H2. cbn [negb]. rewrite Bool.andb_true_r. auto. }
  destruct k; cbn [run].
  - eapply spec_bind; [apply spec_and; [apply (load_clause_spec fr vis S U clause c G)|apply (load_not_sat fr vis S U clause c G)]|].
    intros c' [G' N']. apply spec_ret. exists (also clause S). split; [intros b; reflexivity|]. cbn [hides negb]. rewrite Bool.andb_true_r. split; [apply good_weaken; exact G'|].
    split; [intros _ _ X; contradiction|]. split; [exact Logic.I|]. split; [auto|exact N'].
  - assert (G1 : good fr vis S U (set_empty c false)).
    { eapply good_st; [|exact G]. exists (c_st (set_empty c false)), (c_pf c). split; reflexivity. }
    unfold new_user_var. cbv zeta.
    eapply (spec_bind _ _ (fun '((c1, _) : ctx * N) => good fr vis S U c1 /\ st_sat (c_st c1) = st_sat (c_st c))).
    + eapply spec_bind; [apply global_from_user_steps; apply base_base0; apply G1|]. intros [c1 g] (_ & Va). apply spec_ret.
      split; [eapply vadds_good; eassumption|]. rewrite (vk_sat _ _ (vsteps_keep _ _ (vadds_steps _ _ Va))). reflexivity.
    + intros [c1 v] [G2 S2]. apply spec_ret. apply Same; auto; [apply good_weaken; exact G2|discriminate|exact Logic.I|cbv beta; intros X; congruence].
  - eapply spec_bind; [apply (change_mode_good fr vis S U); exact G|]. intros c1 [S2 (S' & Me & G2)]. apply spec_ret. cbn [mode_means] in Me. subst S'. cbn [smode_eqb negb] in G2. rewrite Bool.andb_true_r in G2.
    apply Same; auto; [apply good_weaken; exact G2|discriminate|exact Logic.I|cbv beta; intros X; congruence].
  - eapply spec_bind; [apply (change_mode_good fr vis S U); exact G|]. intros c1 [S2 (S' & Me & G2)]. apply spec_ret. cbn [mode_means] in Me. subst S'. cbn [smode_eqb negb] in G2. rewrite Bool.andb_true_r in G2.
    apply Same; auto; [apply good_weaken; exact G2|discriminate|exact Logic.I|cbv beta; intros X; congruence].
  - eapply spec_bind; [apply (change_mode_good fr vis S U); exact G|]. intros c1 [S2 (S' & Me & G2)]. apply spec_ret. cbn [mode_means] in Me. subst S'.
    exists (without v S). split; [intros b; reflexivity|]. split; [apply good_weaken; exact G2|]. split; [discriminate|]. split; [exact Logic.I|]. split; [auto|cbv beta; intros X; congruence].
  - eapply spec_bind; [apply (observe_good fr vis U _ 0%N S c G)|]. intros [c1 l] (S2 & Co & Vl & S' & Ex & G2). apply spec_ret.
    exists S'. split; [exact Ex|]. cbn [hides negb]. rewrite Bool.andb_true_r. split; [apply good_weaken; exact G2|]. split; [intros _ Z X; apply Co; apply Z; congruence|].
    split; [exact Logic.I|]. split; [exact Vl|congruence].
  - eapply spec_bind; [apply spec_and; [apply (set_assumptions_spec fr vis S U lits c G)|apply (assume_not_sat fr vis S U lits c G)]|].
    intros c' [G' N']. apply spec_ret. apply Same; auto; [apply good_weaken; exact G'|intros _ _ X; contradiction|exact Logic.I].
  - destruct (good_progress _ _ _ _ _ G) as (F & A & P0).
    eapply spec_weaken; [apply (solve_spec (fr = true) (sized c) (vis = true) S U F A fuel c P0)|].
    intros [c' a] [P T]. apply Same; auto.
    + eapply progress_good; [exact P|]. intros X. apply andb_prop in X as [X1 X2]. apply negb_true_iff in X2. auto.
    + intros _ Z X. destruct P as (_ & _ & P). rewrite X in P. destruct P as (_ & _ & _ & _ & L). apply L. exact Z.
    + destruct a as [|[]| | | |]; cbn [tells]; try exact Logic.I; [exact T|]. destruct T as [T|T]; [left; exact T|right]. split; [exact T|].
      destruct P as (_ & _ & P). rewrite T in P. apply P.
  - destruct (st_empty (c_st c)); [|exact Logic.I]. apply spec_ret. apply Same; auto; [|exact Logic.I].
    apply good_weaken. eapply good_st; [|exact G]. eexists (c_st c), _. split; [|reflexivity]. destruct c; reflexivity.
  - eapply spec_bind; [apply close_proof_spec|]. intros c1 Fr. pose proof (good_st _ _ _ _ _ _ (frame_st _ _ Fr) G) as G1.
    pose proof (take_error_st c1) as T. assert (Z1 : sized c -> sized c1) by (destruct Fr as (e & p & ->); intros Z; exact Z).
    destruct (take_error c1) as [c2 [e|]] eqn:Et; cbn [fst] in T; apply spec_ret; apply Same; auto; try exact Logic.I.
    + apply good_weaken. eapply good_st; [exact T|exact G1].
    + intros _ Z. destruct T as (st & p & -> & E). intros X. apply Z1; [exact Z|]. rewrite <- E. exact X.
    + intros X. destruct T as (st & p & -> & E). destruct Fr as (e' & p' & ->). change (st_sat st <> Sat). rewrite E. exact X.
    + apply good_weaken. eapply good_st; [exact T|exact G1].
    + intros _ Z. destruct T as (st & p & -> & E). intros X. apply Z1; [exact Z|]. rewrite <- E. exact X.
    + intros X. destruct T as (st & p & -> & E). destruct Fr as (e' & p' & ->). change (st_sat st <> Sat). rewrite E. exact X.
  - destruct (st_empty (c_st c)); [|exact Logic.I]. apply spec_ret. apply Same; auto; [|exact Logic.I].
    apply good_weaken. eapply good_st; [|exact G]. eexists (c_st c), _. split; [|reflexivity]. destruct c; reflexivity.
  - destruct (update_apply u (c_cfg c)) as [ok cfg] eqn:Eu. destruct ok; [|apply spec_ret; apply Same; auto; [apply good_weaken; exact G|exact Logic.I]].
    destruct (C38_update_never_panics u (c_cfg c) V) as (_ & D1 & D2). rewrite Eu in D1, D2. cbn [snd] in D1, D2. rewrite D1, D2. cbn [andb].
    apply spec_ret. apply Same; auto; [apply good_weaken; exact (config_good fr vis S U c cfg _ _ G)|exact Logic.I].
Qed.

(** The new solver *)
Lemma default_good pick judge io : good true true (fun _ => True) [] (ctx_default pick judge io).
Proof.
  assert (B : base (ctx_default pick judge io)).
  { constructor.
    - apply vars_default_ok.
    - intros g D. cbn in D. discriminate.
    - split; [constructor|]. intros x p _. cbn. split; [discriminate|lia].
    - intros x [].
    - intros l [].
    - repeat split. }
  assert (G : ground (fun _ => True) [] (ctx_default pick judge io)).
  { apply ground_intro.
    - constructor.
      + exact B.
      + split; [|intros x; reflexivity]. constructor.
        * constructor.
        * intros x [].
        * intros []; reflexivity.
        * intros x [].
        * intros t x I. destruct t; destruct I.
        * exists []. split; [constructor|]. split; [intros x []|]. split; [intros x []|]. split; [intros x []|]. split; [reflexivity|cbn; lia].
        * reflexivity.
      + intros l [].
      + split; [intros x y []|intros l o []].
      + intros x X. cbn in X. congruence.
      + intros g x y X. cbn in X. congruence.
      + intros b _. split; [|split].
        * split; [intros x []|intros l o []].
        * intros x y [X _]. cbn in X. congruence.
        * intros g y D. cbn in D. discriminate.
      + intros b _ _ _ _. exists b. split; [intros g _; reflexivity|exact Logic.I].
      + intros i p X. destruct i; discriminate.
      + intros l g [].
      + intros l [].
      + intros b _ _ a [].
    - constructor; cbn; try (intros; destruct p; discriminate); try (intros; congruence); try (intros l []); try constructor; try lia.
    - constructor; cbn; try (intros; contradiction); try constructor.
    - intros _. constructor; cbn; intros; try contradiction; constructor.
    - reflexivity.
    - reflexivity.
    - intros l []. }
  split; [exact B|]. split; [intros _; split; [intros x; reflexivity|discriminate]|]. split; [intros _ g D; cbn in D; discriminate|]. cbn [ctx_default c_st state_default st_sat].
  split; [intros l []|]. exists (fun _ => True). split; [apply G|]. split; [|exact Logic.I]. intros bu. split; [|intros _; exact Logic.I]. intros _. exists bu. split; [exact Logic.I|].
  intros u g E. cbn in E. discriminate.
Qed.
