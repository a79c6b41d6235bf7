(** Creating variables and loading clauses (Solver.v). *)
From Coq Require Import Lia Arith PeanoNat Permutation Sorted ZArith ZifyBool ZifyNat ZifyN.
From Verif Require Import Spec Lit LitProofs BinFormat Hash F32 Vsids VsidsProofs VsidsWf Luby Config Search SearchBase
  Propagate P_Search ClauseDb DbProofs Analyze AnalyzeProofs SolverCtx CtxFrame VarsProofs Solver SolverInv SolverSimplify SolverAdd.
Local Open Scope nat_scope.

(** Every variable has a name of the user. *)
Definition all_shown (v : vars) : Prop := forall g, vd_deleted (v_data v g) = false -> v_ug v g <> None.

(** * Changes of the data of variables *)
Record vgrow (v v' : vars) : Prop := {
  vg_ok : vars_ok v'; vg_gs : v_gs v' = v_gs v; vg_sg : v_sg v' = v_sg v; vg_slen : v_slen v' = v_slen v;
  vg_dead : forall g, vd_deleted (v_data v' g) = vd_deleted (v_data v g);
  vg_unit : forall g, vd_unit (v_data v' g) = vd_unit (v_data v g);
  vg_iso : forall g, vd_isolated (v_data v g) = false -> vd_isolated (v_data v' g) = false }.
Definition shown (v : vars) : Prop := forall g, vd_deleted (v_data v g) = false -> vd_assumed (v_data v g) = true -> v_ug v g <> None.

Lemma vgrow_units v v' b : vgrow v v' -> (units_hold v' b <-> units_hold v b).
Proof.
  intros G. unfold units_hold. split; intros H g y D U; apply (H g y).
  - rewrite (vg_dead _ _ G). exact D.
  - rewrite (vg_unit _ _ G). exact U.
  - rewrite <- (vg_dead _ _ G). exact D.
  - rewrite <- (vg_unit _ _ G). exact U.
Qed.
Lemma vgrow_all v v' : vgrow v v' -> v_ug v' = v_ug v -> all_shown v -> all_shown v'.
Proof. intros G E H g D. rewrite E. apply H. rewrite <- (vg_dead _ _ G). exact D. Qed.
Lemma vgrow_lift v v' s b x : vgrow v v' -> lift v' s b x = lift v s b x.
Proof. intros G. unfold lift. rewrite (vg_gs _ _ G). reflexivity. Qed.
Lemma vgrow_ch v v' s b c : vgrow v v' -> clause_holds (lift v' s b) c = clause_holds (lift v s b) c.
Proof. intros G. apply ch_ext. intros l _. apply vgrow_lift. exact G. Qed.
Lemma vgrow_use v v' x : vgrow v v' -> in_use v x -> in_use v' x.
Proof.
  intros G (g & E & I). exists g. rewrite (vg_gs _ _ G). split; [exact E|]. apply (vg_iso _ _ G), I.
Qed.

Definition as_ok (v : vars) (as_ : list N) : Prop :=
  forall l, In l as_ -> exists g, v_gs v (lit_var l) = Some g /\ vd_assumed (v_data v g) = true.

Lemma base_v c v' : base c -> vgrow (c_v c) v' -> shown v' -> as_ok v' (as_lits (c_as c)) -> base (cw_v c v').
Proof. intros B G Sh As. destruct B. constructor; cbn [cw_v c_v c_vs c_as c_an]; auto; try apply G. rewrite (vg_gs _ _ G). exact b_heap. Qed.
Lemma meaning_v F A c v' : meaning F A c -> vgrow (c_v c) v' -> shown v' -> as_ok v' (as_lits (c_as c)) -> as_kept v' A -> meaning F A (cw_v c v').
Proof.
  intros K G Sh As Ke. pose proof (b_vars _ (mn_base _ _ _ K)) as V.
  destruct K. constructor; cbn [cw_v c_s c_d c_bin c_v c_vs c_as]; rewrite ?(vg_gs _ _ G), ?(vg_sg _ _ G); auto.
  - apply base_v; assumption.
  - destruct mn_used as [U1 U2]. split; intros; eapply vgrow_use; eauto.
  - intros g x y E U. apply (mn_unit g x y E). rewrite <- U. symmetry. apply (vg_unit _ _ G).
  - intros b M. destruct (mn_sound b M) as ((S1 & S2) & Kb & Ub). split; [split|split].
    + intros x I. rewrite (vgrow_ch _ _ _ _ _ G). apply S1. exact I.
    + intros l o I. rewrite (vgrow_ch _ _ _ _ _ G). apply S2. exact I.
    + intros x y Q. rewrite (vgrow_lift _ _ _ _ _ G). apply Kb. exact Q.
    + apply (vgrow_units _ _ _ G). exact Ub.
  - intros b S1 S2 Kb Ub. apply (agree_alive F (c_v c)); [intros g D; rewrite <- (vg_dead _ _ G); exact D|]. apply mn_comp.
    + intros x I. rewrite <- (vgrow_ch _ _ _ _ _ G). apply S1. exact I.
    + intros l o I. rewrite <- (vgrow_ch _ _ _ _ _ G). apply S2. exact I.
    + intros x y Q. rewrite <- (vgrow_lift _ _ _ _ _ G). apply Kb. exact Q.
    + apply (vgrow_units _ _ _ G). exact Ub.
  - intros l g I. rewrite (vg_gs _ _ G). apply mn_in. exact I.
  - intros b M S. apply mn_all; [exact M|]. intros l I. rewrite <- (S l I). apply lh_ext. symmetry. apply vgrow_lift. exact G.
Qed.
Lemma core_v f F A c v' : core f F A c -> vgrow (c_v c) v' -> shown v' -> as_ok v' (as_lits (c_as c)) -> as_kept v' A -> core f F A (cw_v c v').
Proof.
  intros K G Sh As Ke. apply meaning_core; [apply meaning_v; [eapply core_meaning; exact K|exact G|exact Sh|exact As|exact Ke]|].
  cbn [cw_v c_v c_d c_bin c_s]. rewrite (vg_slen _ _ G). apply K.
Qed.

(** ** Data of some literals *)
Definition touched (gs : N -> option N) (lits : list N) (g : N) : bool :=
  existsb (fun l => match gs (lit_var l) with Some h => N.eqb h g | None => false end) lits.
Lemma touched_in gs lits g : touched gs lits g = true <-> exists l, In l lits /\ gs (lit_var l) = Some g.
Proof.
  unfold touched. rewrite existsb_exists. split; intros (l & I & E); exists l; (split; [exact I|]).
  - destruct (gs (lit_var l)); [|discriminate]. apply N.eqb_eq in E. congruence.
  - rewrite E. apply N.eqb_refl.
Qed.
Lemma map_data_lits_eq f : (forall d, f (f d) = f d) -> forall lits c, named (c_v c) lits -> exists D,
  map_data_lits lits f c = Ret (cw_v c (set_data (c_v c) D)) /\
  forall g, D g = if touched (v_gs (c_v c)) lits g then f (v_data (c_v c) g) else v_data (c_v c) g.
Proof.
  intros Id. induction lits as [|l lits IH]; intros c Nm; cbn [map_data_lits].
  - exists (v_data (c_v c)). split; [|reflexivity]. f_equal. destruct c as [? ? ? ? ? ? ? []]. reflexivity.
  - unfold map_data_solver. destruct (v_gs (c_v c) (lit_var l)) as [h|] eqn:E; [|exfalso; apply (Nm l (or_introl eq_refl) E)].
    cbn [bind]. set (c1 := cw_v c _). destruct (IH c1) as (D & E1 & HD); [intros x I; apply (Nm x); right; exact I|].
    exists D. split; [exact E1|]. intros g. rewrite HD. unfold touched. cbn [existsb].
    change (v_gs (c_v c1)) with (v_gs (c_v c)). rewrite E. fold (touched (v_gs (c_v c)) lits g).
    unfold c1. cbn [cw_v c_v set_data v_data]. unfold upd. rewrite (N.eqb_sym g h).
    destruct (N.eqb_spec h g) as [->|NE]; cbn [orb]; [destruct (touched _ _ _); [apply Id|reflexivity]|reflexivity].
Qed.
Lemma vgrow_data v D : vars_ok v ->
  (forall g, vd_deleted (D g) = vd_deleted (v_data v g) /\ vd_unit (D g) = vd_unit (v_data v g) /\ vd_mode (D g) = vd_mode (v_data v g) /\
             (vd_isolated (v_data v g) = false -> vd_isolated (D g) = false)) ->
  vgrow v (set_data v D).
Proof.
  intros K H. constructor; try reflexivity; try assumption; cbn [set_data v_data]; try apply H.
  destruct K. constructor; cbn [set_data v_gu v_ulen v_ug v_sg v_gs v_slen v_ufree v_gfree v_sfree v_data v_glen]; auto.
  - intros g D0. apply vo_g. rewrite <- D0. symmetry. apply H.
  - intros g I. rewrite (proj1 (H g)). auto.
  - intros g u E. rewrite (proj1 (H g)). eauto.
  - intros g x E. rewrite (proj1 (H g)). eauto.
  - intros g D0. destruct (H g) as (H1 & _ & H3 & _). rewrite H3. apply vo_mode. congruence.
Qed.

(** * New variables *)
Record base0 (c : ctx) : Prop := {
  z_vars : vars_ok (c_v c); z_shown : shown (c_v c); z_wf : wf (c_vs c);
  z_heap : forall x, In x (vs_heap (c_vs c)) -> v_gs (c_v c) x <> None }.
Lemma base_base0 c : base c -> base0 c.
Proof. intros B. destruct B. constructor; assumption. Qed.

(** [initialize_solver_var] for a name that is not in the heap *)
Definition init_s (s : search) (x : N) (unit : option bool) : search :=
  let s := with_val s (upd (s_val s) x unit) in
  match unit with Some _ => update_removed_unit s x | None => s end.
Definition reset_vs (vs : vsids) (x : N) : vsids := Vsids (upd (vs_act vs) x f32_zero) (vs_heap vs) (vs_pos vs) (vs_bump vs) (vs_inv vs).
Definition init_vs (vs : vsids) (x : N) (unit : option bool) : vsids :=
  match unit with None => vsids_make_available (reset_vs vs x) x | Some _ => reset_vs vs x end.
Definition use_var (c : ctx) (g : N) : ctx :=
  let v := c_v c in
  let x := next_solver v in
  let unit := vd_unit (v_data v g) in
  cw_vs (cw_s (cw_v c (v_use v g x)) (init_s (c_s c) x unit)) (init_vs (c_vs c) x unit).
Definition add_var (c : ctx) (u g : N) : ctx := cw_v c (v_add (c_v c) u g).
Definition can_add (v : vars) (u g : N) : Prop := v_gu v u = None /\ (u <= v_ulen v)%N /\ vd_deleted (v_data v g) = true.

Inductive vstep1 : ctx -> ctx -> Prop :=
| vs_frame c c' : frame c c' -> vstep1 c c'
| vs_add c u g : can_add (c_v c) u g -> vstep1 c (add_var c u g)
| vs_use c g : v_sg (c_v c) g = None -> vd_deleted (v_data (c_v c) g) = false -> vstep1 c (use_var c g).
Inductive vsteps : ctx -> ctx -> Prop :=
| vss_refl c : vsteps c c
| vss_step c c1 c' : vstep1 c c1 -> vsteps c1 c' -> vsteps c c'.
Lemma vsteps_trans a b c : vsteps a b -> vsteps b c -> vsteps a c.
Proof. induction 1; [auto|]. intros H1. econstructor; [eassumption|auto]. Qed.
Lemma vsteps_one a b : vstep1 a b -> vsteps a b.
Proof. intros H. econstructor; [exact H|constructor]. Qed.
Lemma vsteps_frame a b c : vsteps a b -> frame b c -> vsteps a c.
Proof. intros H Fr. eapply vsteps_trans; [exact H|]. apply vsteps_one, vs_frame, Fr. Qed.

(** Only the parts about variables change. *)
Lemma vstep1_as c c' a : vstep1 c c' -> vstep1 (cw_as c a) (cw_as c' a).
Proof.
  intros H. destruct H.
  - destruct H as (e & p & ->). apply vs_frame. exists e, p. reflexivity.
  - apply (vs_add (cw_as c a)). assumption.
  - apply (vs_use (cw_as c a)); assumption.
Qed.
Lemma vsteps_as c c' a : vsteps c c' -> vsteps (cw_as c a) (cw_as c' a).
Proof. induction 1; [constructor|]. econstructor; [apply vstep1_as; eassumption|assumption]. Qed.

Record vkeep (c c' : ctx) : Prop := {
  vk_as : c_as c' = c_as c; vk_sat : st_sat (c_st c') = st_sat (c_st c); vk_model : c_model c' = c_model c;
  vk_d : c_d c' = c_d c; vk_bin : c_bin c' = c_bin c; vk_an : c_an c' = c_an c; vk_tmp : c_tmp c' = c_tmp c;
  vk_decs : s_decs (c_s c') = s_decs (c_s c); vk_trail : s_trail (c_s c') = s_trail (c_s c); vk_head : s_head (c_s c') = s_head (c_s c);
  vk_gu : forall u g, v_gu (c_v c) u = Some g -> v_gu (c_v c') u = Some g;
  vk_all : all_shown (c_v c) -> all_shown (c_v c') }.
Lemma init_s_parts s x u : s_decs (init_s s x u) = s_decs s /\ s_trail (init_s s x u) = s_trail s /\ s_head (init_s s x u) = s_head s /\
  s_lits (init_s s x u) = s_lits s /\ s_watch (init_s s x u) = s_watch s /\ s_wen (init_s s x u) = s_wen s /\
  s_level (init_s s x u) = s_level s /\ s_val (init_s s x u) = upd (s_val s) x u /\
  (forall y, s_reason (init_s s x u) y = match u with Some _ => if N.eqb y x then RUnit else s_reason s y | None => s_reason s y end) /\
  (forall y, s_depth (init_s s x u) y = match u with Some _ => if N.eqb y x then None else s_depth s y | None => s_depth s y end).
Proof. unfold init_s. destruct u; repeat split. Qed.
Lemma vstep1_gu c c' u g : vstep1 c c' -> v_gu (c_v c) u = Some g -> v_gu (c_v c') u = Some g.
Proof.
  intros H E. destruct H.
  - destruct H as (e & p & ->). exact E.
  - cbn [add_var cw_v c_v v_add v_gu]. rewrite upd_ne; [exact E|]. intros ->. destruct H as (X & _). congruence.
  - exact E.
Qed.
Lemma vsteps_gu c c' u g : vsteps c c' -> v_gu (c_v c) u = Some g -> v_gu (c_v c') u = Some g.
Proof. induction 1; [auto|]. intros E. apply IHvsteps. eapply vstep1_gu; eassumption. Qed.
Lemma vstep1_keep c c' : vstep1 c c' -> vkeep c c'.
Proof.
  intros H. pose proof (fun u g => vstep1_gu c c' u g H) as Gu. destruct H.
  - destruct H as (e & p & ->). constructor; try reflexivity; [exact Gu|auto].
  - constructor; try reflexivity; [exact Gu|]. intros Sh h. cbn [add_var cw_v c_v v_add v_data v_ug]. unfold upd.
    destruct (N.eqb_spec h g) as [E|NE]; [discriminate|apply Sh].
  - unfold use_var in *. destruct (init_s_parts (c_s c) (next_solver (c_v c)) (vd_unit (v_data (c_v c) g))) as (A1 & A2 & A3 & _).
    constructor; try reflexivity; try assumption. intros Sh. exact Sh.
Qed.
Lemma vkeep_refl c : vkeep c c.
Proof. constructor; auto. Qed.
Lemma vkeep_trans a b c : vkeep a b -> vkeep b c -> vkeep a c.
Proof. intros [] []. constructor; congruence || auto. Qed.
Lemma vsteps_keep c c' : vsteps c c' -> vkeep c c'.
Proof. induction 1; [apply vkeep_refl|]. eapply vkeep_trans; [apply vstep1_keep; eassumption|assumption]. Qed.

(** The new variable had no name, no value and no role. *)
Lemma can_add_new v u g : vars_ok v -> can_add v u g -> v_ug v g = None /\ v_sg v g = None /\ vars_ok (v_add v u g).
Proof.
  intros K (U & L & D). split; [|split; [|apply v_add_ok; assumption]].
  - destruct (v_ug v g) as [w|] eqn:E; [|reflexivity]. apply (vo_named _ K) in E. congruence.
  - destruct (v_sg v g) as [w|] eqn:E; [|reflexivity]. apply (vo_used _ K) in E. congruence.
Qed.
Lemma add_shown v u g : shown v -> shown (v_add v u g).
Proof.
  intros Sh h. cbn [v_add v_data v_ug]. unfold upd. destruct (N.eqb_spec h g) as [E|NE]; [discriminate|apply Sh].
Qed.

Lemma init_vs_spec vs x u : wf vs -> ~ In x (vs_heap vs) ->
  wf (init_vs vs x u) /\ forall y, In y (vs_heap (init_vs vs x u)) <-> (y = x /\ u = None) \/ In y (vs_heap vs).
Proof.
  intros W NI. assert (P : vs_pos vs x = None) by (destruct (vs_pos vs x) eqn:E; [|reflexivity]; exfalso; apply NI; apply in_heap; [exact W|congruence]).
  assert (R : vstep vs (OReset x) = Some (reset_vs vs x, None)) by (cbn [vstep]; unfold vsids_reset; rewrite P; reflexivity).
  destruct (vstep_wf _ _ _ _ W R) as [W1 H1]. cbn [avail_after] in H1. unfold init_vs. destruct u.
  - split; [exact W1|]. intros y. rewrite H1. intuition discriminate.
  - destruct (vstep_wf (reset_vs vs x) (OAvail x) _ _ W1 eq_refl) as [W2 H2]. cbn [avail_after] in H2. split; [exact W2|].
    intros y. rewrite H2. cbn [reset_vs vs_heap]. intuition congruence.
Qed.

Lemma free_not_heap c : base0 c -> ~ In (next_solver (c_v c)) (vs_heap (c_vs c)).
Proof. intros B I. apply (z_heap _ B) in I. apply I. apply next_solver_free. apply B. Qed.

Lemma vstep1_base0 c c' : vstep1 c c' -> base0 c -> base0 c'.
Proof.
  intros H B. destruct H.
  - destruct H as (e & p & ->). destruct B. constructor; assumption.
  - destruct (can_add_new _ _ _ (z_vars _ B) H) as (_ & _ & V). destruct B. constructor; auto. apply add_shown. assumption.
  - pose proof (free_not_heap _ B) as NI.
    destruct (init_vs_spec (c_vs c) (next_solver (c_v c)) (vd_unit (v_data (c_v c) g)) (z_wf _ B) NI) as [W Hh].
    pose proof (v_use_ok _ _ (z_vars _ B) H H0) as V. destruct B. constructor; auto.
    unfold use_var. cbn [cw_vs cw_s cw_v c_vs c_v v_use v_gs]. intros y I. apply Hh in I. unfold upd.
    destruct (N.eqb_spec y (next_solver (c_v c))); [discriminate|]. destruct I as [[I _]|I]; [congruence|apply z_heap0; exact I].
Qed.
Lemma vsteps_base0 c c' : vsteps c c' -> base0 c -> base0 c'.
Proof. induction 1; [auto|]. intros B. apply IHvsteps. eapply vstep1_base0; eassumption. Qed.

Lemma vstep1_gs c c' x g : vstep1 c c' -> base0 c -> v_gs (c_v c) x = Some g -> v_gs (c_v c') x = Some g.
Proof.
  intros H B E. destruct H.
  - destruct H as (e & p & ->). exact E.
  - exact E.
  - unfold use_var. cbn [cw_vs cw_s cw_v c_v v_use v_gs]. rewrite upd_ne; [exact E|]. intros ->.
    destruct (next_solver_free _ (z_vars _ B)). congruence.
Qed.
Lemma vsteps_gs c c' x g : vsteps c c' -> base0 c -> v_gs (c_v c) x = Some g -> v_gs (c_v c') x = Some g.
Proof. induction 1; [auto|]. intros B E. apply IHvsteps; [eapply vstep1_base0; eassumption|eapply vstep1_gs; eassumption]. Qed.
Lemma vstep1_data c c' g : vstep1 c c' -> base0 c -> vd_deleted (v_data (c_v c) g) = false -> v_data (c_v c') g = v_data (c_v c) g.
Proof.
  intros H B E. destruct H.
  - destruct H as (e & p & ->). reflexivity.
  - cbn [add_var cw_v c_v v_add v_data]. apply upd_ne. intros ->. destruct H as (_ & _ & D). congruence.
  - reflexivity.
Qed.
Lemma vsteps_data c c' g : vsteps c c' -> base0 c -> vd_deleted (v_data (c_v c) g) = false -> v_data (c_v c') g = v_data (c_v c) g.
Proof.
  induction 1; [auto|]. intros B E. pose proof (vstep1_data _ _ _ H B E) as Q. rewrite <- Q. apply IHvsteps; [eapply vstep1_base0; eassumption|congruence].
Qed.
Lemma gs_alive c x g : base0 c -> v_gs (c_v c) x = Some g -> vd_deleted (v_data (c_v c) g) = false.
Proof. intros B E. apply (vo_used _ (z_vars _ B) g x). apply (vo_sg _ (z_vars _ B)). exact E. Qed.
Lemma vsteps_asok c c' as_ : vsteps c c' -> base0 c -> as_ok (c_v c) as_ -> as_ok (c_v c') as_.
Proof.
  intros H B As l I. destruct (As l I) as (g & E & Q). exists g. split; [eapply vsteps_gs; eassumption|].
  rewrite (vsteps_data _ _ _ H B); [exact Q|]. eapply gs_alive; eassumption.
Qed.
Lemma base_split c : base c <-> base0 c /\ as_ok (c_v c) (as_lits (c_as c)) /\
  ((forall v, a_flags (c_an c) v = false) /\ a_clean (c_an c) = [] /\ a_fuel (c_an c) = false).
Proof.
  split.
  - intros B. split; [apply base_base0; exact B|]. destruct B. auto.
  - intros ([] & As & Fl). constructor; assumption.
Qed.
Lemma vsteps_base c c' : vsteps c c' -> base c -> base c'.
Proof.
  intros H B. apply base_split in B as (B & As & Fl). apply base_split. pose proof (vsteps_keep _ _ H) as K.
  split; [eapply vsteps_base0; eassumption|]. rewrite (vk_as _ _ K), (vk_an _ _ K). split; [eapply vsteps_asok; eassumption|exact Fl].
Qed.

(** ** The invariant *)
Definition ground (F : problem) (A : list N) (c : ctx) : Prop := inv false F A c /\ s_decs (c_s c) = [].
Lemma ground_head F A c : ground F A c -> s_head (c_s c) = 0 /\ forall l, In l (s_trail (c_s c)) -> s_reason (c_s c) (lit_var l) = RUnit.
Proof. intros [[_ L] D]. unfold low in L. rewrite D in L. exact L. Qed.
Lemma ground_intro F A c : meaning F A c -> trail_ok (v_slen (c_v c)) (c_s c) -> store_ok (v_slen (c_v c)) (live (c_d c)) (c_bin c) (c_s c) ->
  (s_wen (c_s c) = true -> watch_ok (live (c_d c)) (c_s c) (s_watch (c_s c))) -> s_decs (c_s c) = [] -> s_head (c_s c) = 0 ->
  (forall l, In l (s_trail (c_s c)) -> s_reason (c_s c) (lit_var l) = RUnit) -> ground F A c.
Proof.
  intros K T S W D H R. split; [|exact D]. split; [|unfold low; rewrite D; auto]. apply meaning_core; [exact K|]. constructor; auto. apply prop_head0. exact H.
Qed.
Lemma ground_frame F A c c' : frame c c' -> ground F A c -> ground F A c'.
Proof. intros Fr [K D]. split; [eapply inv_frame; eassumption|]. destruct Fr as (e & p & ->). exact D. Qed.
Lemma ground_v F A c v' : ground F A c -> vgrow (c_v c) v' -> shown v' -> as_ok v' (as_lits (c_as c)) -> as_kept v' A -> ground F A (cw_v c v').
Proof. intros [[K L] D] G Sh As Ke. split; [split|exact D]; [apply core_v; assumption|exact L]. Qed.
Lemma ground_equiv F F' A c : (forall b, models b F' <-> models b F) -> ground F A c -> ground F' A c.
Proof. intros E [[K L] D]. split; [split; [eapply core_equiv; eassumption|exact L]|exact D]. Qed.

(** ** The problem *)
(** The formula [F] of the names of the solver and [S] of those of the user *)
Definition linked (gu : N -> option N) (b bu : N -> bool) : Prop := forall u g, gu u = Some g -> b g = bu u.
Definition tied (S F : problem) (gu : N -> option N) : Prop := forall bu, S bu <-> exists b, models b F /\ linked gu b bu.
(** A name that is used again is forgotten first. *)
Definition forget (g : N) (F : problem) : problem := fun b => exists b0, models b0 F /\ forall x, x <> g -> b0 x = b x.

Lemma add_core f F A c u g : core f F A c -> can_add (c_v c) u g -> core f (forget g F) A (add_var c u g).
Proof.
  intros K Ca. pose proof (iv_base _ _ _ _ K) as B. destruct (can_add_new _ _ _ (b_vars _ B) Ca) as (Ug & Sg & V').
  pose proof (vs_add c u g Ca) as St. pose proof (vsteps_base _ _ (vsteps_one _ _ St) B) as B'.
  pose proof (b_vars _ B) as V. destruct Ca as (Gu & Lu & De).
  assert (Ng : forall x, v_gs (c_v c) x <> Some g) by (intros x E; apply (vo_sg _ V) in E; congruence).
  assert (Dt : forall h, h <> g -> v_data (v_add (c_v c) u g) h = v_data (c_v c) h) by (intros h NE; cbn [v_add v_data]; apply upd_ne; exact NE).
  assert (Lf : forall b b0 x, (forall y, y <> g -> b0 y = b y) -> lift (v_add (c_v c) u g) (c_s c) b x = lift (c_v c) (c_s c) b0 x).
  { intros b b0 x H. unfold lift. cbn [v_add v_gs]. destruct (v_gs (c_v c) x) as [h|] eqn:E; [|reflexivity]. symmetry. apply H. intros ->. exact (Ng x E). }
  assert (Ch : forall b b0 C, (forall y, y <> g -> b0 y = b y) -> clause_holds (lift (v_add (c_v c) u g) (c_s c) b) C = clause_holds (lift (c_v c) (c_s c) b0) C).
  { intros b b0 C H. apply ch_ext. intros l _. apply Lf. exact H. }
  destruct K. constructor; cbn [add_var cw_v c_s c_d c_bin c_v c_vs c_as]; auto.
  - destruct iv_used as [U1 U2].
    assert (Us : forall x, in_use (c_v c) x -> in_use (v_add (c_v c) u g) x).
    { intros x (h & E & I). exists h. split; [exact E|]. rewrite Dt; [exact I|]. intros ->. exact (Ng x E). }
    split; intros; apply Us; eauto.
  - intros h x y E U. cbn [v_add v_sg] in E. rewrite Dt in U by congruence. exact (iv_unit h x y E U).
  - intros b (b0 & M & H). destruct (iv_sound b0 M) as ((S1 & S2) & Kb & Ub). split; [split|split].
    + intros x I. rewrite (Ch b b0 _ H). apply S1. exact I.
    + intros l o I. rewrite (Ch b b0 _ H). apply S2. exact I.
    + intros x y Q. rewrite (Lf b b0 _ H). apply Kb. exact Q.
    + intros h y D U. destruct (N.eq_dec h g) as [->|NE]; [cbn [v_add v_data] in U; rewrite upd_eq in U; discriminate U|].
      rewrite Dt in D, U by exact NE. rewrite <- (H h NE). apply (Ub h y D U).
  - intros b S1 S2 Kb Ub.
    destruct (iv_comp b) as (b' & Ag & M).
    + intros x I. rewrite <- (Ch b b _ (fun _ _ => eq_refl)). apply S1. exact I.
    + intros l o I. rewrite <- (Ch b b _ (fun _ _ => eq_refl)). apply S2. exact I.
    + intros x y Q. rewrite <- (Lf b b _ (fun _ _ => eq_refl)). apply Kb. exact Q.
    + intros h y D U. assert (NE : h <> g) by congruence. apply (Ub h y); rewrite Dt by exact NE; assumption.
    + exists (upd b' g (b g)). split.
      * intros h D. unfold upd. destruct (N.eqb_spec h g) as [->|NE]; [reflexivity|]. apply Ag. rewrite Dt in D by exact NE. exact D.
      * exists b'. split; [exact M|]. intros x NE. symmetry. apply upd_ne. exact NE.
  - intros a I. destruct (iv_kept a I) as [D As]. assert (NE : lit_var a <> g) by congruence. cbn [v_add v_data]. rewrite upd_ne by exact NE. auto.
  - intros b (b0 & M & H) Sa a I. destruct (iv_kept a I) as [D _]. assert (NE : lit_var a <> g) by congruence.
    rewrite <- (iv_all b0 M) with (a := a); [apply lh_ext; symmetry; apply H; exact NE| |exact I].
    intros l Il. rewrite <- (Sa l Il). apply lh_ext. symmetry. apply Lf. exact H.
Qed.
Lemma add_tied S F v u g : vars_ok v -> can_add v u g -> tied S F (v_gu v) -> tied S (forget g F) (v_gu (v_add v u g)).
Proof.
  intros V Ca T bu. destruct (can_add_new _ _ _ V Ca) as (Ug & _ & _). destruct Ca as (Gu & _ & _). rewrite (T bu). cbn [v_add v_gu].
  assert (Ng : forall w, v_gu v w <> Some g) by (intros w E; apply (vo_ug _ V) in E; congruence). split.
  - intros (b & M & L). exists (upd b g (bu u)). split.
    + exists b. split; [exact M|]. intros x NE. symmetry. apply upd_ne. exact NE.
    + intros w h E. unfold upd in *. destruct (N.eqb_spec w u) as [->|NE].
      * injection E as <-. rewrite N.eqb_refl. reflexivity.
      * destruct (N.eqb_spec h g) as [->|_]; [destruct (Ng w E)|]. apply L. exact E.
  - intros (b & (b0 & M & H) & L). exists b0. split; [exact M|]. intros w h E.
    rewrite H by (intros ->; exact (Ng w E)). apply L. rewrite upd_ne; [exact E|congruence].
Qed.
Lemma add_inv f F A c u g : inv f F A c -> can_add (c_v c) u g -> inv f (forget g F) A (add_var c u g).
Proof. intros [K L] Ca. split; [apply add_core; assumption|exact L]. Qed.

Lemma use_var_ground F A c g : ground F A c -> v_sg (c_v c) g = None -> vd_deleted (v_data (c_v c) g) = false -> ground F A (use_var c g).
Proof.
  intros G Sg Dl. destruct (ground_head _ _ _ G) as [H0 R0]. destruct G as [[K _] D0].
  pose proof (iv_base _ _ _ _ K) as Ba. pose proof (base_base0 _ Ba) as B.
  set (x := next_solver (c_v c)). set (u := vd_unit (v_data (c_v c) g)).
  destruct (next_solver_free _ (z_vars _ B)) as [Fx Fb]. fold x in Fx, Fb.
  destruct (init_vs_spec (c_vs c) x u (z_wf _ B) (free_not_heap _ B)) as [W Hh].
  destruct (init_s_parts (c_s c) x u) as (P1 & P2 & P3 & P4 & P5 & P6 & P7 & P8 & P9 & P10).
  assert (C' : use_var c g = cw_vs (cw_s (cw_v c (v_use (c_v c) g x)) (init_s (c_s c) x u)) (init_vs (c_vs c) x u)) by reflexivity.
  assert (Gs : forall y, v_gs (v_use (c_v c) g x) y = if N.eqb y x then Some g else v_gs (c_v c) y) by reflexivity.
  assert (Sgs : forall h, v_sg (v_use (c_v c) g x) h = if N.eqb h g then Some x else v_sg (c_v c) h) by reflexivity.
  assert (Sl : (v_slen (c_v c) <= v_slen (v_use (c_v c) g x))%N /\ (x < v_slen (v_use (c_v c) g x))%N) by (cbn [v_use v_slen]; lia).
  assert (Nt : ~ In x (map lit_var (s_trail (c_s c)))).
  { intros I. apply in_map_iff in I as (l & E & I). apply (iv_trail _ _ _ _ K) in I. congruence. }
  assert (NtL : forall l, In l (s_trail (c_s c)) -> lit_var l <> x) by (intros l I E; apply Nt; rewrite <- E; apply in_map; exact I).
  assert (Val : forall y, y <> x -> s_val (init_s (c_s c) x u) y = s_val (c_s c) y) by (intros y NE; rewrite P8; apply upd_ne; exact NE).
  assert (Vx : s_val (init_s (c_s c) x u) x = u) by (rewrite P8; apply upd_eq).
  assert (Use : forall y, in_use (c_v c) y -> y <> x) by (intros y (h & E & _) ->; congruence).
  assert (Uk : forall y, in_use (c_v c) y -> in_use (v_use (c_v c) g x) y).
  { intros y Iu. pose proof (Use y Iu) as NE. destruct Iu as (h & E & Q). exists h. split; [|exact Q]. rewrite Gs. destruct (N.eqb_spec y x); [congruence|exact E]. }
  assert (Sy : forall l o, In o (c_bin c l) -> In (lnot l) (c_bin c (lnot o))).
  { intros l o I. apply (so_bin _ _ _ _ (in_store _ _ _ _ _ (iv_search _ _ _ _ K))) in I. apply I. }
  destruct (iv_search _ _ _ _ K) as [T S Wt _].
  pose proof (tk_assigned _ _ T) as Ta.
  assert (Fix : forall y z, fixv (init_s (c_s c) x u) y z <-> (y = x /\ u = Some z) \/ (y <> x /\ fixv (c_s c) y z)).
  { intros y z. unfold fixv. rewrite P2, P7. destruct (N.eq_dec y x) as [->|NE].
    - rewrite Vx. split; [intros [E _]; left; auto|]. intros [[_ E]|[E _]]; [|congruence]. split; [exact E|]. left. exact Nt.
    - rewrite (Val y NE). split; [intros Q; right; auto|]. intros [[E _]|[_ Q]]; [congruence|exact Q]. }
  assert (Lf : forall b y, y <> x -> lift (v_use (c_v c) g x) (init_s (c_s c) x u) b y = lift (c_v c) (c_s c) b y).
  { intros b y NE. unfold lift. rewrite Gs, (Val y NE). destruct (N.eqb_spec y x); [congruence|reflexivity]. }
  assert (Lx : forall b, lift (v_use (c_v c) g x) (init_s (c_s c) x u) b x = b g) by (intros b; unfold lift; rewrite Gs, N.eqb_refl; reflexivity).
  assert (CH : forall b w, In w (live (c_d c)) -> clause_holds (lift (v_use (c_v c) g x) (init_s (c_s c) x u) b) (s_lits (init_s (c_s c) x u) w) = clause_holds (lift (c_v c) (c_s c) b) (s_lits (c_s c) w)).
  { intros b w I. rewrite P4. apply ch_ext. intros l J. apply Lf. apply Use. eapply (proj1 (iv_used _ _ _ _ K)); eassumption. }
  assert (CB : forall b l o, In o (c_bin c l) -> clause_holds (lift (v_use (c_v c) g x) (init_s (c_s c) x u) b) [lnot l; o] = clause_holds (lift (c_v c) (c_s c) b) [lnot l; o]).
  { intros b l o I. destruct (bin_use _ _ _ _ _ _ (iv_used _ _ _ _ K) Sy I) as [U1 U2]. apply ch_ext. intros z J. apply Lf.
    destruct J as [<-|[<-|[]]]; rewrite ?lnot_var; apply Use; assumption. }
  assert (As : forall l, In l (as_lits (c_as c)) -> lit_var l <> x).
  { intros l I E. destruct (b_as _ Ba l I) as (h & Q & _). congruence. }
  rewrite C'. apply ground_intro; cbn [cw_vs cw_s cw_v c_s c_d c_bin c_v c_vs c_as].
  - (* meaning *)
    assert (B' : base (use_var c g)) by (apply (vsteps_base c); [apply vsteps_one; apply vs_use; assumption|exact Ba]).
    destruct K. constructor; cbn [cw_vs cw_s cw_v c_s c_d c_bin c_v c_vs c_as]; auto.
    + rewrite P4. exact iv_db.
    + rewrite P2. intros l I. rewrite Gs. destruct (N.eqb_spec (lit_var l) x); [discriminate|apply iv_trail; exact I].
    + rewrite P4. destruct iv_used as [U1 U2]. split; [intros w l I1 I2; apply Uk; eapply U1; eassumption|intros l o I; apply Uk; eapply U2; eassumption].
    + intros y Gy Vy. apply Hh. destruct (N.eq_dec y x) as [->|NE].
      * left. split; [reflexivity|]. congruence.
      * right. apply iv_open; [|rewrite <- (Val y NE); exact Vy]. rewrite Gs in Gy. rewrite (proj2 (N.eqb_neq _ _) NE) in Gy. exact Gy.
    + intros h y z. rewrite Sgs. cbn [v_use v_data]. intros E Q. apply Fix. destruct (N.eqb_spec h g) as [->|NE].
      * left. split; [congruence|exact Q].
      * right. split; [|eapply iv_unit; eassumption]. intros ->. apply (vo_sg _ (z_vars _ B)) in E. congruence.
    + intros b M. destruct (iv_sound b M) as ((S1 & S2) & Kb & Ub). split; [split|split; [|exact Ub]].
      * intros w I. rewrite CH by exact I. apply S1. exact I.
      * intros l o I. rewrite CB by exact I. apply S2. exact I.
      * intros y z Q. apply Fix in Q as [[-> Q]|[NE Q]]; [rewrite Lx; apply (Ub g z Dl Q)|rewrite Lf by exact NE; apply Kb; exact Q].
    + intros b S1 S2 Kb Ub. apply iv_comp; auto.
      * intros w Iw. rewrite <- CH by apply Iw. apply S1. exact Iw.
      * intros l o I. rewrite <- CB by exact I. apply S2. exact I.
      * intros y z Q. destruct (N.eq_dec y x) as [->|NE].
        -- unfold lift. rewrite Fx. destruct Q as [Q _]. rewrite Q. reflexivity.
        -- rewrite <- (Lf b y NE). apply Kb. apply Fix. right. auto.
    + intros i p. rewrite P1, D0. destruct i; discriminate.
    + intros l h I. rewrite Gs. destruct (N.eqb_spec (lit_var l) x) as [E|]; [exfalso; exact (As l I E)|]. apply iv_in. exact I.
    + intros b M Sa. apply iv_all; [exact M|]. intros l I. rewrite <- (Sa l I). apply lh_ext. symmetry. apply Lf. apply As. exact I.
  - destruct T. constructor; rewrite ?P1, ?P2, ?P3; auto.
    + intros l I. unfold istrue. rewrite (Val _ (NtL l I)). apply tk_true. exact I.
    + intros y V. destruct (N.eq_dec y x) as [->|NE].
      * right. rewrite P9, P10, N.eqb_refl. rewrite Vx in V. destruct u; [auto|congruence].
      * rewrite (Val y NE) in V. rewrite P9, P10. destruct u; [destruct (N.eqb_spec y x); [congruence|]|]; apply Ta; exact V.
    + intros p l Q. pose proof (NtL l (nth_error_In _ _ Q)) as NE. rewrite P10. destruct u; [destruct (N.eqb_spec (lit_var l) x); [congruence|]|]; apply tk_depth; exact Q.
    + intros p l Q. rewrite P7. apply tk_level. exact Q.
    + intros p l Q. pose proof (NtL l (nth_error_In _ _ Q)) as NE. specialize (tk_reason p l Q). unfold reason_ok, before in *. rewrite P1, P2, P4, P9.
      destruct u; [destruct (N.eqb_spec (lit_var l) x); [congruence|]|]; exact tk_reason.
    + intros y V. destruct (N.eq_dec y x) as [->|NE]; [apply Sl|]. rewrite (Val y NE) in V. apply tk_vars in V. lia.
  - destruct (iv_used _ _ _ _ K) as [U1 U2]. destruct S. constructor; unfold on_trail in *; rewrite ?P2, ?P4; auto.
    + intros w I. destruct (so_clause w I) as (C1 & C2 & C3). split; [exact C1|]. split; [exact C2|]. intros l J. specialize (C3 l J). lia.
    + intros l o I. destruct (so_bin l o I) as (C1 & C2 & C3 & C4). repeat split; try assumption; lia.
    + intros w l I J V. rewrite Val in V by (apply Use; eapply U1; eassumption). eapply so_on_long; eassumption.
    + intros l o I V. rewrite Val in V by (apply Use; eapply U2; eassumption). eapply so_on_bin; eassumption.
    + intros l w I. rewrite P9. pose proof (NtL l I) as NE. destruct u; [destruct (N.eqb_spec (lit_var l) x); [congruence|]|]; apply so_rlong; exact I.
    + intros l w I. rewrite P9. pose proof (NtL l I) as NE. destruct u; [destruct (N.eqb_spec (lit_var l) x); [congruence|]|]; apply so_rbin; exact I.
  - rewrite P5, P6. intros E. eapply watch_ok_iff; [| | |apply Wt; exact E]; [tauto| |reflexivity]. intros w _. rewrite P4. reflexivity.
  - rewrite P1. exact D0.
  - rewrite P3. exact H0.
  - rewrite P2. intros l I. pose proof (NtL l I) as NE. rewrite P9. destruct u; [destruct (N.eqb_spec (lit_var l) x); [congruence|]|]; apply R0; exact I.
Qed.
(** The problem of a later state that means the same to the user *)
Definition unsat_with (S : problem) (A : list N) : Prop :=
  forall b, models b S -> ~ (forall a, In a A -> lit_holds b a = true).
(** The stored model is one of the formula and of the assumptions, whatever the values of variables it says nothing about. *)
Definition says (v : vars) (m : list (option bool)) (b : N -> bool) : Prop :=
  forall g y, vd_deleted (v_data v g) = false -> nth_error m (N.to_nat g) = Some (Some y) -> b g = y.
Definition model_of (v : vars) (F : problem) (A : list N) (m : list (option bool)) : Prop :=
  forall b, says v m b -> exists b', agree v b b' /\ models b' F /\ (forall a, In a A -> lit_holds b' a = true).
Record same_problem (A : list N) (c c' : ctx) (F F' : problem) : Prop := {
  sp_tied : forall S, tied S F (v_gu (c_v c)) -> tied S F' (v_gu (c_v c'));
  sp_unsat : unsat_with F A -> unsat_with F' A;
  sp_model : forall m, model_of (c_v c) F A m -> model_of (c_v c') F' A m }.
Lemma same_same A c c' F : c_v c' = c_v c -> same_problem A c c' F F.
Proof. intros E. constructor; try rewrite E; auto. Qed.
Lemma same_trans A c c1 c' F F1 F' : same_problem A c c1 F F1 -> same_problem A c1 c' F1 F' -> same_problem A c c' F F'.
Proof. intros [] []. constructor; auto. Qed.
Lemma add_same A c F u g : vars_ok (c_v c) -> as_kept (c_v c) A -> can_add (c_v c) u g -> same_problem A c (add_var c u g) F (forget g F).
Proof.
  intros V Ke Ca. pose proof Ca as (_ & _ & De).
  assert (Ng : forall a, In a A -> lit_var a <> g) by (intros a I; destruct (Ke a I) as [D _]; congruence). constructor.
  - intros S. apply add_tied; assumption.
  - intros Un b (b0 & M & H) Ha. apply (Un b0 M). intros a I. rewrite <- (Ha a I). apply lh_ext. apply H. apply Ng. exact I.
  - intros m Mo b Sy. destruct (Mo b) as (b' & Ag & M & Ha).
    { intros h y D. apply Sy. cbn [add_var cw_v c_v v_add v_data]. rewrite upd_ne by congruence. exact D. }
    exists (upd b' g (b g)). split; [|split].
    + intros h D. unfold upd. destruct (N.eqb_spec h g) as [->|NE]; [reflexivity|]. apply Ag. cbn [add_var cw_v c_v v_add v_data] in D. rewrite upd_ne in D by exact NE. exact D.
    + exists b'. split; [exact M|]. intros x NE. symmetry. apply upd_ne. exact NE.
    + intros a I. rewrite <- (Ha a I). apply lh_ext. apply upd_ne. apply Ng. exact I.
Qed.
Lemma vsteps_ground F A c c' : vsteps c c' -> ground F A c -> exists F', ground F' A c' /\ same_problem A c c' F F'.
Proof.
  intros H. revert F. induction H as [|c c1 c' H _ IH]; intros F G; [exists F; split; [exact G|apply same_same; reflexivity]|].
  assert (X : exists F1, ground F1 A c1 /\ same_problem A c c1 F F1).
  { destruct H.
    - exists F. split; [eapply ground_frame; eassumption|]. apply same_same. apply frame_v. exact H.
    - exists (forget g F). destruct G as [K D]. split; [split; [apply add_inv; assumption|exact D]|].
      apply add_same; [apply (iv_base _ _ _ _ (proj1 K))|apply (iv_kept _ _ _ _ (proj1 K))|exact H].
    - exists F. split; [apply use_var_ground; assumption|]. constructor; auto. }
  destruct X as (F1 & G1 & T1). destruct (IH F1 G1) as (F' & G' & T'). exists F'. split; [exact G'|]. eapply same_trans; eassumption.
Qed.

(** ** The functions *)
Lemma global_from_user1_steps u rs c : base0 c -> (u <= v_ulen (c_v c))%N ->
  spec (global_from_user1 u rs c) (fun '(c', g) => v_gu (c_v c') u = Some g /\
    (v_gu (c_v c) u = Some g /\ c' = c \/ can_add (c_v c) u g /\ frame (add_var c u g) c')).
Proof.
  intros B Hu. eapply spec_weaken; [apply global_from_user1_spec; [apply B|exact Hu]|]. intros [c' g] (E & H). split; [exact E|].
  destruct H as [H|(E1 & Eg & Fr)]; [left; exact H|right]. split; [|exact Fr]. split; [exact E1|]. split; [exact Hu|]. rewrite Eg. apply fresh_global_deleted. apply B.
Qed.
(** Only variables are added and no names given to the solver. *)
Inductive vadds : ctx -> ctx -> Prop :=
| va_refl c : vadds c c
| va_frame c c' c2 : frame c c' -> vadds c' c2 -> vadds c c2
| va_add c u g c2 : can_add (c_v c) u g -> vadds (add_var c u g) c2 -> vadds c c2.
Lemma vadds_trans a b c : vadds a b -> vadds b c -> vadds a c.
Proof. induction 1; [auto| |]; intros; econstructor; eauto; fail. Qed.
Lemma vadds_steps c c' : vadds c c' -> vsteps c c'.
Proof. induction 1; [constructor|econstructor; [apply vs_frame; eassumption|assumption]|econstructor; [apply vs_add; eassumption|assumption]]. Qed.
Lemma vadds_inv f F A c c' : vadds c c' -> inv f F A c -> exists F', inv f F' A c' /\ same_problem A c c' F F'.
Proof.
  intros H. revert F. induction H as [c|c c' c2 Fr _ IH|c u g c2 Ca _ IH]; intros F K.
  - exists F. split; [exact K|apply same_same; reflexivity].
  - destruct (IH F) as (F' & K' & T'); [eapply inv_frame; eassumption|]. exists F'. split; [exact K'|]. eapply same_trans; [|exact T']. apply same_same. apply frame_v. exact Fr.
  - destruct (IH (forget g F)) as (F' & K' & T'); [apply add_inv; assumption|]. exists F'. split; [exact K'|]. eapply same_trans; [|exact T'].
    apply add_same; [apply (iv_base _ _ _ _ (proj1 K))|apply (iv_kept _ _ _ _ (proj1 K))|exact Ca].
Qed.

Lemma fill_users_steps n : forall c, base0 c ->
  spec (fill_users n c) (fun c' => vadds c c' /\ v_ulen (c_v c') = (v_ulen (c_v c) + N.of_nat n)%N).
Proof.
  induction n as [|n IH]; intros c B; cbn [fill_users]; [apply spec_ret; split; [constructor|lia]|].
  eapply spec_bind; [apply global_from_user1_steps; [exact B|lia]|]. intros [c1 g] (_ & H).
  destruct H as [[E _]|[Ca Fr]]; [apply (vo_u _ (z_vars _ B)) in E; lia|].
  assert (St : vadds c c1) by (eapply va_add; [exact Ca|]; eapply va_frame; [exact Fr|constructor]).
  eapply spec_weaken; [apply IH; eapply vsteps_base0; [apply vadds_steps; exact St|exact B]|]. intros c' [S' E'].
  split; [eapply vadds_trans; eassumption|]. rewrite E', (frame_v _ _ Fr). cbn [add_var cw_v c_v v_add v_ulen]. lia.
Qed.
Lemma global_from_user_steps u rs c : base0 c ->
  spec (global_from_user u rs c) (fun '(c', g) => v_gu (c_v c') u = Some g /\ vadds c c').
Proof.
  intros B. unfold global_from_user. eapply spec_bind; [apply fill_users_steps; exact B|]. intros c1 [S1 E1].
  eapply spec_weaken; [apply global_from_user1_steps; [eapply vsteps_base0; [apply vadds_steps; exact S1|exact B]|lia]|].
  intros [c' g] (E & H). split; [exact E|]. destruct H as [[_ ->]|[Ca Fr]]; [exact S1|].
  eapply vadds_trans; [exact S1|]. eapply va_add; [exact Ca|]. eapply va_frame; [exact Fr|constructor].
Qed.

Lemma gu_alive v u g : vars_ok v -> v_gu v u = Some g -> vd_deleted (v_data v g) = false.
Proof. intros K E. apply (vo_named _ K g u). apply (vo_ug _ K). exact E. Qed.
Lemma solver_from_global_steps g c : base0 c -> vd_deleted (v_data (c_v c) g) = false ->
  spec (solver_from_global g c) (fun '(c', x) => v_gs (c_v c') x = Some g /\ vsteps c c').
Proof.
  intros B Dl. unfold solver_from_global. cbv zeta. destruct (v_sg (c_v c) g) as [x|] eqn:Sg.
  - apply spec_ret. split; [apply (vo_sg _ (z_vars _ B)); exact Sg|constructor].
  - pose proof (free_not_heap _ B) as NI.
    assert (P : vs_pos (c_vs c) (next_solver (c_v c)) = None).
    { destruct (vs_pos (c_vs c) (next_solver (c_v c))) eqn:E; [|reflexivity]. exfalso. apply NI. apply in_heap; [apply B|congruence]. }
    unfold initialize_solver_var. cbn [cw_v c_v c_s c_vs v_data]. unfold vsids_reset. rewrite P. cbv zeta. cbn [bind].
    match goal with |- spec (bind (add_step false ?st ?cc) _) _ => assert (Ec : cc = use_var c g) by reflexivity; rewrite Ec; clear Ec end.
    eapply spec_bind; [apply add_step_spec; discriminate|]. intros c1 Fr. apply spec_ret. split.
    + rewrite (frame_v _ _ Fr). unfold use_var. cbn [cw_vs cw_s cw_v c_v v_use v_gs]. apply upd_eq.
    + eapply vsteps_frame; [apply vsteps_one, vs_use; [exact Sg|exact Dl]|exact Fr].
Qed.
Lemma solver_from_user_steps u rs c : base0 c ->
  spec (solver_from_user u rs c) (fun '(c', x) => exists g, v_gu (c_v c') u = Some g /\ v_gs (c_v c') x = Some g /\ vsteps c c').
Proof.
  intros B. unfold solver_from_user. eapply spec_bind; [apply global_from_user_steps; exact B|]. intros [c1 g] (Eg & St).
  pose proof (vadds_steps _ _ St) as St'. pose proof (vsteps_base0 _ _ St' B) as B1.
  eapply spec_weaken; [apply solver_from_global_steps; [exact B1|exact (gu_alive _ _ _ (z_vars _ B1) Eg)]|].
  intros [c' x] [E S2]. exists g. split; [eapply vsteps_gu; eassumption|]. split; [exact E|eapply vsteps_trans; eassumption].
Qed.

(** The global literal for that of the user *)
Definition glob (v : vars) (l : N) : N := match v_gu v (lit_var l) with Some g => lit_of g (is_positive l) | None => l end.
Definition known (v : vars) (ls : list N) : Prop := forall l, In l ls -> v_gu v (lit_var l) <> None.
Lemma glob_holds v b bu l : linked (v_gu v) b bu -> v_gu v (lit_var l) <> None -> lit_holds b (glob v l) = lit_holds bu l.
Proof.
  intros L N. unfold glob. destruct (v_gu v (lit_var l)) as [g|] eqn:E; [|congruence]. apply Bool.eq_iff_eq_true. rewrite !lh_true, lo_var, lo_pos.
  rewrite (L _ _ E). reflexivity.
Qed.
Lemma glob_clause v b bu C : linked (v_gu v) b bu -> known v C -> clause_holds b (map (glob v) C) = clause_holds bu C.
Proof.
  intros L. induction C as [|l C IH]; intros K; [reflexivity|]. unfold clause_holds in *. cbn [map existsb].
  rewrite (glob_holds v b bu l L) by (apply K; left; reflexivity). rewrite IH; [reflexivity|]. intros x I. apply K. right. exact I.
Qed.
Lemma glob_all v b bu A : linked (v_gu v) b bu -> known v A ->
  ((forall a, In a (map (glob v) A) -> lit_holds b a = true) <-> (forall a, In a A -> lit_holds bu a = true)).
Proof.
  intros L K. split; intros H a I.
  - rewrite <- (glob_holds v b bu a L (K a I)). apply H. apply in_map. exact I.
  - apply in_map_iff in I as (l & <- & I). rewrite (glob_holds v b bu l L (K l I)). apply H. exact I.
Qed.
Lemma glob_ext v v' l : (forall u g, v_gu v u = Some g -> v_gu v' u = Some g) -> v_gu v (lit_var l) <> None -> glob v' l = glob v l.
Proof. intros H N. unfold glob. destruct (v_gu v (lit_var l)) as [g|] eqn:E; [|congruence]. rewrite (H _ _ E). reflexivity. Qed.
Lemma glob_map v v' ls : (forall u g, v_gu v u = Some g -> v_gu v' u = Some g) -> known v ls -> map (glob v') ls = map (glob v) ls.
Proof. intros H K. apply map_ext_in. intros l I. apply glob_ext; [exact H|apply K; exact I]. Qed.
Lemma known_ext v v' ls : (forall u g, v_gu v u = Some g -> v_gu v' u = Some g) -> known v ls -> known v' ls.
Proof. intros H K l I. specialize (K l I). destruct (v_gu v (lit_var l)) as [g|] eqn:E; [|congruence]. rewrite (H _ _ E). discriminate. Qed.
Lemma tied_also S F v C : known v C -> tied S F (v_gu v) -> tied (also C S) (also (map (glob v) C) F) (v_gu v).
Proof.
  intros K T bu. unfold also at 1. rewrite (T bu). split.
  - intros [(b & M & L) H]. exists b. split; [|exact L]. split; [exact M|]. rewrite (glob_clause v b bu C L K). exact H.
  - intros (b & [M H] & L). rewrite (glob_clause v b bu C L K) in H. split; [exists b; auto|exact H].
Qed.

(** The literals of the solver for those of the user *)
Definition renames (v : vars) (user x : N) : Prop := v_gs v (lit_var x) = Some (lit_var user) /\ is_positive x = is_positive user.
Lemma solver_from_user_lits_steps rs : forall l c, base0 c ->
  spec (solver_from_user_lits l rs c) (fun '(c', r) => Forall2 (renames (c_v c')) (map (glob (c_v c')) l) r /\ known (c_v c') l /\ vsteps c c').
Proof.
  induction l as [|a l IH]; intros c B; cbn [solver_from_user_lits]; [apply spec_ret; split; [constructor|]; split; [intros x []|constructor]|].
  eapply spec_bind; [apply solver_from_user_steps; exact B|]. intros [c1 x] (g & Eg & E1 & S1).
  pose proof (vsteps_base0 _ _ S1 B) as B1.
  eapply spec_bind; [apply IH; exact B1|]. intros [c2 r] (E2 & K2 & S2). apply spec_ret.
  pose proof (vsteps_gu _ _ _ _ S2 Eg) as Eg2.
  split; [|split; [intros y [<-|I]; [congruence|apply K2; exact I]|eapply vsteps_trans; eassumption]]. cbn [map]. constructor; [|exact E2]. split.
  - rewrite lo_var. unfold glob. rewrite Eg2, lo_var. eapply vsteps_gs; eassumption.
  - unfold glob. rewrite Eg2, !lo_pos. reflexivity.
Qed.
Lemma renames_holds v s b l r : Forall2 (renames v) l r -> clause_holds (lift v s b) r = clause_holds b l.
Proof.
  induction 1 as [|u x l r [E P] _ IH]; [reflexivity|]. unfold clause_holds in *. cbn [existsb]. rewrite IH. f_equal.
  apply Bool.eq_iff_eq_true. rewrite !lh_true. unfold lift. rewrite E, P. tauto.
Qed.

(** * Sorting *)
Lemma insert_in x l y : In y (insert_n_sorted x l) <-> y = x \/ In y l.
Proof. induction l as [|z l IH]; cbn [insert_n_sorted In]; [intuition congruence|]. destruct (N.leb x z); cbn [In]; [intuition congruence|]. rewrite IH. tauto. Qed.
Lemma sort_in l y : In y (sort_n l) <-> In y l.
Proof. unfold sort_n. induction l as [|z l IH]; cbn [fold_right In]; [tauto|]. rewrite insert_in, IH. intuition congruence. Qed.
Lemma insert_sorted x l : StronglySorted N.le l -> StronglySorted N.le (insert_n_sorted x l).
Proof.
  induction 1 as [|z l S IH Fz]; cbn [insert_n_sorted]; [repeat constructor|]. destruct (N.leb_spec x z).
  - constructor; [constructor; assumption|]. constructor; [assumption|]. rewrite Forall_forall in *. intros y I. specialize (Fz y I). lia.
  - constructor; [exact IH|]. rewrite Forall_forall in *. intros y I. apply insert_in in I as [->|I]; [lia|auto].
Qed.
Lemma sort_sorted l : StronglySorted N.le (sort_n l).
Proof. unfold sort_n. induction l as [|z l IH]; cbn [fold_right]; [constructor|]. apply insert_sorted, IH. Qed.
Lemma dedup_eq x y r : dedup_n (x :: y :: r) = if N.eqb x y then dedup_n (y :: r) else x :: dedup_n (y :: r).
Proof. reflexivity. Qed.
Lemma dedup_in : forall l y, In y (dedup_n l) <-> In y l.
Proof.
  induction l as [|x [|z r] IH]; intros y; [tauto|tauto|]. rewrite dedup_eq. destruct (N.eqb_spec x z) as [->|NE].
  - rewrite IH. cbn [In]. tauto.
  - cbn [In]. rewrite IH. cbn [In]. tauto.
Qed.
Lemma dedup_sorted : forall l, StronglySorted N.le l -> StronglySorted N.lt (dedup_n l).
Proof.
  induction l as [|x [|z r] IH]; intros S; [constructor|repeat constructor|]. rewrite dedup_eq.
  inversion S as [|? ? S' Fx]; subst. destruct (N.eqb_spec x z) as [->|NE]; [apply IH; exact S'|].
  constructor; [apply IH; exact S'|]. inversion S' as [|? ? _ Fz]; subst. rewrite Forall_forall in *. intros y I. apply (proj1 (dedup_in _ _)) in I. cbn [In] in I.
  pose proof (Fx z (or_introl eq_refl)). destruct I as [<-|I]; [lia|]. specialize (Fz y I). lia.
Qed.
Lemma taut_eq x y r : tautology (x :: y :: r) = N.eqb x (lnot y) || tautology (y :: r).
Proof. reflexivity. Qed.
Lemma taut_true : forall l, tautology l = true -> exists x, In x l /\ In (lnot x) l.
Proof.
  induction l as [|x [|y r] IH]; [discriminate|discriminate|]. rewrite taut_eq. intros H. apply Bool.orb_true_iff in H as [H|H].
  - apply N.eqb_eq in H. exists y. split; [right; left; reflexivity|left; exact H].
  - destruct (IH H) as (z & I & J). exists z. split; right; assumption.
Qed.
Lemma var_next x z : lit_var x = lit_var z -> (x < z)%N -> z = (x + 1)%N /\ x = lnot z.
Proof.
  intros E L. pose proof (lo_eta x) as Ex. pose proof (lo_eta z) as Ez. rewrite E in Ex.
  assert (Q : z = (x + 1)%N).
  { unfold lit_of in Ex, Ez. destruct (is_positive x), (is_positive z); lia. }
  split; [exact Q|]. destruct (N.eq_dec (lnot z) x) as [H|H]; [congruence|].
  assert (E2 : lit_of (lit_var (lnot z)) (is_positive (lnot z)) = lnot z) by apply lo_eta. rewrite lnot_var, pos_lnot in E2.
  unfold lit_of in *. destruct (is_positive x), (is_positive z); cbn [negb] in *; lia.
Qed.
Lemma taut_false : forall l, StronglySorted N.lt l -> tautology l = false -> NoDup (map lit_var l).
Proof.
  induction l as [|x [|y r] IH]; intros S H; [constructor|repeat constructor; intros []|]. rewrite taut_eq in H.
  apply Bool.orb_false_iff in H as [H1 H2]. inversion S as [|? ? S' Fx]; subst. change (map lit_var (x :: y :: r)) with (lit_var x :: map lit_var (y :: r)).
  constructor; [|apply IH; assumption]. intros I. apply in_map_iff in I as (z & E & I). apply N.eqb_neq in H1.
  rewrite Forall_forall in Fx. pose proof (Fx z I) as Lz. destruct (var_next x z) as [Q1 Q2]; [congruence|exact Lz|].
  destruct I as [<-|I]; [congruence|]. inversion S' as [|? ? _ Fy]; subst. rewrite Forall_forall in Fy.
  pose proof (Fy _ I). pose proof (Fx y (or_introl eq_refl)). lia.
Qed.

(** * The scan *)
Lemma scan_spec s : forall l k f found, scan_lits s l = (k, f, found) ->
  Permutation (k ++ f) l /\ (forall x, In x f -> isfalse s x) /\
  (if found then exists x, In x l /\ istrue s x else forall x, In x k -> s_val s (lit_var x) = None).
Proof.
  induction l as [|x l IH]; intros k f found E; cbn [scan_lits] in E.
  - injection E as <- <- <-. split; [constructor|]. split; intros y [].
  - destruct (ltrue s x) eqn:Tx.
    + injection E as <- <- <-. rewrite app_nil_r. split; [reflexivity|]. split; [intros y []|].
      exists x. split; [left; reflexivity|apply ltrue_iff; exact Tx].
    + destruct (scan_lits s l) as [[k1 f1] found1] eqn:E1. destruct (IH _ _ _ eq_refl) as (P & Hf & Hk).
      destruct (lfalse s x) eqn:Fx; injection E as <- <- <-.
      * split; [|split].
        -- symmetry. apply Permutation_cons_app. symmetry. exact P.
        -- intros y [<-|I]; [apply lfalse_iff; exact Fx|auto].
        -- destruct found1; [|exact Hk]. destruct Hk as (y & I & T). exists y. split; [right; exact I|exact T].
      * split; [cbn [app]; constructor; exact P|]. split; [exact Hf|]. destruct found1.
        -- destruct Hk as (y & I & T). exists y. split; [right; exact I|exact T].
        -- intros y [<-|I]; [|auto]. apply ltrue_false in Tx. apply lfalse_false in Fx. destruct (value_cases s x) as [Q|[Q|Q]]; tauto.
Qed.

(** * Resurrected units *)
Lemma resurrect_ground F A c l : ground F A c -> v_gs (c_v c) (lit_var l) <> None -> istrue (c_s c) l ->
  let s' := resurrect_unit (c_s c) l in
  ground F A (cw_s c s') /\ (forall x, s_val s' x = s_val (c_s c) x) /\ In (lit_var l) (map lit_var (s_trail s')) /\
  (forall x, In x (map lit_var (s_trail (c_s c))) -> In x (map lit_var (s_trail s'))).
Proof.
  intros G Nm Tl. destruct (ground_head _ _ _ G) as [H0 R0]. destruct G as [[K Lo] D0]. cbv zeta.
  destruct (iv_search _ _ _ _ K) as [T S W _]. unfold resurrect_unit, is_removed_unit.
  destruct (s_depth (c_s c) (lit_var l)) as [dp|] eqn:Dp.
  { split; [|split; [|split]]; auto.
    - replace (cw_s c (c_s c)) with c by (destruct c; reflexivity). split; [split; assumption|exact D0].
    - destruct (tk_assigned _ _ T (lit_var l)) as [I|[I _]]; [rewrite Tl; discriminate|exact I|congruence]. }
  assert (Nt : ~ In (lit_var l) (map lit_var (s_trail (c_s c)))).
  { intros I. apply in_map_iff in I as (y & E & I). apply In_nth_error in I as (p & I). apply (tk_depth _ _ T) in I. congruence. }
  set (s0 := with_val (c_s c) (upd (s_val (c_s c)) (lit_var l) None)).
  assert (V0 : forall x, x <> lit_var l -> s_val s0 x = s_val (c_s c) x) by (intros x NE; apply upd_ne; exact NE).
  assert (V0l : s_val s0 (lit_var l) = None) by apply upd_eq.
  assert (V0s : forall x, s_val s0 x <> None -> s_val (c_s c) x <> None).
  { intros x. destruct (N.eq_dec x (lit_var l)) as [->|NE]; [congruence|rewrite V0 by exact NE; auto]. }
  assert (Bl : (lit_var l < v_slen (c_v c))%N) by (apply (tk_vars _ _ T); rewrite Tl; discriminate).
  assert (T0 : trail_ok (v_slen (c_v c)) s0).
  { destruct T. constructor; auto.
    - intros y I. unfold istrue. rewrite V0; [apply tk_true; exact I|]. intros E. apply Nt. rewrite <- E. apply in_map. exact I.
    - intros y V. apply tk_assigned. apply V0s. exact V. }
  assert (S0 : store_ok (v_slen (c_v c)) (live (c_d c)) (c_bin c) s0).
  { destruct S. constructor; auto.
    - intros w x I1 I2 V. apply (so_on_long w x I1 I2). apply V0s. exact V.
    - intros x o I V. apply (so_on_bin x o I). apply V0s. exact V. }
  assert (T1 : trail_ok (v_slen (c_v c)) (enqueue s0 l RUnit)) by (apply enqueue_ok; [exact T0|exact V0l|exact Bl|exact D0]).
  assert (S1 : store_ok (v_slen (c_v c)) (live (c_d c)) (c_bin c) (enqueue s0 l RUnit)) by (eapply enqueue_store; eauto; discriminate).
  assert (Vs : forall x, s_val (enqueue s0 l RUnit) x = s_val (c_s c) x).
  { intros x. cbn [enqueue s_val]. unfold upd. destruct (N.eqb_spec x (lit_var l)) as [->|NE]; [symmetry; exact Tl|apply V0; exact NE]. }
  split; [|split; [exact Vs|split]].
  - assert (X : core false F A (cw_vs (cw_s c (enqueue s0 l RUnit)) (c_vs c))).
    { eapply core_search with (f := false).
      - exact K.
      - constructor; [exact T1|exact S1| |apply prop_head0; exact H0]. intros E. eapply watch_ok_iff; [| | |apply W; exact E]; reflexivity || tauto.
      - intros x. reflexivity.
      - cbn [enqueue s_trail]. intros y I. apply in_app_or in I as [I|[<-|[]]]; [apply (iv_trail _ _ _ _ K); exact I|exact Nm].
      - apply (iv_base _ _ _ _ K).
      - apply (b_heap _ (iv_base _ _ _ _ K)).
      - intros x Gx V. rewrite Vs in V. apply (iv_open _ _ _ _ K); assumption.
      - intros x y. split; intros [V _]; (eapply assigned_fixed; [eassumption|exact D0|]); rewrite ?Vs in *; exact V.
      - intros x _. apply Vs.
      - intros i p. cbn [enqueue s_decs]. change (s_decs s0) with (s_decs (c_s c)). rewrite D0. destruct i; discriminate. }
    assert (E : cw_vs (cw_s c (enqueue s0 l RUnit)) (c_vs c) = cw_s c (enqueue s0 l RUnit)) by (destruct c; reflexivity).
    rewrite E in X. split; [split; [exact X|]|exact D0]. unfold low. cbn [cw_s c_s enqueue s_decs s_head s_trail s_reason].
    change (s_decs s0) with (s_decs (c_s c)). rewrite D0. split; [exact H0|]. intros y I. apply in_app_or in I as [I|[<-|[]]].
    + rewrite upd_ne; [apply R0; exact I|]. intros Ey. apply Nt. rewrite <- Ey. apply in_map. exact I.
    + apply upd_eq.
  - cbn [enqueue s_trail]. rewrite map_app, in_app_iff. right. left. reflexivity.
  - intros x I. cbn [enqueue s_trail]. rewrite map_app, in_app_iff. left. exact I.
Qed.
Lemma resurrect_all F A : forall fl c, ground F A c -> named (c_v c) fl -> (forall l, In l fl -> isfalse (c_s c) l) ->
  let s' := fold_left (fun s l => resurrect_unit s (lnot l)) fl (c_s c) in
  ground F A (cw_s c s') /\ (forall x, s_val s' x = s_val (c_s c) x) /\
  (forall l, In l fl -> In (lit_var l) (map lit_var (s_trail s'))) /\
  (forall x, In x (map lit_var (s_trail (c_s c))) -> In x (map lit_var (s_trail s'))).
Proof.
  induction fl as [|l fl IH]; intros c G Nm Hf; cbv zeta; cbn [fold_left].
  - replace (cw_s c (c_s c)) with c by (destruct c; reflexivity). split; [exact G|]. split; [reflexivity|]. split; [intros l []|auto].
  - destruct (resurrect_ground F A c (lnot l) G) as (G1 & V1 & On1 & Tr1).
    { rewrite lnot_var. apply Nm. left. reflexivity. }
    { apply Hf. left. reflexivity. }
    set (c1 := cw_s c (resurrect_unit (c_s c) (lnot l))) in *.
    destruct (IH c1 G1) as (G2 & V2 & On2 & Tr2).
    { intros x I. apply (Nm x). right. exact I. }
    { intros x I. unfold isfalse, istrue. unfold c1. cbn [cw_s c_s]. rewrite V1. apply Hf. right. exact I. }
    change (cw_s c1 (fold_left (fun s l0 => resurrect_unit s (lnot l0)) fl (c_s c1)))
      with (cw_s c (fold_left (fun s l0 => resurrect_unit s (lnot l0)) fl (c_s c1))) in G2.
    split; [exact G2|]. split; [intros x; rewrite V2; apply V1|]. split.
    + intros x [<-|I]; [apply Tr2; rewrite lnot_var in On1; exact On1|apply On2; exact I].
    + intros x I. apply Tr2, Tr1, I.
Qed.

(** * Restarts *)
Lemma set_levels_inv f F A c n : inv f F A c -> inv f F A (set_levels n c).
Proof.
  intros [K L]. split; [|exact L]. destruct K. constructor; auto. destruct iv_base. constructor; assumption.
Qed.
Lemma full_restart_ground F A c : inv false F A c -> ground F A (full_restart c) /\
  c_v (full_restart c) = c_v c /\ c_st (full_restart c) = c_st c /\ c_model (full_restart c) = c_model c /\
  as_lits (c_as (full_restart c)) = as_lits (c_as c) /\ c_tmp (full_restart c) = c_tmp c /\ as_user (c_as (full_restart c)) = as_user (c_as c).
Proof.
  intros K. unfold full_restart. pose proof (set_levels_inv _ _ _ _ 0 K) as K0.
  destruct (backtrack_inv false F A (set_levels 0 c) 0 K0) as (K1 & U & E & V & D & B & As & St & An); [discriminate|].
  split.
  - split; [exact K1|]. destruct (Nat.lt_ge_cases 0 (clevel (c_s (set_levels 0 c)))) as [H|H].
    + rewrite (ud_decs _ _ _ (U H)). reflexivity.
    + rewrite (E H). unfold clevel in H. destruct (s_decs (c_s (set_levels 0 c))); [reflexivity|cbn in H; lia].
  - rewrite V, As, St. unfold backtrack_to. destruct (backtrack _ _ _). repeat split.
Qed.

(** * Loading a clause *)
Lemma ch_in a c : clause_holds a c = true <-> exists l, In l c /\ lit_holds a l = true.
Proof. unfold clause_holds. apply existsb_exists. Qed.
Lemma ch_set a c c' : (forall l, In l c <-> In l c') -> clause_holds a c = clause_holds a c'.
Proof. intros H. apply Bool.eq_iff_eq_true. rewrite !ch_in. split; intros (l & I & T); exists l; (split; [apply H; exact I|exact T]). Qed.
Lemma ground_true F A c l b : ground F A c -> istrue (c_s c) l -> models b F -> lit_holds (lift (c_v c) (c_s c) b) l = true.
Proof.
  intros [[K _] D] T M. apply lh_true. destruct (iv_sound _ _ _ _ K b M) as (_ & Kb & _). apply Kb.
  eapply assigned_fixed; [apply (in_trail _ _ _ _ _ (iv_search _ _ _ _ K))|exact D|exact T].
Qed.
Lemma ground_false F A c l b : ground F A c -> isfalse (c_s c) l -> models b F -> lit_holds (lift (c_v c) (c_s c) b) l = false.
Proof. intros G Fl M. pose proof (ground_true _ _ _ _ _ G Fl M) as H. rewrite lit_holds_lnot in H. apply Bool.negb_true_iff. exact H. Qed.

(** What these computations leave alone, besides the proof *)
Record quiet (c c' : ctx) : Prop := {
  qu_sat : st_sat (c_st c') = st_sat (c_st c); qu_model : c_model c' = c_model c; qu_tmp : c_tmp c' = c_tmp c; qu_as : c_as c' = c_as c;
  qu_gu : v_gu (c_v c') = v_gu (c_v c); qu_all : all_shown (c_v c) -> all_shown (c_v c') }.
Lemma quiet_refl c : quiet c c.
Proof. constructor; auto. Qed.
Lemma quiet_trans a b c : quiet a b -> quiet b c -> quiet a c.
Proof. intros [] []. constructor; congruence || auto. Qed.
Lemma frame_quiet c c' : frame c c' -> quiet c c'.
Proof. intros (e & p & ->). constructor; auto. Qed.

Definition load_rest (user_lits : list N) (c : ctx) : out ctx :=
  do (c, lits) <- solver_from_user_lits user_lits true c ;
  let lits := dedup_n (sort_n lits) in
  do c <- proof_add_clause lits c ;
  if tautology lits then Ret c
  else
    do c <- (if Nat.ltb 1 (length lits) then map_data_lits lits (fun d => vd_set_isolated d false) c
             else Ret c) ;
    let '(kept, false_lits, clause_is_true) := scan_lits (c_s c) lits in
    let will_conflict := match kept with [] => true | _ => false end in
    let c := cw_s c (fold_left (fun s l => resurrect_unit s (lnot l)) false_lits (c_s c)) in
    let lits := kept ++ false_lits in
    if clause_is_true then
      if Nat.ltb 1 (length lits) then add_step true (DeleteClause lits DSatisfied) c else Ret c
    else
      match lits with
      | [] => Ret (set_sat c Unsat)
      | [lit] => if will_conflict then Ret (set_sat c Unsat)
                 else Ret (cw_s c (enqueue (c_s c) lit RUnit))
      | [l0; l1] => Ret (add_binary_clause l0 l1 c)
      | _ => do (c, _) <- db_add_clause (set_tier hdr_new Irred) lits c ; Ret c
      end.
Lemma load_clause_rest C c : load_clause C c =
  match st_sat (c_st c) with
  | Unsat => Ret c
  | st => load_rest C (full_restart (set_empty (match st with Sat => set_sat c Unknown | _ => c end) false))
  end.
Proof. unfold load_clause. destruct (st_sat (c_st c)); reflexivity. Qed.

Definition refuted (F : problem) (c : ctx) : Prop :=
  base c /\ st_sat (c_st c) = Unsat /\ s_decs (c_s c) = [] /\ forall b, ~ models b F.
Lemma base_unsat c : base c -> base (set_sat c Unsat).
Proof. intros B. destruct B. constructor; assumption. Qed.

Lemma isolated_grow F A c lits : ground F A c -> named (c_v c) lits ->
  spec (map_data_lits lits (fun d => vd_set_isolated d false) c) (fun c' => exists v', c' = cw_v c v' /\ ground F A c' /\ quiet c c' /\
    v_gs v' = v_gs (c_v c) /\ (forall l, In l lits -> in_use v' (lit_var l))).
Proof.
  intros G Nm. destruct (map_data_lits_eq (fun d => vd_set_isolated d false)) with (lits := lits) (c := c) as (D & E & HD); [reflexivity|exact Nm|].
  rewrite E. apply spec_ret. exists (set_data (c_v c) D). split; [reflexivity|].
  pose proof (iv_base _ _ _ _ (proj1 (proj1 G))) as B.
  assert (Vg : vgrow (c_v c) (set_data (c_v c) D)) by (apply vgrow_data; [apply B|]; intros g; rewrite HD; destruct (touched _ _ g); cbn; auto).
  split; [|split; [constructor; try reflexivity; apply vgrow_all; [exact Vg|reflexivity]|split; [reflexivity|]]].
  - apply ground_v; [exact G|exact Vg| | |].
    + intros g. cbn [set_data v_data v_ug]. rewrite HD. destruct (touched _ _ g); apply (b_shown _ B).
    + intros l I. destruct (b_as _ B l I) as (g & Eg & Q). exists g. split; [exact Eg|]. cbn [set_data v_data]. rewrite HD. destruct (touched _ _ g); exact Q.
    + intros a I. cbn [set_data v_data]. rewrite HD. destruct (touched _ _ (lit_var a)); exact (iv_kept _ _ _ _ (proj1 (proj1 G)) a I).
  - intros l I. destruct (v_gs (c_v c) (lit_var l)) as [g|] eqn:Eg; [|exfalso; exact (Nm l I Eg)]. exists g. split; [exact Eg|].
    cbn [set_data v_data]. rewrite HD. rewrite (proj2 (touched_in _ _ _)); [reflexivity|]. exists l. auto.
Qed.

(** After giving names to the literals *)
Lemma load_rest_spec F A C c : ground F A c ->
  spec (load_rest C c) (fun c' => known (c_v c') C /\ (forall u g, v_gu (c_v c) u = Some g -> v_gu (c_v c') u = Some g) /\
    c_model c' = c_model c /\ c_tmp c' = c_tmp c /\ c_as c' = c_as c /\
    (all_shown (c_v c) -> all_shown (c_v c')) /\
    exists F', (forall S, tied S F (v_gu (c_v c)) -> tied S F' (v_gu (c_v c'))) /\ (unsat_with F A -> unsat_with F' A) /\
      (refuted (also (map (glob (c_v c')) C) F') c' \/ ground (also (map (glob (c_v c')) C) F') A c' /\ st_sat (c_st c') = st_sat (c_st c))).
Proof.
  intros G. unfold load_rest.
  eapply spec_bind; [apply solver_from_user_lits_steps, base_base0; apply G|]. intros [c1 r] (Ren & Kn & St1). cbv zeta.
  destruct (vsteps_ground _ _ _ _ St1 G) as (F1 & G1 & T1). pose proof (vsteps_keep _ _ St1) as Vk.
  assert (Y : forall c', (refuted (also (map (glob (c_v c1)) C) F1) c' \/ ground (also (map (glob (c_v c1)) C) F1) A c' /\ st_sat (c_st c') = st_sat (c_st c1)) /\
      c_model c' = c_model c1 /\ c_tmp c' = c_tmp c1 /\ c_as c' = c_as c1 /\ v_gu (c_v c') = v_gu (c_v c1) /\ (all_shown (c_v c1) -> all_shown (c_v c')) ->
    known (c_v c') C /\ (forall u g, v_gu (c_v c) u = Some g -> v_gu (c_v c') u = Some g) /\
    c_model c' = c_model c /\ c_tmp c' = c_tmp c /\ c_as c' = c_as c /\
    (all_shown (c_v c) -> all_shown (c_v c')) /\
    exists F', (forall S, tied S F (v_gu (c_v c)) -> tied S F' (v_gu (c_v c'))) /\ (unsat_with F A -> unsat_with F' A) /\
      (refuted (also (map (glob (c_v c')) C) F') c' \/ ground (also (map (glob (c_v c')) C) F') A c' /\ st_sat (c_st c') = st_sat (c_st c))).
  { intros c' (R & E1 & E2 & E3 & E4 & E5).
    assert (Eg : map (glob (c_v c')) C = map (glob (c_v c1)) C) by (apply map_ext; intros l; unfold glob; rewrite E4; reflexivity).
    rewrite Eg, E1, E2, E3, (vk_model _ _ Vk), (vk_tmp _ _ Vk), (vk_as _ _ Vk). rewrite (vk_sat _ _ Vk) in R. unfold known. rewrite E4.
    split; [exact Kn|]. split; [apply (vk_gu _ _ Vk)|]. repeat (split; [reflexivity|]). split; [intros X; apply E5; apply (vk_all _ _ Vk); exact X|].
    exists F1. split; [apply (sp_tied _ _ _ _ _ T1)|]. split; [apply (sp_unsat _ _ _ _ _ T1)|exact R]. }
  eapply spec_weaken; [|exact Y]. clear Y. clear G. rename G1 into G. set (Cg := map (glob (c_v c1)) C) in *.
  pose proof (quiet_refl c1) as Q1. rename F into F0. rename F1 into F. pose proof G as G1.
  set (lits := dedup_n (sort_n r)).
  assert (Inr : forall x, In x lits <-> In x r) by (intros x; unfold lits; rewrite dedup_in, sort_in; tauto).
  assert (Srt : StronglySorted N.lt lits) by (apply dedup_sorted, sort_sorted).
  assert (NmR : named (c_v c1) lits).
  { intros x I. apply Inr in I. clear - Ren I. induction Ren as [|? ? ? ? [E _] _ IH]; [destruct I|]. destruct I as [<-|I]; [rewrite E; discriminate|auto]. }
  eapply spec_bind; [apply proof_add_clause_spec; exact NmR|]. intros c2 Fr.
  pose proof (ground_frame _ _ _ _ Fr G1) as G2. pose proof (quiet_trans _ _ _ Q1 (frame_quiet _ _ Fr)) as Q2.
  assert (NmR2 : named (c_v c2) lits) by (rewrite (frame_v _ _ Fr); exact NmR).
  assert (Mean : forall s b, clause_holds (lift (c_v c2) s b) lits = clause_holds b Cg).
  { intros s b. rewrite (ch_set _ lits r) by exact Inr. apply renames_holds. rewrite (frame_v _ _ Fr). exact Ren. }
  destruct (tautology lits) eqn:Tau.
  { apply spec_ret. split; [right; split; [|apply Q2]|].
    - eapply ground_equiv; [|exact G2]. intros b. rewrite models_cons. split; [tauto|]. intros M. split; [exact M|].
      rewrite <- (Mean (c_s c2) b). apply ch_in. destruct (taut_true _ Tau) as (x & I & J).
      destruct (lit_holds (lift (c_v c2) (c_s c2) b) x) eqn:E; [exists x; auto|]. exists (lnot x). split; [exact J|]. rewrite lit_holds_lnot, E. reflexivity.
    - destruct Q2. auto. }
  pose proof (taut_false _ Srt Tau) as Nd.
  assert (X : spec (if 1 <? length lits then map_data_lits lits (fun d => vd_set_isolated d false) c2 else Ret c2)
    (fun c3 => ground F A c3 /\ quiet c2 c3 /\ v_gs (c_v c3) = v_gs (c_v c2) /\ (1 < length lits -> forall l, In l lits -> in_use (c_v c3) (lit_var l)))).
  { destruct (Nat.ltb_spec 1 (length lits)) as [H|H].
    - eapply spec_weaken; [apply isolated_grow; [exact G2|exact NmR2]|]. intros c3 (v' & -> & G3 & Q3 & E3 & U3). auto.
    - apply spec_ret. split; [exact G2|]. split; [apply quiet_refl|]. split; [reflexivity|lia]. }
  eapply spec_bind; [exact X|]. clear X. intros c3 (G3 & Q3 & Gs3 & Use3). pose proof (quiet_trans _ _ _ Q2 Q3) as Q3'.
  assert (NmR3 : named (c_v c3) lits) by (intros x I; rewrite Gs3; apply NmR2; exact I).
  assert (Mean3 : forall s b, clause_holds (lift (c_v c3) s b) lits = clause_holds b Cg).
  { intros s b. rewrite <- (Mean s b). apply ch_ext. intros l _. unfold lift. rewrite Gs3. reflexivity. }
  destruct (scan_lits (c_s c3) lits) as [[kept fl] found] eqn:Sc. destruct (scan_spec _ _ _ _ _ Sc) as (Pm & Hf & Hk).
  assert (Nmf : named (c_v c3) fl) by (intros x I; apply NmR3; apply (Permutation_in _ Pm); apply in_or_app; right; exact I).
  destruct (resurrect_all F A fl c3 G3 Nmf Hf) as (G4 & V4 & On4 & _).
  set (s4 := fold_left (fun s l => resurrect_unit s (lnot l)) fl (c_s c3)) in *. set (c4 := cw_s c3 s4) in *.
  assert (Q4 : quiet c1 c4) by (destruct Q3'; constructor; assumption).
  assert (Mean4 : forall b, clause_holds (lift (c_v c4) (c_s c4) b) (kept ++ fl) = clause_holds b Cg).
  { intros b. rewrite (ch_perm _ _ _ Pm). apply Mean3. }
  assert (Nd4 : NoDup (map lit_var (kept ++ fl))) by (eapply Permutation_NoDup; [apply Permutation_map; symmetry; exact Pm|exact Nd]).
  assert (Len : length (kept ++ fl) = length lits) by (apply Permutation_length; exact Pm).
  assert (Nm4 : named (c_v c4) (kept ++ fl)) by (intros x I; apply NmR3; apply (Permutation_in _ Pm); exact I).
  destruct found.
  - (* a true literal *)
    assert (G5 : ground (also Cg F) A c4).
    { eapply ground_equiv; [|exact G4]. intros b. rewrite models_cons. split; [tauto|]. intros M. split; [exact M|].
      rewrite <- (Mean4 b). apply ch_in. destruct Hk as (x & I & T). exists x. split; [apply (Permutation_in _ (Permutation_sym Pm)); exact I|].
      eapply ground_true; [exact G4| |exact M]. unfold istrue. unfold c4. cbn [cw_s c_s]. rewrite V4. exact T. }
    destruct (1 <? length (kept ++ fl)).
    + eapply spec_weaken; [apply add_step_spec; intros _; exact Nm4|]. intros c' Fr'.
      pose proof (quiet_trans _ _ _ Q4 (frame_quiet _ _ Fr')) as Q5.
      split; [right; split; [eapply ground_frame; eassumption|apply Q5]|]. destruct Q5. auto.
    + apply spec_ret. split; [right; split; [exact G5|apply Q4]|]. destruct Q4. auto.
  - pose proof (iv_base _ _ _ _ (proj1 (proj1 G4))) as B4. pose proof (proj2 G4) as D4.
    destruct (ground_head _ _ _ G4) as [H4 R4]. pose proof (core_meaning _ _ _ _ (proj1 (proj1 G4))) as M4.
    destruct (iv_search _ _ _ _ (proj1 (proj1 G4))) as [T4 S4 W4 _].
    assert (Unk : forall x, In x kept -> s_val (c_s c4) (lit_var x) = None) by (intros x I; unfold c4; cbn [cw_s c_s]; rewrite V4; apply Hk; exact I).
    assert (Bad : (forall b, models b F -> clause_holds (lift (c_v c4) (c_s c4) b) (kept ++ fl) = false) -> refuted (also Cg F) (set_sat c4 Unsat)).
    { intros H. split; [apply base_unsat; exact B4|]. split; [reflexivity|]. split; [exact D4|]. intros b Mb. apply models_cons in Mb as [Mb Cb].
      rewrite <- (Mean4 b), (H b Mb) in Cb. discriminate. }
    assert (Ot : forall l, In l (kept ++ fl) -> s_val (c_s c4) (lit_var l) <> None -> on_trail (c_s c4) l).
    { intros l I V. apply in_app_or in I as [I|I]; [exfalso; apply V; apply Unk; exact I|]. apply On4. exact I. }
    assert (Us : 1 < length (kept ++ fl) -> forall l, In l (kept ++ fl) -> in_use (c_v c4) (lit_var l)).
    { intros H l I. apply Use3; [lia|]. apply (Permutation_in _ Pm). exact I. }
    assert (Bn : forall l, In l (kept ++ fl) -> (lit_var l < v_slen (c_v c4))%N).
    { intros l I. pose proof (Nm4 l I) as E. destruct (v_gs (c_v c4) (lit_var l)) eqn:Eg; [|congruence]. eapply (vo_x _ (b_vars _ B4)); exact Eg. }
    assert (Mc : forall b, models b (also Cg F) <-> models b F /\ clause_holds (lift (c_v c4) (c_s c4) b) (kept ++ fl) = true).
    { intros b. rewrite models_cons, Mean4. tauto. }
    destruct (kept ++ fl) as [|l0 [|l1 [|l2 rest]]] eqn:Ekf.
    + apply spec_ret. split; [left; apply Bad; reflexivity|]. destruct Q4. auto.
    + destruct kept as [|k0 kr].
      * apply spec_ret. split; [left; apply Bad|destruct Q4; auto]. intros b Mb. cbn [app] in Ekf. subst fl.
        unfold clause_holds. cbn [existsb]. rewrite Bool.orb_false_r. eapply ground_false; [exact G4| |exact Mb].
        unfold isfalse, istrue. unfold c4. cbn [cw_s c_s]. rewrite V4. apply Hf. left. reflexivity.
      * apply spec_ret. cbn [app] in Ekf. injection Ekf as -> Ek. assert (U0 : s_val (c_s c4) (lit_var l0) = None) by (apply Unk; left; reflexivity).
        split; [right; split; [|apply Q4]|destruct Q4; auto]. apply ground_intro; cbn [cw_s c_s c_d c_bin c_v enqueue s_decs s_head s_trail s_reason]; auto.
        -- eapply (meaning_enqueue _ F); [exact M4|exact T4|exact U0|apply Nm4; left; reflexivity| |congruence].
           intros _ b. rewrite Mc. unfold clause_holds. cbn [existsb]. rewrite Bool.orb_false_r. tauto.
        -- apply enqueue_ok; [exact T4|exact U0|apply Bn; left; reflexivity|exact D4].
        -- eapply enqueue_store; eauto; discriminate.
        -- intros E. eapply watch_ok_iff; [| | |apply W4; exact E]; reflexivity || tauto.
        -- intros y I. apply in_app_or in I as [I|[<-|[]]]; [|apply upd_eq]. unfold upd. destruct (N.eqb_spec (lit_var y) (lit_var l0)); [reflexivity|apply R4; exact I].
    + apply spec_ret. split; [right; split; [|apply Q4]|destruct Q4; auto].
      apply ground_intro; unfold add_binary_clause; cbn [cw_bin c_s c_d c_bin c_v]; auto.
      * apply (meaning_add_bin F); [exact M4|apply Us; [cbn; lia|left; reflexivity]|apply Us; [cbn; lia|right; left; reflexivity]|exact Mc].
      * apply (store_add_bin _ _ _ c4); [exact S4|apply Bn; left; reflexivity|apply Bn; right; left; reflexivity| |].
        -- inversion Nd4 as [|? ? NI _]; subst. intros E. apply NI. left. congruence.
        -- intros l [->| ->]; apply Ot; [left; reflexivity|right; left; reflexivity].
    + unfold db_add_clause. destruct (add_long (c_s c4) (c_d c4) (set_tier hdr_new Irred) (l0 :: l1 :: l2 :: rest)) as [[s5 d5] x5] eqn:Ad.
      destruct (d_full d5) eqn:Fu; [exact Logic.I|]. cbn [bind]. apply spec_ret.
      pose proof (add_long_added _ _ _ _ _ _ _ Ad (mn_db _ _ _ M4) Fu eq_refl eq_refl (fun _ => eq_refl)) as AD.
      assert (Co : clause_ok (v_slen (c_v c4)) (l0 :: l1 :: l2 :: rest)) by (split; [cbn; lia|split; [exact Nd4|exact Bn]]).
      split; [right; split; [|apply Q4]|destruct Q4; auto].
      apply ground_intro; cbn [cw_s cw_d c_s c_d c_bin c_v].
      * eapply meaning_add_long; [exact M4|exact AD|apply Us; cbn; lia|exact Mc|left; reflexivity].
      * eapply added_trail; eassumption.
      * eapply added_store; eassumption.
      * eapply (@added_watch (v_slen (c_v c4)) (c_bin c4)); eassumption.
      * rewrite (ad_decs _ _ _ _ _ _ _ AD). exact D4.
      * rewrite (ad_head _ _ _ _ _ _ _ AD). exact H4.
      * rewrite (ad_trail _ _ _ _ _ _ _ AD), (ad_reason _ _ _ _ _ _ _ AD). exact R4.
Qed.

(** * The states between the calls *)
Definition clean (c : ctx) : Prop := forall x, c_tmp c x = false.
Definition answered (F : problem) (A : list N) (c : ctx) : Prop :=
  match st_sat (c_st c) with
  | Sat => model_of (c_v c) F (map (glob (c_v c)) A) (c_model c)
  | UnsatAssum => unsat_with F (map (glob (c_v c)) A) /\ forall l, In l (as_user (c_as c)) -> In l A
  | _ => True
  end.
(** The problem and the assumptions in the names of the user *)
Definition holds (S : problem) (A : list N) (c : ctx) : Prop :=
  known (c_v c) A /\ exists F, inv false F (map (glob (c_v c)) A) c /\ tied S F (v_gu (c_v c)) /\ answered F A c.
(** [fr]: no call has found a single assumption to be in conflict with the clauses so far, so that no flags are left over and
    the failed core contradicts the problem.  [vis]: no variable has been hidden. *)
Definition fresh (S : problem) (c : ctx) : Prop := clean c /\ (st_sat (c_st c) = UnsatAssum -> unsat_with S (as_user (c_as c))).
Definition good (fr vis : bool) (S : problem) (A : list N) (c : ctx) : Prop :=
  base c /\ (fr = true -> fresh S c) /\ (vis = true -> all_shown (c_v c)) /\
  match st_sat (c_st c) with
  | Unsat => s_decs (c_s c) = [] /\ forall b, ~ models b S
  | _ => holds S A c
  end.
Lemma good_inv fr vis S A c : st_sat (c_st c) <> Unsat -> holds S A c ->
  (fr = true -> fresh S c) -> (vis = true -> all_shown (c_v c)) -> good fr vis S A c.
Proof. intros Ns H Fr Vi. pose proof H as (Kn & F & K & _). split; [apply K|]. split; [exact Fr|]. split; [exact Vi|]. destruct (st_sat (c_st c)); congruence || exact H. Qed.
Lemma good_unsat fr vis S A c : refuted S c -> (fr = true -> clean c) -> (vis = true -> all_shown (c_v c)) -> good fr vis S A c.
Proof. intros (B & St & D & M) Fr Vi. split; [exact B|]. rewrite St. split; [intros E; split; [auto|congruence]|auto]. Qed.
Lemma tied_refuted S F gu : tied S F gu -> (forall b, ~ models b F) -> forall b, ~ models b S.
Proof. intros T H b M. apply T in M as (b' & M & _). exact (H b' M). Qed.

Lemma inv_st f F A c st : inv f F A c -> inv f F A (cw_st c st).
Proof. intros [K L]. split; [|exact L]. destruct K. constructor; auto. destruct iv_base. constructor; assumption. Qed.

Theorem load_clause_spec fr vis S A C c : good fr vis S A c -> spec (load_clause C c) (good fr vis (also C S) A).
Proof.
  intros (B & Fr & Vi & H). rewrite load_clause_rest. destruct (st_sat (c_st c)) eqn:St.
  3: { apply spec_ret. apply good_unsat; [|intros E; apply Fr; exact E|exact Vi]. destruct H as [D M]. split; [exact B|]. split; [exact St|]. split; [exact D|].
       intros b [Mb _]. exact (M b Mb). }
  all: destruct H as (Kn & F & K & T & An).
  all: assert (X : forall c0, inv false F (map (glob (c_v c)) A) c0 -> c_v c0 = c_v c -> c_tmp c0 = c_tmp c -> st_sat (c_st c0) <> Unsat ->
      (st_sat (c_st c0) = UnsatAssum -> st_sat (c_st c) = UnsatAssum /\ as_user (c_as c0) = as_user (c_as c)) -> st_sat (c_st c0) <> Sat ->
      spec (load_rest C (full_restart c0)) (good fr vis (also C S) A)).
  all: try (intros c0 K0 V0 T0 N0 U0 S0; destruct (full_restart_ground F _ c0 K0) as (G & Ev & Es & Em & Ea & Et & Eu);
    eapply spec_weaken; [apply (load_rest_spec F _ C _ G)|]; intros c2 (KC & Gu & Mo & Tm & As & Al & F' & Sp & Su & R);
    rewrite Ev, V0 in Gu, Al; rewrite Ev, V0 in Sp;
    pose proof (tied_also _ _ _ _ KC (Sp _ T)) as T2;
    assert (Cl : fr = true -> clean c2) by (intros E x; rewrite Tm, Et, T0; apply Fr; exact E);
    destruct R as [R|[G2 S2]];
      [apply good_unsat; [destruct R as (R1 & R2 & R3 & R4); repeat (split; [assumption|]); exact (tied_refuted _ _ _ T2 R4)|exact Cl|auto]|];
    rewrite Es in S2;
    apply good_inv; [congruence| |intros E; split; [auto|intros Y; rewrite Y in S2; destruct (U0 (eq_sym S2)) as [Z Z2]; rewrite As, Eu, Z2; intros b [Mb _]; apply (proj2 (Fr E) Z b Mb)]|auto];
    split; [exact (known_ext _ _ _ Gu Kn)|]; eexists; rewrite (glob_map _ _ _ Gu Kn); split; [apply G2|]; split; [exact T2|];
    unfold answered; rewrite S2; rewrite (glob_map _ _ _ Gu Kn); destruct (st_sat (c_st c0)) eqn:Sx; try exact Logic.I; try congruence;
    destruct (U0 eq_refl) as [Z1 Z2]; unfold answered in An; rewrite Z1 in An; destruct An as [U Co]; split; [|rewrite As, Eu, Z2; exact Co];
    intros b [M _]; apply Su; [exact U|exact M]).
  all: apply X; cbn [set_empty set_sat cw_st c_st st_sat c_v c_tmp c_as]; try reflexivity; try congruence; auto.
  all: repeat apply inv_st; exact K.
Qed.

(** * Assumptions *)
Lemma ground_as F A A' c a : ground F A c -> as_ok (c_v c) (as_lits a) -> as_in (c_v c) (as_lits a) A' -> as_kept (c_v c) A' ->
  as_all F (c_v c) (c_s c) (as_lits a) A' -> ground F A' (cw_as c a).
Proof.
  intros [[K L] D] As In_ Ke All. split; [split; [|exact L]|exact D].
  destruct K. constructor; auto.
  - destruct iv_base. constructor; assumption.
  - intros i p. cbn [cw_as c_s]. rewrite D. destruct i; discriminate.
Qed.
Lemma full_restart_zero c : s_decs (c_s c) = [] -> full_restart c = set_levels 0 c.
Proof.
  intros D. unfold full_restart, backtrack_to. unfold backtrack. unfold clevel. change (c_s (set_levels 0 c)) with (c_s c). rewrite D. cbn [length Nat.leb].
  destruct c; reflexivity.
Qed.
Lemma base0_v c v' : base0 c -> vgrow (c_v c) v' -> shown v' -> base0 (cw_v c v').
Proof. intros B G Sh. destruct B. constructor; cbn [cw_v c_v c_vs]; auto; try apply G. rewrite (vg_gs _ _ G). assumption. Qed.
Lemma assumed_grow c lits y : base0 c -> named (c_v c) lits ->
  (y = true -> forall l g, In l lits -> v_gs (c_v c) (lit_var l) = Some g -> v_ug (c_v c) g <> None) ->
  exists v', map_data_lits lits (fun d => vd_set_assumed d y) c = Ret (cw_v c v') /\ vgrow (c_v c) v' /\ shown v' /\ v_gu v' = v_gu (c_v c) /\ v_ug v' = v_ug (c_v c) /\
    (forall l, In l lits -> exists g, v_gs v' (lit_var l) = Some g /\ vd_assumed (v_data v' g) = y).
Proof.
  intros B Nm Sh. destruct (map_data_lits_eq (fun d => vd_set_assumed d y)) with (lits := lits) (c := c) as (D & E & HD); [reflexivity|exact Nm|].
  exists (set_data (c_v c) D). split; [exact E|]. split; [|split; [|split; [reflexivity|split; [reflexivity|]]]].
  - apply vgrow_data; [apply B|]. intros g. rewrite HD. destruct (touched _ _ g); cbn; auto.
  - intros g. cbn [set_data v_data v_ug]. rewrite HD. destruct (touched _ _ g) eqn:Tg; [|apply (z_shown _ B)]. cbn [vd_set_assumed vd_assumed vd_deleted].
    intros _ ->. apply touched_in in Tg as (l & I & Eg). exact (Sh eq_refl l g I Eg).
  - intros l I. destruct (v_gs (c_v c) (lit_var l)) as [g|] eqn:Eg; [|exfalso; exact (Nm l I Eg)]. exists g. split; [exact Eg|].
    cbn [set_data v_data]. rewrite HD. rewrite (proj2 (touched_in _ _ _)); [reflexivity|]. exists l. auto.
Qed.
Lemma renames_named v l r : Forall2 (renames v) l r -> named v r.
Proof. induction 1 as [|? ? ? ? [E _] _ IH]; intros w I; [destruct I|]. destruct I as [<-|I]; [rewrite E; discriminate|auto]. Qed.
Lemma renames_in v l r x g : Forall2 (renames v) l r -> In x r -> v_gs v (lit_var x) = Some g -> In (lit_of g (is_positive x)) l.
Proof.
  induction 1 as [|u y l r [E P] _ IH]; intros I Eg; [destruct I|]. destruct I as [<-|I]; [|right; auto]. left.
  rewrite E in Eg. injection Eg as <-. rewrite P. symmetry. apply lo_eta.
Qed.
Lemma renames_all v s b l r : Forall2 (renames v) l r -> (forall x, In x r -> lit_holds (lift v s b) x = true) -> forall u, In u l -> lit_holds b u = true.
Proof.
  induction 1 as [|u y l r [E P] _ IH]; intros H a I; [destruct I|]. destruct I as [<-|I]; [|apply IH; [intros x J; apply H; right; exact J|exact I]].
  specialize (H y (or_introl eq_refl)). apply lh_true in H. apply lh_true. unfold lift in H. rewrite E, P in H. exact H.
Qed.
Lemma renames_grow v v' l r : v_gs v' = v_gs v -> Forall2 (renames v) l r -> Forall2 (renames v') l r.
Proof. intros E. induction 1 as [|? ? ? ? [H P] _ IH]; constructor; [|exact IH]. split; [rewrite E; exact H|exact P]. Qed.
Lemma renames_back v l r x g : Forall2 (renames v) l r -> In x r -> v_gs v (lit_var x) = Some g -> exists u, In u l /\ g = lit_var u.
Proof.
  induction 1 as [|u y l r [E P] _ IH]; intros I Eg; [destruct I|]. destruct I as [<-|I].
  - exists u. split; [left; reflexivity|congruence].
  - destruct (IH I Eg) as (w & J & Q). exists w. split; [right; exact J|exact Q].
Qed.
Lemma renames_solver v l r u : Forall2 (renames v) l r -> In u l -> exists x, In x r /\ v_gs v (lit_var x) = Some (lit_var u).
Proof.
  induction 1 as [|w y l r [E P] _ IH]; intros I; [destruct I|]. destruct I as [<-|I].
  - exists y. split; [left; reflexivity|exact E].
  - destruct (IH I) as (x & J & Q). exists x. split; [right; exact J|exact Q].
Qed.
Lemma glob_named v A l : vars_ok v -> known v A -> In l (map (glob v) A) -> exists u, v_gu v u = Some (lit_var l).
Proof.
  intros V K I. apply in_map_iff in I as (a & <- & I). specialize (K a I). unfold glob. destruct (v_gu v (lit_var a)) as [g|] eqn:E; [|congruence].
  exists (lit_var a). rewrite lo_var. exact E.
Qed.

Definition no_as : assum := Assum [] [] [] 0 [].
(** The part after the restart *)
Definition assume_rest (user : list N) (c : ctx) : out ctx :=
  do c <- map_data_lits (as_lits (c_as c)) (fun d => vd_set_assumed d false) c ;
  do (c, lits) <- solver_from_user_lits user true c ;
  let c := cw_as c (Assum lits (as_core (c_as c)) (as_user (c_as c)) (as_levels (c_as c)) (as_hashes (c_as c))) in
  do c <- map_data_lits lits (fun d => vd_set_assumed d true) c ;
  add_step true (Assumptions lits) c.
Lemma assume_rest_spec user c : base c ->
  spec (assume_rest user c) (fun c' => base c' /\ st_sat (c_st c') = st_sat (c_st c) /\ c_tmp c' = c_tmp c /\
    s_decs (c_s c') = s_decs (c_s c) /\ known (c_v c') user /\
    (all_shown (c_v c) -> all_shown (c_v c')) /\
    forall F A, ground F A c -> exists F', ground F' (map (glob (c_v c')) user) c' /\ (forall S, tied S F (v_gu (c_v c)) -> tied S F' (v_gu (c_v c')))).
Proof.
  intros B. unfold assume_rest. pose proof (base_base0 _ B) as B0.
  destruct (assumed_grow c (as_lits (c_as c)) false B0) as (v1 & E1 & G1 & Sh1 & Gu1 & Ug1 & _).
  { intros l I. destruct (b_as _ B l I) as (g & E & _). congruence. }
  { discriminate. }
  rewrite E1. cbn [bind]. set (c1 := cw_v c v1). pose proof (base0_v _ _ B0 G1 Sh1) as B1. fold c1 in B1.
  eapply spec_bind; [apply solver_from_user_lits_steps; exact B1|]. intros [c2 lits] (Ren & Kn & St). cbv zeta.
  pose proof (vsteps_base0 _ _ St B1) as B2. pose proof (vsteps_keep _ _ St) as K2.
  set (a := Assum lits (as_core (c_as c2)) (as_user (c_as c2)) (as_levels (c_as c2)) (as_hashes (c_as c2))).
  assert (B2' : base0 (cw_as c2 a)) by (destruct B2; constructor; assumption).
  destruct (assumed_grow (cw_as c2 a) lits true B2' (renames_named _ _ _ Ren)) as (v3 & E3 & G3 & Sh3 & Gu3 & Ug3 & As3).
  { intros _ l g I Eg. destruct (renames_back _ _ _ _ _ Ren I Eg) as (w & Iw & ->).
    destruct (glob_named _ _ _ (z_vars _ B2) Kn Iw) as (u & Eu). apply (vo_ug _ (z_vars _ B2)) in Eu. cbn [cw_as c_v]. congruence. }
  rewrite E3. cbn [bind]. cbn [cw_as c_v] in G3.
  eapply spec_weaken; [apply add_step_spec; intros _ x I; cbn [step_lits cw_v c_v] in *; rewrite (vg_gs _ _ G3); exact (renames_named _ _ _ Ren x I)|].
  intros c' Fr. set (c3 := cw_v (cw_as c2 a) v3) in *.
  assert (Ren3 : Forall2 (renames v3) (map (glob (c_v c2)) user) lits) by (eapply renames_grow; [apply (vg_gs _ _ G3)|exact Ren]).
  assert (Bs : base c3).
  { apply base_split. split; [exact (base0_v _ _ B2' G3 Sh3)|]. split; [exact As3|]. change (c_an c3) with (c_an c2). rewrite (vk_an _ _ K2). apply (b_flags _ B). }
  assert (Gu' : v_gu (c_v c') = v_gu (c_v c2)) by (rewrite (frame_v _ _ Fr); exact Gu3).
  pose proof (frame_quiet _ _ Fr) as Q. destruct Q as [Qs Qm Qt Qa Qu Ql].
  split; [eapply base_frame; eassumption|]. split; [rewrite Qs; apply (vk_sat _ _ K2)|]. split; [rewrite Qt; apply (vk_tmp _ _ K2)|].
  split; [destruct Fr as (e & p & ->); apply (vk_decs _ _ K2)|].
  split; [unfold known; rewrite Gu'; exact Kn|].
  split; [intros Y; apply Ql; apply (vgrow_all _ _ G3 Ug3); apply (vk_all _ _ K2); apply (vgrow_all _ _ G1 Ug1); exact Y|].
  intros F A G.
  assert (G0 : ground F [] (cw_as c no_as)) by (apply (ground_as F A); [exact G|intros l []|intros l g []|intros l []|intros b _ _ x []]).
  assert (Gv1 : ground F [] (cw_v (cw_as c no_as) v1)) by (apply ground_v; [exact G0|exact G1|exact Sh1|intros l []|intros l []]).
  destruct (vsteps_ground F [] _ _ (vsteps_as _ _ no_as St) Gv1) as (F' & Gv2 & Sp).
  exists F'. split.
  2: { intros S T. rewrite Gu'. apply (sp_tied _ _ _ _ _ Sp S). cbn [cw_as cw_v c_v]. unfold c1. cbn [cw_v c_v cw_as]. rewrite Gu1. exact T. }
  eapply ground_frame; [exact Fr|].
  assert (Gv3 : ground F' [] (cw_v (cw_as c2 no_as) v3)) by (apply ground_v; [exact Gv2|exact G3|exact Sh3|intros l []|intros l []]).
  assert (Eg : map (glob (c_v c')) user = map (glob (c_v c2)) user) by (apply map_ext; intros l; unfold glob; rewrite Gu'; reflexivity). rewrite Eg.
  apply (ground_as F' [] (map (glob (c_v c2)) user) _ a) in Gv3; [exact Gv3|exact As3| | |].
  - intros l g I E. eapply renames_in; [exact Ren3|exact I|exact E].
  - intros u I. destruct (renames_solver _ _ _ _ Ren3 I) as (x & Ix & Ex). destruct (As3 x Ix) as (g & E & Q). rewrite Ex in E. injection E as <-.
    split; [|exact Q]. apply (gs_alive c3 (lit_var x)); [apply base_base0; exact Bs|exact Ex].
  - intros b _ H u I. eapply renames_all; [exact Ren3|exact H|exact I].
Qed.

Theorem set_assumptions_spec fr vis S A user c : good fr vis S A c -> spec (set_assumptions user c) (good fr vis S user).
Proof.
  intros (B & Fr & Vi & H).
  assert (E : set_assumptions user c = assume_rest user (match st_sat (c_st (full_restart c)) with Unsat => full_restart c | _ => set_sat (full_restart c) Unknown end)) by reflexivity.
  rewrite E. clear E. destruct (st_sat (c_st c)) eqn:St.
  3: { destruct H as [D M]. rewrite (full_restart_zero _ D). change (st_sat (c_st (set_levels 0 c))) with (st_sat (c_st c)). rewrite St.
       eapply spec_weaken; [apply assume_rest_spec; destruct B; constructor; assumption|]. intros c' (B' & S' & T' & D' & _ & Al & _).
       apply good_unsat; [|intros Ef x; rewrite T'; apply (proj1 (Fr Ef))|auto]. split; [exact B'|]. split; [rewrite S'; exact St|]. split; [rewrite D'; exact D|exact M]. }
  all: destruct H as (Kn & F & K & T & An); destruct (full_restart_ground F _ c K) as (G & Ev & Es & Em & Ea & Et & Eu); rewrite Es, St.
  all: assert (G' : ground F (map (glob (c_v c)) A) (set_sat (full_restart c) Unknown)) by (destruct G as [Gi Gd]; split; [apply inv_st; exact Gi|exact Gd]).
  all: eapply spec_weaken; [apply assume_rest_spec; apply G'|]; intros c' (B' & S' & T' & D' & Kn' & Al & Gr); destruct (Gr F _ G') as (F' & G2 & Sp).
  all: cbn [set_sat cw_st c_st st_sat c_v c_tmp] in S', T', Al, Sp; rewrite Ev in Sp, Al.
  all: apply good_inv; [congruence| |intros Ef; split; [intros x; rewrite T', Et; apply (proj1 (Fr Ef))|congruence]|auto].
  all: split; [exact Kn'|]; exists F'; split; [apply G2|]; split; [apply Sp; exact T|].
  all: unfold answered; rewrite S'; exact Logic.I.
Qed.
