(** Proving units at level 0 and simplification with them (Solver.v): the meaning is kept. *)
From Coq Require Import Lia Arith PeanoNat Permutation ZArith ZifyBool ZifyNat ZifyN.
From Verif Require Import Spec Lit LitProofs BinFormat Hash F32 Vsids VsidsProofs VsidsWf Luby Config Search SearchBase
  Propagate P_Search ClauseDb DbProofs Analyze AnalyzeProofs SolverCtx CtxFrame VarsProofs Solver SolverInv.
Local Open Scope nat_scope.

(** * Proving units *)
Lemma unit_proofs_spec : forall tr s s' ps, unit_proofs s tr = (s', ps) ->
  (exists r d, s' = with_depth (with_reason s r) d /\
     (forall v, r v = if existsb (N.eqb v) (map lit_var tr) then RUnit else s_reason s v) /\
     (forall v, d v = if existsb (N.eqb v) (map lit_var tr) then None else s_depth s v)) /\
  (forall x, In x (map fst ps) -> In x tr).
Proof.
  induction tr as [|lit tr IH]; intros s s' ps E; cbn [unit_proofs] in E.
  - injection E as <- <-. split; [|intros x []]. exists (s_reason s), (s_depth s). split; [destruct s; reflexivity|]. split; reflexivity.
  - cbv zeta in E. destruct (unit_proofs (update_removed_unit s (lit_var lit)) tr) as [s1 ps1] eqn:E1. injection E as <- <-.
    destruct (IH _ _ _ E1) as ((r & d & -> & Hr & Hd) & Hp). split.
    + exists r, d. split; [reflexivity|]. unfold update_removed_unit in Hr, Hd. cbn [with_depth with_reason s_reason s_depth] in Hr, Hd.
      cbn [map existsb]. split; intros v; [rewrite Hr|rewrite Hd]; unfold upd; destruct (N.eqb v (lit_var lit)); cbn [orb];
        destruct (existsb _ _); reflexivity.
    + intros x I. rewrite map_app, in_app_iff in I. destruct I as [I|I]; [|right; apply Hp; exact I].
      destruct (is_unit_reason _); cbn in I; [tauto|]. destruct I as [<-|[]]. left. reflexivity.
Qed.

(** After propagation at level 0 without a conflict *)
Definition settled0 (s : search) (lits : list N) : Prop :=
  (exists x, In x lits /\ istrue s x) \/
  (exists x y, In x lits /\ In y lits /\ lit_var x <> lit_var y /\ s_val s (lit_var x) = None /\ s_val s (lit_var y) = None).

(** The state while the clauses are simplified: those in [rest] are still to do. *)
Record simp (rest : list N) (done : bool) (F : problem) (A : list N) (c : ctx) : Prop := {
  sp_base : base c;
  sp_trail : trail_ok (v_slen (c_v c)) (c_s c);
  sp_empty : s_trail (c_s c) = [] /\ s_decs (c_s c) = [] /\ s_head (c_s c) = 0;
  sp_clause : forall x, In x (live (c_d c)) -> clause_ok (v_slen (c_v c)) (s_lits (c_s c) x);
  sp_bin : forall l o, In o (c_bin c l) ->
      (lit_var l < v_slen (c_v c))%N /\ (lit_var o < v_slen (c_v c))%N /\ lit_var o <> lit_var l /\ In (lnot l) (c_bin c (lnot o));
  sp_binopen : forall l o, In o (c_bin c l) -> if done then s_val (c_s c) (lit_var l) = None /\ s_val (c_s c) (lit_var o) = None
                                        else istrue (c_s c) l -> istrue (c_s c) o;
  sp_rest : forall x, In x (live (c_d c)) -> (In x rest -> settled0 (c_s c) (s_lits (c_s c) x)) /\
      (~ In x rest -> forall l, In l (s_lits (c_s c) x) -> s_val (c_s c) (lit_var l) = None);
  sp_db : db_ok (s_lits (c_s c)) (c_d c);
  sp_used : clauses_used (c_v c) (live (c_d c)) (c_bin c) (s_lits (c_s c));
  sp_open : forall x, v_gs (c_v c) x <> None -> s_val (c_s c) x = None -> In x (vs_heap (c_vs c));
  sp_unit : forall g x y, v_sg (c_v c) g = Some x -> vd_unit (v_data (c_v c) g) = Some y -> s_val (c_s c) x = Some y;
  sp_sound : sound F (c_v c) (live (c_d c)) (c_bin c) (c_s c);
  sp_comp : complete F (c_v c) (irred (c_d c)) (c_bin c) (c_s c);
  sp_in : as_in (c_v c) (as_lits (c_as c)) A;
  sp_kept : as_kept (c_v c) A;
  sp_all : as_all F (c_v c) (c_s c) (as_lits (c_as c)) A }.

Lemma simp_frame rest done F A c c' : frame c c' -> simp rest done F A c -> simp rest done F A c'.
Proof. intros (e & p & ->) K. destruct K. constructor; try assumption. eapply base_frame; [|eassumption]. eexists _, _. reflexivity. Qed.

Definition same_search (s s' : search) : Prop :=
  s_val s' = s_val s /\ s_lits s' = s_lits s /\ s_level s' = s_level s.

Lemma prove_units_high c : 0 < clevel (c_s c) -> prove_units c = Ret (c, false).
Proof. intros H. unfold prove_units. destruct (Nat.eqb_spec (clevel (c_s c)) 0); [lia|reflexivity]. Qed.

(** [prove_units] at level 0: the trail is cleared, everything else stays. *)
Lemma prove_units_zero c : s_decs (c_s c) = [] -> (forall l, In l (s_trail (c_s c)) -> v_gs (c_v c) (lit_var l) <> None) ->
  spec (prove_units c) (fun '(c', new) => exists s', frame (cw_s c s') c' /\
    new = negb (match s_trail (c_s c) with [] => true | _ => false end) /\
    s_val s' = s_val (c_s c) /\ s_lits s' = s_lits (c_s c) /\ s_level s' = s_level (c_s c) /\ s_trail s' = [] /\
    s_head s' = 0 /\ s_decs s' = [] /\ s_watch s' = s_watch (c_s c) /\ s_wen s' = s_wen (c_s c) /\
    (forall v, s_reason s' v = if existsb (N.eqb v) (map lit_var (s_trail (c_s c))) then RUnit else s_reason (c_s c) v) /\
    (forall v, s_depth s' v = if existsb (N.eqb v) (map lit_var (s_trail (c_s c))) then None else s_depth (c_s c) v)).
Proof.
  intros D G. unfold prove_units, clevel. rewrite D. cbn [length Nat.eqb].
  destruct (unit_proofs (c_s c) (s_trail (c_s c))) as [s1 ps] eqn:E.
  destruct (unit_proofs_spec _ _ _ _ E) as ((r & d & -> & Hr & Hd) & Hp).
  unfold trail_clear. cbn [with_depth with_reason s_decs]. rewrite D. cbv zeta.
  match goal with |- context [cw_s c ?x] => set (s2 := x) end.
  eapply spec_bind with (P := fun c' => frame (cw_s c s2) c').
  - destruct ps as [|p ps]; [apply spec_ret, frame_refl|]. apply add_step_spec. intros _ x I. cbn [step_lits] in I.
    apply Hp in I. cbn [cw_s c_v]. apply G. exact I.
  - intros c' Fr. apply spec_ret. exists s2. split; [exact Fr|]. split; [destruct (s_trail (c_s c)); reflexivity|].
    unfold s2. cbn [with_depth with_reason s_val s_lits s_level s_trail s_head s_decs s_watch s_wen s_reason s_depth].
    repeat (split; [reflexivity|]). split; assumption.
Qed.

Lemma prove_units_simp F A c : core false F A c -> s_decs (c_s c) = [] -> s_head (c_s c) = length (s_trail (c_s c)) ->
  spec (prove_units c) (fun '(c', new) =>
    if new then simp (live (c_d c')) false F A c' /\ c_d c' = c_d c else inv false F A c' /\ s_trail (c_s c') = [] /\ s_head (c_s c') = 0 /\ s_decs (c_s c') = []).
Proof.
  intros K D H. pose proof (iv_search _ _ _ _ K) as [T S W P]. cbv iota in P.
  eapply spec_weaken; [apply prove_units_zero; [exact D|apply K]|].
  intros [c' new] (s' & Fr & En & Ev & El & Elv & Et & Eh & Ed & Ew & Ewn & Er & Edp). subst new.
  assert (Fx : same_fixed (c_s c) s').
  { intros x y. split; intros [V _].
    - rewrite Ev in V. eapply assigned_fixed; eassumption.
    - split; [rewrite Ev; exact V|]. left. rewrite Et. intros []. }
  assert (Ab : same_absent (c_v c) (c_s c) s') by (intros x _; rewrite Ev; reflexivity).
  assert (T' : trail_ok (v_slen (c_v c)) s').
  { constructor; rewrite ?Et, ?Ed, ?Eh.
    - constructor.
    - intros l [].
    - intros v NV. rewrite Ev in NV. right. rewrite Er, Edp. destruct (existsb _ _) eqn:Q; [split; reflexivity|].
      destruct (tk_assigned _ _ T v NV) as [I|I]; [|exact I]. apply memb_in in I. congruence.
    - intros [|p] l Q; discriminate.
    - intros [|p] l Q; discriminate.
    - constructor.
    - intros d [].
    - cbn. lia.
    - intros [|p] l Q; discriminate.
    - intros v NV. rewrite Ev in NV. exact (tk_vars _ _ T v NV). }
  destruct (s_trail (c_s c)) as [|l0 tr] eqn:Etr; cbn [negb].
  - (* nothing new *)
    assert (E0 : forall v, s_reason s' v = s_reason (c_s c) v /\ s_depth s' v = s_depth (c_s c) v).
    { intros v. rewrite Er, Edp. split; reflexivity. }
    assert (K' : inv false F A (cw_s c s')).
    { split; [|unfold low; cbn [cw_s c_s]; rewrite Ed, Et; split; [exact Eh|intros l []]].
      assert (X : core false F A (cw_vs (cw_s c s') (c_vs c))).
      { eapply core_search with (f := false); try eassumption.
        - constructor.
          + exact T'.
          + destruct S. constructor; rewrite ?El, ?Ev, ?Et; auto.
            * intros x l I1 I2 NV. exfalso. eapply so_on_long in NV; [|exact I1|exact I2]. unfold on_trail in NV. rewrite Etr in NV. exact NV.
            * intros l o I NV. exfalso. eapply so_on_bin in NV; [|exact I]. unfold on_trail in NV. rewrite Etr in NV. exact NV.
            * intros l x [].
            * intros l x [].
          + rewrite Ewn, Ew. intros E. specialize (W E). eapply watch_ok_iff; [| | |exact W]; try tauto.
            intros x _. rewrite El. reflexivity.
          + destruct P. constructor.
            * intros x c0 c1 r w _ _ _ (p & B & _). rewrite Eh in B. lia.
            * intros l o _ (p & B & _). rewrite Eh in B. lia.
        - intros x. rewrite El. reflexivity.
        - intros l I. rewrite Et in I. destruct I.
        - apply (iv_base _ _ _ _ K).
        - apply (b_heap _ (iv_base _ _ _ _ K)).
        - intros x G V. rewrite Ev in V. apply (iv_open _ _ _ _ K); assumption.
        - intros i p Q. rewrite Ed in Q. destruct i; discriminate. }
      destruct c. exact X. }
    split; [eapply inv_frame; eassumption|]. destruct Fr as (e & p & ->). cbn [cw_pf set_error cw_st cw_s c_s]. auto.
  - split; [|destruct Fr as (e & p & ->); reflexivity]. eapply simp_frame; [exact Fr|].
    replace (live (c_d c')) with (live (c_d (cw_s c s'))) by (destruct Fr as (e & p & ->); reflexivity).
    pose proof (db_ok_perm _ (s_lits s') _ (fun x => eq_ind_r (fun z => Permutation (s_lits (c_s c) x) (z x)) (Permutation_refl _) El) (iv_db _ _ _ _ K)) as Db.
    constructor; cbn [cw_s c_s c_d c_bin c_v c_vs c_as]; auto.
    + pose proof (iv_base _ _ _ _ K) as B. destruct B. constructor; auto.
    + intros x I. rewrite El. eapply so_clause; eassumption.
    + intros l o I. eapply so_bin; eassumption.
    + intros l o I. unfold istrue. rewrite Ev. apply (complete_bin _ _ _ _ _ _ T S P); [congruence|exact I].
    + intros x I. split; [|tauto]. intros _. unfold settled0, istrue. rewrite El, Ev.
      apply (complete_long _ _ _ _ _ T S P); [congruence|exact I].
    + rewrite El. apply K.
    + intros x G V. rewrite Ev in V. apply (iv_open _ _ _ _ K); assumption.
    + intros g x y G U. rewrite Ev. apply (iv_unit _ _ _ _ K g x y G U).
    + eapply sound_same; [exact Ab|exact Fx|intros; rewrite El; reflexivity|apply K].
    + eapply complete_same; [exact Ab|exact Fx|intros; rewrite El; reflexivity|apply K].
    + apply K.
    + apply K.
    + eapply as_all_same; [exact Ab|apply K].
Qed.

(** What is true, false or open under an assignment that agrees with all values *)
Lemma simp_fixed rest done F A c x y : simp rest done F A c -> (fixv (c_s c) x y <-> s_val (c_s c) x = Some y).
Proof.
  intros K. destruct (sp_empty _ _ _ _ _ K) as (E & _). unfold fixv. rewrite E. split; [tauto|]. intros V. split; [exact V|]. left. intros [].
Qed.
Lemma true_holds (s : search) a l : (forall x y, s_val s x = Some y -> a x = y) -> istrue s l -> lit_holds a l = true.
Proof. intros H T. rewrite lh_true. apply H. exact T. Qed.
Lemma false_fails (s : search) a l : (forall x y, s_val s x = Some y -> a x = y) -> isfalse s l -> lit_holds a l = false.
Proof. intros H T. rewrite lh_false. eapply true_holds; eassumption. Qed.

(** * Binary clauses *)
Lemma in_use_named v l : in_use v (lit_var l) -> v_gs v (lit_var l) <> None.
Proof. intros (g & G & _). congruence. Qed.
Lemma bin_use v L bin lits l o : clauses_used v L bin lits -> (forall l o, In o (bin l) -> In (lnot l) (bin (lnot o))) ->
  In o (bin l) -> in_use v (lit_var l) /\ in_use v (lit_var o).
Proof.
  intros [_ U] S I. split; [|apply (U _ _ I)]. apply S in I. apply U in I. rewrite lnot_var in I. exact I.
Qed.

Lemma simplify_binary_spec F A c : simp (live (c_d c)) false F A c ->
  spec (simplify_binary c) (fun c' => simp (live (c_d c')) true F A c' /\ c_d c' = c_d c /\ c_s c' = c_s c).
Proof.
  intros K. unfold simplify_binary. cbv zeta.
  assert (Sy : forall l o, In o (c_bin c l) -> In (lnot l) (c_bin c (lnot o))) by (intros l o I; apply (sp_bin _ _ _ _ _ K) in I; apply I).
  eapply spec_bind.
  - apply add_steps_spec. intros _ s I. apply in_flat_map in I as (l & _ & I). unfold binary_steps in I.
    apply in_map_iff in I as (o & <- & I). apply filter_In in I as [I _]. cbn [step_lits].
    destruct (bin_use _ _ _ _ _ _ (sp_used _ _ _ _ _ K) Sy I) as [U1 U2].
    intros x [<-|[<-|[]]]; [rewrite lnot_var|]; apply in_use_named; assumption.
  - intros c1 Fr. apply spec_ret. destruct Fr as (e & p & ->). cbn [cw_bin cw_pf set_error cw_st c_d c_s]. split; [|split; reflexivity].
    assert (In' : forall l o, In o (simplify_bin (c_s c) (c_bin c) l) <->
                    In o (c_bin c l) /\ s_val (c_s c) (lit_var l) = None /\ s_val (c_s c) (lit_var o) = None).
    { intros l o. unfold simplify_bin. destruct (lunk (c_s c) l) eqn:Q.
      - rewrite filter_In. rewrite lunk_iff. apply lunk_iff in Q. tauto.
      - apply lunk_false in Q. cbn. tauto. }
    pose proof (fun x y => simp_fixed _ _ _ _ _ x y K) as Fx.
    assert (Dead : forall a l o, (forall x y, s_val (c_s c) x = Some y -> a x = y) -> In o (c_bin c l) ->
              ~ In o (simplify_bin (c_s c) (c_bin c) l) -> clause_holds a [lnot l; o] = true).
    { intros a l o Ag I NI. rewrite ch_in. rewrite In' in NI.
      assert (Cl : forall z, istrue (c_s c) z -> (z = lnot l \/ z = o) -> exists z, In z [lnot l; o] /\ lit_holds a z = true).
      { intros z Tz Hz. exists z. split; [destruct Hz as [->| ->]; cbn; tauto|eapply true_holds; eassumption]. }
      pose proof (sp_binopen _ _ _ _ _ K _ _ I) as B1. cbv iota in B1.
      pose proof (sp_binopen _ _ _ _ _ K _ _ (Sy _ _ I)) as B2. cbv iota in B2.
      destruct (value_cases (c_s c) l) as [Q|[Q|Q]].
      - apply (Cl o); [apply B1; exact Q|tauto].
      - apply (Cl (lnot l)); [exact Q|tauto].
      - destruct (value_cases (c_s c) o) as [Q2|[Q2|Q2]].
        + apply (Cl o); [exact Q2|tauto].
        + apply (Cl (lnot l)); [apply B2; exact Q2|tauto].
        + tauto. }
    pose proof (sp_base _ _ _ _ _ K) as Ba.
    destruct K. constructor; cbn [cw_bin cw_pf set_error cw_st c_s c_d c_bin c_v c_vs c_as]; auto.
    + destruct Ba. constructor; assumption.
    + intros l o I. apply In' in I as (I & V1 & V2). destruct (sp_bin0 _ _ I) as (B1 & B2 & B3 & B4).
      repeat (split; [assumption|]). apply In'. rewrite !lnot_var. tauto.
    + intros l o I. apply In' in I. tauto.
    + destruct sp_used0 as [U1 U2]. split; [exact U1|]. intros l o I. apply In' in I as [I _]. apply (U2 _ _ I).
    + intros b M. destruct (sp_sound0 b M) as ((S1 & S2) & Kb & Ub). split; [split; [exact S1|]|split; [exact Kb|exact Ub]].
      intros l o I. apply In' in I as [I _]. apply S2. exact I.
    + intros b S1 S2 Kb Ub. apply sp_comp0; auto. intros l o I.
      destruct (in_dec N.eq_dec o (simplify_bin (c_s c) (c_bin c) l)) as [J|J]; [apply S2; exact J|].
      apply Dead; [|exact I|exact J]. intros x y V. apply Kb. apply Fx. exact V.
Qed.

(** * Long clauses *)
Lemma open_lits_spec s : forall lits,
  match open_lits s lits with
  | None => exists x, In x lits /\ istrue s x
  | Some r => r = filter (lunk s) lits /\ forall x, In x lits -> ~ istrue s x
  end.
Proof.
  induction lits as [|l lits IH]; cbn [open_lits filter]; [split; [reflexivity|intros x []]|].
  destruct (ltrue s l) eqn:T; [exists l; split; [left; reflexivity|apply ltrue_iff; exact T]|].
  apply ltrue_false in T. destruct (open_lits s lits) as [r|].
  - destruct IH as [-> H]. split; [destruct (lunk s l); reflexivity|]. intros x [<-|I]; [exact T|apply H; exact I].
  - destruct IH as (x & I & Tx). exists x. split; [right; exact I|exact Tx].
Qed.

Lemma add_binary_in l0 l1 c l o : In o (c_bin (add_binary_clause l0 l1 c) l) <->
  In o (c_bin c l) \/ (l = lnot l0 /\ o = l1) \/ (l = lnot l1 /\ o = l0).
Proof.
  unfold add_binary_clause. cbn [cw_bin c_bin].
  destruct (N.eq_dec l (lnot l1)) as [->|N1].
  - rewrite upd_eq, in_app_iff. cbn [In]. destruct (N.eq_dec (lnot l1) (lnot l0)) as [E|N0].
    + rewrite E, upd_eq, in_app_iff. cbn [In]. intuition congruence.
    + rewrite upd_ne by exact N0. intuition congruence.
  - rewrite upd_ne by exact N1. destruct (N.eq_dec l (lnot l0)) as [->|N0].
    + rewrite upd_eq, in_app_iff. cbn [In]. intuition congruence.
    + rewrite upd_ne by exact N0. intuition congruence.
Qed.

Lemma filter_len {B} (f : B -> bool) l : length (filter f l) <= length l.
Proof. induction l as [|x l IH]; cbn [filter length]; [lia|]. destruct (f x); cbn [length]; lia. Qed.
Lemma filter_all {B} (f : B -> bool) l : length (filter f l) = length l -> forall x, In x l -> f x = true.
Proof.
  induction l as [|a l IH]; cbn [filter length]; [intros _ x []|]. pose proof (filter_len f l).
  destruct (f a) eqn:Q; cbn [length]; [|lia]. intros E x [<-|I]; [exact Q|apply IH; [lia|exact I]].
Qed.
Lemma filter_two {B} (f : B -> bool) l x y : In x l -> In y l -> x <> y -> f x = true -> f y = true -> 2 <= length (filter f l).
Proof.
  intros Ix Iy NE Fx Fy. assert (In x (filter f l)) as A by (apply filter_In; tauto).
  assert (In y (filter f l)) as C by (apply filter_In; tauto).
  destruct (filter f l) as [|a [|b r]]; [destruct A| |cbn; lia]. cbn in A, C. destruct A as [->|[]], C as [->|[]]. congruence.
Qed.
Lemma NoDup_map_filter {B C} (g : B -> C) (f : B -> bool) l : NoDup (map g l) -> NoDup (map g (filter f l)).
Proof.
  induction l as [|a l IH]; cbn [map filter]; [auto|]. intros H. inversion H as [|? ? N1 N2]; subst.
  destruct (f a); cbn [map]; [|auto]. constructor; [|auto]. intros I. apply N1.
  apply in_map_iff in I as (x & E & I). apply filter_In in I as [I _]. apply in_map_iff. exists x. tauto.
Qed.

Lemma live_delete s d x y : In x (live (delete_header s d y)) <-> In x (live d) /\ x <> y.
Proof.
  unfold delete_header, live, deleted, dec_count, map_hdr. cbn [with_garbage with_count with_hdr d_hdr d_clauses].
  rewrite !filter_In. unfold upd. destruct (N.eqb_spec x y) as [->|NE]; cbn [set_deleted h_deleted negb]; [|tauto].
  split; [intros [_ H]; discriminate|tauto].
Qed.
Lemma htier_delete s d x y : htier (delete_header s d y) x = htier d x.
Proof.
  unfold delete_header, htier, dec_count, map_hdr. cbn [with_garbage with_count with_hdr d_hdr].
  unfold upd. destruct (N.eqb_spec x y) as [->|NE]; reflexivity.
Qed.
Lemma deleted_delete s d x y : deleted (delete_header s d y) x = N.eqb x y || deleted d x.
Proof.
  unfold delete_header, deleted, dec_count, map_hdr. cbn [with_garbage with_count with_hdr d_hdr].
  unfold upd. destruct (N.eqb_spec x y) as [->|NE]; reflexivity.
Qed.

(** One clause: afterwards it is done. *)
Lemma simplify_clause_spec F A c x rest : simp (x :: rest) true F A c -> In x (live (c_d c)) -> ~ In x rest -> s_wen (c_s c) = false ->
  spec (simplify_clause x c) (fun '(c', keep) =>
    let c2 := if keep then c' else cw_d c' (delete_header (c_s c') (c_d c') x) in
    simp rest true F A c2 /\ s_wen (c_s c2) = false /\ d_clauses (c_d c2) = d_clauses (c_d c) /\
    (forall y, deleted (c_d c2) y = if keep then deleted (c_d c) y else N.eqb y x || deleted (c_d c) y)).
Proof.
  intros K Ix NIx Wn. unfold simplify_clause. cbv zeta.
  pose proof (fun x y => simp_fixed _ _ _ _ _ x y K) as Fx.
  assert (Nm : named (c_v c) (s_lits (c_s c) x)).
  { intros l I. apply in_use_named. apply (proj1 (sp_used _ _ _ _ _ K) x l Ix I). }
  pose proof (open_lits_spec (c_s c) (s_lits (c_s c) x)) as OL.
  assert (Del : forall c', frame c c' ->
     (exists y, In y (s_lits (c_s c) x) /\ istrue (c_s c) y) ->
     let c2 := cw_d c' (delete_header (c_s c') (c_d c') x) in
     simp rest true F A c2 /\ s_wen (c_s c2) = false /\ d_clauses (c_d c2) = d_clauses (c_d c) /\
     (forall y, deleted (c_d c2) y = N.eqb y x || deleted (c_d c) y)).
  { intros c' (e & p & ->) (y & Iy & Ty). cbv zeta. cbn [cw_pf set_error cw_st cw_d c_s c_d].
    split; [|split; [exact Wn|split; [reflexivity|intros z; apply deleted_delete]]].
    destruct (sp_db _ _ _ _ _ K) as [Dc Du].
    destruct (delete_header_core _ _ _ _ Dc Ix) as (Dc' & _ & Mk).
    pose proof (sp_base _ _ _ _ _ K) as Ba.
    destruct K. constructor; cbn [cw_pf set_error cw_st cw_d c_s c_d c_bin c_v c_vs c_as]; auto.
    - destruct Ba. constructor; assumption.
    - intros z I. apply live_delete in I as [I _]. apply sp_clause0. exact I.
    - intros z I. apply live_delete in I as [I NE]. destruct (sp_rest0 z I) as [R1 R2]. split; intros H.
      + apply R1. right. exact H.
      + apply R2. intros [->|H']; tauto.
    - split; [exact Dc'|]. intros z. rewrite Mk. apply Du.
    - destruct sp_used0 as [U1 U2]. split; [|exact U2]. intros z l I1 I2. apply live_delete in I1 as [I1 _]. eapply U1; eassumption.
    - intros b M. destruct (sp_sound0 b M) as ((S1 & S2) & Kb & Ub). split; [split; [|exact S2]|split; assumption].
      intros z I. apply live_delete in I as [I _]. apply S1. exact I.
    - intros b S1 S2 Kb Ub. apply sp_comp0; auto. intros z [I Ti].
      destruct (N.eq_dec z x) as [->|NE].
      + apply ch_in. exists y. split; [exact Iy|]. eapply true_holds; [|exact Ty]. intros u w V. apply Kb. apply Fx. exact V.
      + apply S1. split; [apply live_delete; tauto|]. rewrite htier_delete. exact Ti. }
  destruct (open_lits (c_s c) (s_lits (c_s c) x)) as [new|].
  2:{ eapply spec_bind; [apply add_step_spec; intros _; exact Nm|]. intros c' Fr. apply spec_ret. apply Del; assumption. }
  destruct OL as [En NT].
  assert (St : settled0 (c_s c) (s_lits (c_s c) x)) by (apply (proj1 (sp_rest _ _ _ _ _ K x Ix)); left; reflexivity).
  destruct St as [(y & Iy & Ty)|(y & z & Iy & Iz & NE & Vy & Vz)]; [exfalso; exact (NT _ Iy Ty)|].
  assert (Two : 2 <= length new).
  { subst new. apply filter_two with (x := y) (y := z); auto; [congruence| |]; apply lunk_iff; assumption. }
  pose proof (sp_clause _ _ _ _ _ K x Ix) as (C3 & CN & CB).
  assert (Inew : forall l, In l new <-> In l (s_lits (c_s c) x) /\ s_val (c_s c) (lit_var l) = None).
  { intros l. subst new. rewrite filter_In, lunk_iff. tauto. }
  assert (Nnew : NoDup (map lit_var new)) by (subst new; apply NoDup_map_filter; exact CN).
  assert (Eqv : forall a, (forall x y, s_val (c_s c) x = Some y -> a x = y) -> clause_holds a (s_lits (c_s c) x) = clause_holds a new).
  { intros a Ag. apply Bool.eq_iff_eq_true. rewrite !ch_in. split; intros (l & I & T); exists l.
    - split; [|exact T]. apply Inew. split; [exact I|]. destruct (value_cases (c_s c) l) as [Q|[Q|Q]]; [|exfalso|exact Q].
      + exfalso. exact (NT _ I Q).
      + rewrite (false_fails _ _ _ Ag Q) in T. discriminate.
    - split; [apply Inew; exact I|exact T]. }
  destruct (Nat.ltb_spec (length new) (length (s_lits (c_s c) x))) as [Sh|Sh].
  - eapply spec_bind; [apply add_step_spec; intros _ l I; apply Nm; apply Inew; exact I|]. intros c1 Fr1.
    eapply spec_bind; [apply add_step_spec; intros _; rewrite (frame_v _ _ Fr1); exact Nm|]. intros c2 Fr2.
    pose proof (frame_trans _ _ _ Fr1 Fr2) as (e & p & ->). clear Fr1 Fr2 c1.
    destruct new as [|l0 [|l1 [|l2 nr]]]; [cbn in Two; lia|cbn in Two; lia| |].
    + (* a binary clause *)
      apply spec_ret. cbv zeta. set (cb := add_binary_clause l0 l1 (cw_pf (set_error c e) p)).
      split; [|split; [exact Wn|split; [reflexivity|intros w; apply deleted_delete]]].
      destruct (sp_db _ _ _ _ _ K) as [Dc Du]. destruct (delete_header_core _ _ _ _ Dc Ix) as (Dc' & _ & Mk).
      assert (I0 : In l0 (s_lits (c_s c) x) /\ s_val (c_s c) (lit_var l0) = None) by (apply Inew; left; reflexivity).
      assert (I1 : In l1 (s_lits (c_s c) x) /\ s_val (c_s c) (lit_var l1) = None) by (apply Inew; right; left; reflexivity).
      assert (N01 : lit_var l0 <> lit_var l1).
      { cbn [map] in Nnew. inversion Nnew as [|? ? Q _]; subst. intros E. apply Q. left. symmetry. exact E. }
      assert (Bi : forall l o, In o (c_bin cb l) <-> In o (c_bin c l) \/ (l = lnot l0 /\ o = l1) \/ (l = lnot l1 /\ o = l0)).
      { intros l o. unfold cb. rewrite add_binary_in. reflexivity. }
      pose proof (sp_base _ _ _ _ _ K) as Ba.
      pose proof (proj1 (sp_used _ _ _ _ _ K)) as Us.
      assert (Hb2 : forall a, clause_holds a [l0; l1] = true -> clause_holds a [l1; l0] = true).
      { intros a. rewrite !ch_in. intros (u & I & T). exists u. split; [cbn in *; tauto|exact T]. }
      destruct K. constructor; cbn [cw_pf set_error cw_st cw_d c_s c_d c_v c_vs c_as]; auto;
        try (change (c_bin (cw_d cb (delete_header (c_s c) (c_d c) x))) with (c_bin cb)).
      * destruct Ba. constructor; assumption.
      * intros w I. apply live_delete in I as [I _]. apply sp_clause0. exact I.
      * intros l o I. apply Bi in I as [I|[[-> ->]|[-> ->]]].
        -- destruct (sp_bin0 _ _ I) as (B1 & B2 & B3 & B4). repeat (split; [assumption|]). apply Bi. left. exact B4.
        -- rewrite lnot_var. split; [apply CB; tauto|]. split; [apply CB; tauto|]. split; [congruence|].
           apply Bi. right. right. split; [reflexivity|apply lnot_invol].
        -- rewrite lnot_var. split; [apply CB; tauto|]. split; [apply CB; tauto|]. split; [congruence|].
           apply Bi. right. left. split; [reflexivity|apply lnot_invol].
      * intros l o I. apply Bi in I as [I|[[-> ->]|[-> ->]]]; [apply (sp_binopen0 _ _ I)| |]; rewrite lnot_var; tauto.
      * intros w I. apply live_delete in I as [I NEw]. destruct (sp_rest0 w I) as [R1 R2]. split; intros H.
        -- apply R1. right. exact H.
        -- apply R2. intros [->|H']; tauto.
      * split; [exact Dc'|]. intros w. change (c_d cb) with (c_d c). change (c_s cb) with (c_s c). rewrite Mk. apply Du.
      * split; [intros w l J1 J2; apply live_delete in J1 as [J1 _]; eapply Us; eassumption|].
        intros l o I. apply Bi in I as [I|[[-> ->]|[-> ->]]]; [apply (proj2 sp_used0 _ _ I)| |]; apply (Us x); tauto.
      * intros b M. destruct (sp_sound0 b M) as ((S1 & S2) & Kb & Ub). split; [split|split; assumption].
        -- intros w I. apply live_delete in I as [I _]. apply S1. exact I.
        -- assert (H : clause_holds (lift (c_v c) (c_s c) b) [l0; l1] = true).
           { rewrite <- Eqv; [apply S1; exact Ix|]. intros u w V. apply Kb. apply Fx. exact V. }
           intros l o I. apply Bi in I as [I|[[-> ->]|[-> ->]]]; [apply S2; exact I| |]; rewrite lnot_invol; [exact H|apply Hb2; exact H].
      * intros b S1 S2 Kb Ub. apply sp_comp0; auto.
        -- intros w [I Ti]. destruct (N.eq_dec w x) as [->|NEw].
           ++ rewrite Eqv; [|intros u v V; apply Kb; apply Fx; exact V].
              specialize (S2 (lnot l0) l1). rewrite lnot_invol in S2. apply S2. apply Bi. right. left. tauto.
           ++ apply S1. split; [apply live_delete; tauto|]. change (c_d cb) with (c_d c). rewrite htier_delete. exact Ti.
        -- intros l o I. apply S2. apply Bi. left. exact I.
    + (* shortened *)
      apply spec_ret. cbv zeta. remember (l0 :: l1 :: l2 :: nr) as new eqn:Enew.
      assert (N3 : 3 <= length new) by (subst new; cbn; lia). clear Enew.
      cbn [cw_pf set_error cw_st cw_s cw_d c_s c_d with_lits s_wen d_clauses].
      split; [|split; [exact Wn|split; [reflexivity|reflexivity]]].
      pose proof (sp_base _ _ _ _ _ K) as Ba.
      assert (Ul : forall w, upd (s_lits (c_s c)) x new w = if N.eqb w x then new else s_lits (c_s c) w) by reflexivity.
      destruct K. constructor; cbn [cw_pf set_error cw_st cw_s cw_d c_s c_d c_bin c_v c_vs c_as with_lits s_lits s_val s_trail s_decs s_head]; auto.
      * destruct Ba. constructor; assumption.
      * destruct sp_trail0. destruct sp_empty0 as (Et & Ed & Eh). constructor; cbn [with_lits s_lits s_val s_trail s_decs s_head s_depth s_reason s_level]; auto.
        intros q l Q. rewrite Et in Q. destruct q; discriminate.
      * intros w I. rewrite Ul. destruct (N.eqb_spec w x) as [->|]; [|apply sp_clause0; exact I].
        split; [exact N3|]. split; [exact Nnew|]. intros l J. apply CB. apply Inew. exact J.
      * intros w I. rewrite Ul. destruct (sp_rest0 w I) as [R1 R2]. destruct (N.eqb_spec w x) as [->|NEw].
        -- split; [tauto|]. intros _ l J. apply Inew. exact J.
        -- split; intros H; [apply R1; right; exact H|apply R2; intros [->|H']; tauto].
      * apply shrink_ok; [assumption|assumption|lia].
      * destruct sp_used0 as [U1 U2]. split; [|exact U2]. intros w l J1. rewrite Ul. destruct (N.eqb_spec w x) as [->|]; [|apply U1; exact J1].
        intros J2. apply (U1 x l Ix). apply Inew. exact J2.
      * intros b M. destruct (sp_sound0 b M) as ((S1 & S2) & Kb & Ub). split; [split|split; assumption].
        -- intros w I. cbn [with_lits s_lits]. rewrite Ul. destruct (N.eqb_spec w x) as [->|]; [|apply S1; exact I].
           change (clause_holds (lift (c_v c) (c_s c) b) new = true). rewrite <- Eqv; [apply S1; exact I|].
           intros u v V. apply Kb. apply Fx. exact V.
        -- exact S2.
      * intros b S1 S2 Kb Ub. apply sp_comp0; auto. intros w Iw. pose proof (S1 w Iw) as Q. cbn [with_lits s_lits] in Q. rewrite Ul in Q.
        destruct (N.eqb_spec w x) as [->|]; [|exact Q]. rewrite Eqv; [exact Q|]. intros u v V. apply Kb. apply Fx. exact V.
  - (* nothing to do *)
    apply spec_ret. cbv zeta. split; [|split; [exact Wn|split; reflexivity]].
    assert (All : forall l, In l (s_lits (c_s c) x) -> s_val (c_s c) (lit_var l) = None).
    { intros l I. apply lunk_iff. pose proof (filter_len (lunk (c_s c)) (s_lits (c_s c) x)).
      eapply (filter_all (lunk (c_s c))); [|exact I]. subst new. lia. }
    destruct K. constructor; auto. intros w I. destruct (sp_rest0 w I) as [R1 R2]. split; intros H; [apply R1; right; exact H|].
    destruct (N.eq_dec w x) as [->|]; [exact All|]. apply R2. intros [->|H']; tauto.
Qed.

Lemma simp_perm rest rest' done F A c : (forall x, In x (live (c_d c)) -> (In x rest <-> In x rest')) ->
  simp rest done F A c -> simp rest' done F A c.
Proof.
  intros H K. destruct K. constructor; auto. intros x I. rewrite <- (H x I). apply sp_rest0. exact I.
Qed.

Lemma filter_loop_spec F A : forall l c, NoDup l -> (forall x, In x l -> In x (d_clauses (c_d c))) ->
  simp l true F A c -> s_wen (c_s c) = false ->
  spec (filter_loop l c) (fun '(c', r) => simp [] true F A c' /\ s_wen (c_s c') = false /\
    d_clauses (c_d c') = d_clauses (c_d c) /\ r = filter (fun x => negb (deleted (c_d c') x)) l /\
    (forall x, ~ In x l -> deleted (c_d c') x = deleted (c_d c) x)).
Proof.
  induction l as [|x l IH]; intros c ND Sub K Wn; cbn [filter_loop].
  - apply spec_ret. split; [exact K|]. repeat (split; [assumption || reflexivity|]). reflexivity.
  - inversion ND as [|? ? NI ND']; subst. destruct (deleted (c_d c) x) eqn:Dx.
    + eapply spec_weaken; [apply IH; [exact ND'|intros y I; apply Sub; right; exact I| |exact Wn]|].
      * eapply simp_perm; [|exact K]. intros y I. cbn [In]. split; [intros [->|H]; [|exact H]|tauto].
        apply live_in in I as [_ I]. congruence.
      * intros [c' r] (K' & W' & Ec & Er & Ed). split; [exact K'|]. split; [exact W'|]. split; [exact Ec|].
        cbn [filter]. rewrite (Ed x NI), Dx. cbn [negb]. split; [exact Er|]. intros y Ny. apply Ed. intros I. apply Ny. right. exact I.
    + assert (Lx : In x (live (c_d c))) by (apply live_in; split; [apply Sub; left; reflexivity|exact Dx]).
      eapply spec_bind; [apply simplify_clause_spec; eassumption|]. intros [c1 keep]. cbv zeta.
      set (c2 := if keep then c1 else cw_d c1 (delete_header (c_s c1) (c_d c1) x)).
      intros (K2 & W2 & Ec2 & Ed2).
      eapply spec_bind; [apply IH; [exact ND'|intros y I; rewrite Ec2; apply Sub; right; exact I|exact K2|exact W2]|].
      intros [c' r] (K' & W' & Ec & Er & Ed). apply spec_ret. split; [exact K'|]. split; [exact W'|]. split; [congruence|].
      cbn [filter]. rewrite (Ed x NI), (Ed2 x), N.eqb_refl. split.
      * rewrite Er. destruct keep; [rewrite Dx|]; reflexivity.
      * intros y Ny. rewrite Ed by (intros I; apply Ny; right; exact I). rewrite Ed2.
        destruct (N.eqb_spec y x) as [->|]; [exfalso; apply Ny; left; reflexivity|]. destruct keep; reflexivity.
Qed.

Lemma filter_clauses_spec F A c : simp (live (c_d c)) true F A c ->
  spec (filter_clauses c) (fun c' => simp [] true F A c' /\ s_wen (c_s c') = false).
Proof.
  intros K. unfold filter_clauses. cbv zeta. set (c0 := cw_s c (disable_watchlists (c_s c))).
  assert (K0 : simp (d_clauses (c_d c0)) true F A c0).
  { eapply simp_perm with (rest := live (c_d c)).
    - intros x I. unfold c0 in I. cbn [cw_s c_d] in I. split; [intros _; apply live_in in I; apply I|intros _; exact I].
    - pose proof (sp_base _ _ _ _ _ K) as Ba. destruct K. constructor; auto.
      + destruct Ba. constructor; assumption.
      + destruct sp_trail0. constructor; assumption. }
  eapply spec_bind; [apply filter_loop_spec; [apply (dk_nodup _ _ _ (proj1 (sp_db _ _ _ _ _ K)))|auto|exact K0|reflexivity]|].
  intros [c1 r] (K1 & W1 & Ec & Er & _). apply spec_ret. split; [|exact W1].
  assert (El : r = live (c_d c1)) by (rewrite Er; unfold live; rewrite Ec; reflexivity). subst r.
  assert (LL : live (with_clauses (c_d c1) (live (c_d c1))) = live (c_d c1)).
  { unfold live. cbn [with_clauses d_clauses d_hdr deleted]. unfold deleted. cbn [with_clauses d_hdr]. apply filter_filter. }
  pose proof (sp_base _ _ _ _ _ K1) as Ba. rewrite El.
  assert (HT : forall x, htier (with_clauses (c_d c1) (live (c_d c1))) x = htier (c_d c1) x) by reflexivity.
  destruct K1. constructor; cbn [cw_d c_s c_d c_bin c_v c_vs c_as]; rewrite ?LL; auto.
  - destruct Ba. constructor; assumption.
  - destruct sp_db0 as [Dc Du]. split; [apply drop_deleted_core; exact Dc|exact Du].
  - intros b S1 S2 Kb Ub. apply sp_comp0; auto. intros x [I Ti]. apply S1. split; [rewrite LL; exact I|exact Ti].
Qed.

(** * Variables *)
Lemma codes_in n : forall i x, In x (codes n i) <-> (i <= x < i + N.of_nat n)%N.
Proof.
  induction n as [|n IH]; intros i x; cbn [codes In]; [split; [tauto|lia]|]. rewrite IH. split; [intros [->|H]; lia|].
  intros H. destruct (N.eq_dec i x); [left; assumption|right; lia].
Qed.

Lemma simp_clause_var F A c x : simp [] true F A c -> (forall g, v_gs (c_v c) x = Some g -> vd_isolated (v_data (c_v c) g) = true) \/ s_val (c_s c) x <> None ->
  (forall w l, In w (live (c_d c)) -> In l (s_lits (c_s c) w) -> lit_var l <> x) /\
  (forall l o, In o (c_bin c l) -> lit_var l <> x /\ lit_var o <> x).
Proof.
  intros K H.
  assert (Sy : forall l o, In o (c_bin c l) -> In (lnot l) (c_bin c (lnot o))) by (intros l o I; apply (sp_bin _ _ _ _ _ K) in I; apply I).
  split.
  - intros w l I1 I2 E. subst x. destruct H as [H|H].
    + destruct (proj1 (sp_used _ _ _ _ _ K) w l I1 I2) as (g & G & Q). specialize (H g G). congruence.
    + apply H. apply (proj2 (sp_rest _ _ _ _ _ K w I1)); [intros []|exact I2].
  - intros l o I. destruct (bin_use _ _ _ _ _ _ (sp_used _ _ _ _ _ K) Sy I) as [(g1 & G1 & Q1) (g2 & G2 & Q2)].
    pose proof (sp_binopen _ _ _ _ _ K _ _ I) as [V1 V2]. split; intros E; subst x; (destruct H as [H|H]; [|congruence]).
    + specialize (H _ G1). congruence.
    + specialize (H _ G2). congruence.
Qed.

(** Recording the value of a variable *)
Lemma simp_put F A c x g d : simp [] true F A c -> v_gs (c_v c) x = Some g ->
  d = match s_val (c_s c) x with
      | Some b => vd_set_isolated (vd_set_unit (v_data (c_v c) g) (Some b)) true
      | None => v_data (c_v c) g end ->
  simp [] true F A (cw_v c (v_put (c_v c) g d)).
Proof.
  intros K G Ed.
  assert (Sg : v_sg (c_v c) g = Some x) by (apply (vo_sg _ (b_vars _ (sp_base _ _ _ _ _ K))); exact G).
  pose proof (vo_used _ (b_vars _ (sp_base _ _ _ _ _ K)) _ _ Sg) as Dl.
  assert (Hd : vd_deleted d = vd_deleted (v_data (c_v c) g) /\ vd_mode d = vd_mode (v_data (c_v c) g) /\ vd_assumed d = vd_assumed (v_data (c_v c) g)).
  { rewrite Ed. destruct (s_val (c_s c) x); repeat split. }
  destruct Hd as (Hd1 & Hd2 & Hd3).
  assert (Hu : forall y, vd_unit d = Some y -> s_val (c_s c) x = Some y).
  { intros y U. rewrite Ed in U. destruct (s_val (c_s c) x) eqn:V; [cbn in U; congruence|].
    pose proof (sp_unit _ _ _ _ _ K _ _ _ Sg U). congruence. }
  assert (Hu2 : forall y, vd_unit (v_data (c_v c) g) = Some y -> vd_unit d = Some y).
  { intros y U. rewrite Ed. pose proof (sp_unit _ _ _ _ _ K _ _ _ Sg U) as Q. rewrite Q. reflexivity. }
  assert (Us : forall u, u <> x \/ s_val (c_s c) x = None -> in_use (c_v c) u -> in_use (v_put (c_v c) g d) u).
  { intros u H (g' & G' & Q). exists g'. split; [exact G'|]. cbn [v_put set_data v_data]. unfold upd. destruct (N.eqb_spec g' g) as [->|]; [|exact Q].
    assert (u = x) as -> by (apply (vo_sg _ (b_vars _ (sp_base _ _ _ _ _ K))) in G'; congruence).
    destruct H as [H|H]; [congruence|]. rewrite Ed, H. exact Q. }
  pose proof (sp_base _ _ _ _ _ K) as Ba. pose proof (simp_clause_var F A c x K) as CV.
  pose proof (fun x y => simp_fixed _ _ _ _ _ x y K) as Fx.
  assert (Ev : s_val (c_s c) x = None \/ s_val (c_s c) x <> None) by (destruct (s_val (c_s c) x); [right|left]; congruence).
  destruct K. constructor; cbn [cw_v c_s c_d c_bin c_v c_vs c_as v_put set_data v_slen v_gs v_sg]; auto.
  - destruct Ba. constructor; cbn [cw_v c_v c_vs c_as c_an]; auto.
    + apply v_put_ok; [assumption|exact Hd1|intros _; rewrite Hd2; tauto].
    + intros g'. cbn [v_put set_data v_data v_ug]. unfold upd. destruct (N.eqb_spec g' g) as [->|]; [rewrite Hd1, Hd3|]; apply b_shown.
    + intros l I. destruct (b_as _ I) as (g' & G' & Q). exists g'. split; [exact G'|]. cbn [v_put set_data v_data]. unfold upd.
      destruct (N.eqb_spec g' g) as [->|]; [congruence|exact Q].
  - destruct sp_used0 as [U1 U2]. split.
    + intros w l I1 I2. apply Us; [|eapply U1; eassumption]. destruct Ev as [Ev|Ev]; [tauto|]. left.
      apply (proj1 (CV (or_intror Ev)) w l I1 I2).
    + intros l o I. apply Us; [|eapply U2; eassumption]. destruct Ev as [Ev|Ev]; [tauto|]. left.
      apply (proj2 (CV (or_intror Ev)) l o I).
  - intros g' x' y Sg'. cbn [v_put set_data v_data]. unfold upd. destruct (N.eqb_spec g' g) as [->|].
    + intros U. assert (x' = x) as -> by congruence. apply Hu. exact U.
    + apply sp_unit0. exact Sg'.
  - intros b M. destruct (sp_sound0 b M) as (S & Kb & Ub). split; [exact S|]. split; [exact Kb|].
    intros g' y. cbn [v_put set_data v_data]. unfold upd. destruct (N.eqb_spec g' g) as [->|]; [|apply Ub].
    intros _ U. apply Hu in U. specialize (Kb x y (proj2 (Fx x y) U)). unfold lift in Kb. rewrite G in Kb. exact Kb.
  - intros b S1 S2 Kb Ub. apply agree_alive with (v := c_v c).
    { intros g'. cbn [v_put set_data v_data]. unfold upd. destruct (N.eqb_spec g' g) as [->|]; [rewrite Hd1|]; auto. }
    apply sp_comp0; auto. intros g' y D U. destruct (N.eq_dec g' g) as [->|NE].
    + apply (Ub g y); cbn [v_put set_data v_data]; rewrite upd_eq; [congruence|apply Hu2; exact U].
    + apply (Ub g' y); cbn [v_put set_data v_data]; rewrite upd_ne by exact NE; assumption.
  - intros a I. cbn [v_put set_data v_data]. unfold upd. destruct (N.eqb_spec (lit_var a) g) as [E|]; [rewrite Hd1, Hd3, <- E|]; apply sp_kept0; exact I.
Qed.

(** Removing a variable that is isolated and not assumed *)
Lemma simp_unuse F A c x g : simp [] true F A c -> v_gs (c_v c) x = Some g ->
  vd_isolated (v_data (c_v c) g) = true -> vd_assumed (v_data (c_v c) g) = false ->
  (forall y, s_val (c_s c) x = Some y -> vd_unit (v_data (c_v c) g) = Some y) ->
  simp [] true F A (cw_v (cw_vs c (vsids_make_unavailable (c_vs c) x)) (v_unuse (c_v c) x g)).
Proof.
  intros K G Iso Nas Un.
  assert (Sg : v_sg (c_v c) g = Some x) by (apply (vo_sg _ (b_vars _ (sp_base _ _ _ _ _ K))); exact G).
  pose proof (vo_used _ (b_vars _ (sp_base _ _ _ _ _ K)) _ _ Sg) as Dl.
  destruct (vstep_wf (c_vs c) (OUnavail x) (vsids_make_unavailable (c_vs c) x) None (b_wf _ (sp_base _ _ _ _ _ K)) eq_refl) as [W' H'].
  cbn [avail_after] in H'.
  assert (Gs : forall u, v_gs (v_unuse (c_v c) x g) u = if N.eqb u x then None else v_gs (c_v c) u) by reflexivity.
  assert (Sgs : forall u, v_sg (v_unuse (c_v c) x g) u = if N.eqb u g then None else v_sg (c_v c) u) by reflexivity.
  assert (Lf : forall b u, u <> x -> lift (v_unuse (c_v c) x g) (c_s c) b u = lift (c_v c) (c_s c) b u).
  { intros b u NE. unfold lift. rewrite Gs. destruct (N.eqb_spec u x); [congruence|reflexivity]. }
  assert (CV := simp_clause_var F A c x K).
  destruct CV as [CV1 CV2]. { left. intros g' G'. congruence. }
  assert (Us : forall u, u <> x -> in_use (c_v c) u -> in_use (v_unuse (c_v c) x g) u).
  { intros u NE (g' & G' & Q). exists g'. split; [|exact Q]. rewrite Gs. destruct (N.eqb_spec u x); [congruence|exact G']. }
  assert (As : forall l, In l (as_lits (c_as c)) -> lit_var l <> x).
  { intros l I E. destruct (b_as _ (sp_base _ _ _ _ _ K) l I) as (g' & G' & Q). rewrite E in G'. congruence. }
  assert (CH : forall b w, In w (live (c_d c)) -> clause_holds (lift (v_unuse (c_v c) x g) (c_s c) b) (s_lits (c_s c) w) = clause_holds (lift (c_v c) (c_s c) b) (s_lits (c_s c) w)).
  { intros b w I. apply ch_ext. intros l J. apply Lf. eapply CV1; eassumption. }
  assert (CB : forall b l o, In o (c_bin c l) -> clause_holds (lift (v_unuse (c_v c) x g) (c_s c) b) [lnot l; o] = clause_holds (lift (c_v c) (c_s c) b) [lnot l; o]).
  { intros b l o I. apply ch_ext. intros u J. apply Lf. destruct (CV2 _ _ I). destruct J as [<-|[<-|[]]]; rewrite ?lnot_var; assumption. }
  pose proof (fun x y => simp_fixed _ _ _ _ _ x y K) as Fx.
  pose proof (sp_base _ _ _ _ _ K) as Ba.
  destruct K. constructor; cbn [cw_v cw_vs c_s c_d c_bin c_v c_vs c_as]; auto.
  - destruct Ba. constructor; cbn [cw_v cw_vs c_v c_vs c_as c_an]; auto.
    + apply v_unuse_ok; assumption.
    + intros u I. apply H' in I as [NE I]. rewrite Gs. destruct (N.eqb_spec u x); [congruence|apply b_heap; exact I].
    + intros l I. destruct (b_as _ I) as (g' & G' & Q). exists g'. split; [|exact Q]. rewrite Gs.
      destruct (N.eqb_spec (lit_var l) x) as [E|]; [exfalso; exact (As l I E)|exact G'].
  - destruct sp_used0 as [U1 U2]. split.
    + intros w l I1 I2. apply Us; [eapply CV1; eassumption|eapply U1; eassumption].
    + intros l o I. apply Us; [apply (CV2 _ _ I)|eapply U2; eassumption].
  - intros u. rewrite Gs. destruct (N.eqb_spec u x); [congruence|]. intros Gu V. apply H'. split; [assumption|]. apply sp_open0; assumption.
  - intros g' u y. rewrite Sgs. destruct (N.eqb_spec g' g); [discriminate|]. apply sp_unit0.
  - intros b M. destruct (sp_sound0 b M) as ((S1 & S2) & Kb & Ub). split; [split|split].
    + intros w I. rewrite CH by exact I. apply S1. exact I.
    + intros l o I. rewrite CB by exact I. apply S2. exact I.
    + intros u y Q. destruct (N.eq_dec u x) as [->|NE]; [|rewrite Lf by exact NE; apply Kb; exact Q].
      apply Fx in Q. unfold lift. rewrite Gs, N.eqb_refl, Q. reflexivity.
    + exact Ub.
  - intros b S1 S2 Kb Ub. apply (agree_alive F (c_v c)); [auto|]. apply sp_comp0; auto.
    + intros w Iw. rewrite <- CH by apply Iw. apply S1. exact Iw.
    + intros l o I. rewrite <- CB by exact I. apply S2. exact I.
    + intros u y Q. destruct (N.eq_dec u x) as [->|NE]; [|rewrite <- Lf by exact NE; apply Kb; exact Q].
      unfold lift. rewrite G. apply (Ub g y Dl). apply Un. exact (proj1 (Fx x y) Q).
  - intros l g' I. rewrite Gs. destruct (N.eqb_spec (lit_var l) x) as [E|]; [exfalso; exact (As l I E)|]. apply sp_in0. exact I.
  - intros b M S. apply sp_all0; [exact M|]. intros l I. rewrite <- (S l I). apply lh_ext. symmetry. apply Lf. apply As. exact I.
Qed.

(** Dropping a variable that is hidden and not used *)
Lemma drop_complete F v I bin s g : v_sg v g = None -> vars_ok v -> complete F v I bin s -> complete F (v_drop v g) I bin s.
Proof.
  intros Sg V H b S1 S2 Kb Ub.
  set (b2 := fun x => if N.eqb x g then match vd_unit (v_data v g) with Some y => y | None => b g end else b x).
  assert (Lf : forall x, lift v s b2 x = lift (v_drop v g) s b x).
  { intros x. unfold lift. cbn [v_drop v_gs]. destruct (v_gs v x) as [g'|] eqn:G; [|reflexivity]. unfold b2. destruct (N.eqb_spec g' g) as [->|]; [|reflexivity].
    apply (vo_sg _ V) in G. congruence. }
  destruct (H b2) as (b' & Ag & M).
  - intros c Ic. rewrite <- (S1 c Ic). apply ch_ext. intros l _. apply Lf.
  - intros l o Io. rewrite <- (S2 l o Io). apply ch_ext. intros u _. apply Lf.
  - intros x y Q. rewrite Lf. apply Kb. exact Q.
  - intros h y D U. unfold b2. destruct (N.eqb_spec h g) as [->|NE]; [rewrite U; reflexivity|]. apply Ub; cbn [v_drop v_data]; rewrite upd_ne by exact NE; assumption.
  - exists b'. split; [|exact M]. intros h D. cbn [v_drop v_data] in D. unfold upd in D. destruct (N.eqb_spec h g) as [E|NE]; [discriminate D|].
    rewrite (Ag h D). unfold b2. destruct (N.eqb_spec h g); [congruence|reflexivity].
Qed.
Lemma drop_units v g b : units_hold v b -> units_hold (v_drop v g) b.
Proof. intros U g' y. cbn [v_drop v_data]. unfold upd. destruct (N.eqb_spec g' g) as [->|]; [discriminate|apply U]. Qed.
Lemma drop_use v g x : in_use v x -> in_use (v_drop v g) x.
Proof.
  intros (g' & G & Q). exists g'. split; [exact G|]. cbn [v_drop v_data]. unfold upd. destruct (N.eqb_spec g' g) as [->|]; exact Q.
Qed.
Lemma drop_kept v g A : vars_ok v -> v_ug v g = None -> (forall g, vd_deleted (v_data v g) = false -> vd_assumed (v_data v g) = true -> v_ug v g <> None) ->
  as_kept v A -> as_kept (v_drop v g) A.
Proof.
  intros V U Sh K a I. destruct (K a I) as [K1 K2]. cbn [v_drop v_data]. unfold upd. destruct (N.eqb_spec (lit_var a) g) as [E|]; [|auto].
  exfalso. apply (Sh _ K1 K2). congruence.
Qed.
Lemma drop_base c g : base c -> v_ug (c_v c) g = None -> v_sg (c_v c) g = None -> base (cw_v c (v_drop (c_v c) g)).
Proof.
  intros [V Sh W Hp As Fl] U S. constructor; cbn [cw_v c_v c_vs c_as c_an]; auto.
  - apply v_drop_ok; assumption.
  - intros g'. cbn [v_drop v_data v_ug]. unfold upd. destruct (N.eqb_spec g' g) as [->|]; [discriminate|apply Sh].
  - intros l I. destruct (As l I) as (g' & G & Q). exists g'. split; [exact G|]. cbn [v_drop v_data]. unfold upd. destruct (N.eqb_spec g' g) as [->|]; exact Q.
Qed.
Lemma simp_drop F A c g : simp [] true F A c -> v_ug (c_v c) g = None -> v_sg (c_v c) g = None ->
  simp [] true F A (cw_v c (v_drop (c_v c) g)).
Proof.
  intros K U S. pose proof (sp_base _ _ _ _ _ K) as Ba. pose proof (drop_base _ _ Ba U S) as Bd.
  destruct K. constructor; cbn [cw_v c_s c_d c_bin c_v c_vs c_as]; auto.
  - destruct sp_used0 as [U1 U2]. split; [intros w l I1 I2|intros l o I]; apply drop_use; eauto.
  - intros g' x y Sg. cbn [v_drop v_data v_sg] in *. unfold upd. destruct (N.eqb_spec g' g) as [->|]; [congruence|]. apply sp_unit0. exact Sg.
  - intros b M. destruct (sp_sound0 b M) as (S1 & Kb & Ub). split; [exact S1|]. split; [exact Kb|]. apply drop_units. exact Ub.
  - apply drop_complete; [exact S|apply Ba|exact sp_comp0].
  - apply drop_kept; [apply Ba|exact U|exact (b_shown _ Ba)|exact sp_kept0].
Qed.

Lemma simplify_var_spec F A x c : simp [] true F A c -> s_wen (c_s c) = false ->
  spec (simplify_var x c) (fun c' => simp [] true F A c' /\ s_wen (c_s c') = false).
Proof.
  intros K Wn. unfold simplify_var. destruct (v_gs (c_v c) x) as [g|] eqn:G; [|apply spec_ret; auto]. cbv zeta.
  remember (match s_val (c_s c) x with Some b => _ | None => _ end) as d eqn:Ed.
  pose proof (simp_put F A c x g d K G Ed) as K1. unfold v_put in K1.
  set (c1 := cw_v c (set_data (c_v c) (upd (v_data (c_v c)) g d))) in *.
  destruct (vd_isolated d) eqn:Iso, (vd_assumed d) eqn:As; cbn [andb negb]; try (apply spec_ret; split; [exact K1|exact Wn]).
  assert (G1 : v_gs (c_v c1) x = Some g) by exact G.
  assert (D1 : v_data (c_v c1) g = d) by (unfold c1; cbn [cw_v c_v set_data v_data]; apply upd_eq).
  eapply spec_weaken; [apply remove_solver_var_spec; [apply (sp_base _ _ _ _ _ K1)|exact G1]|].
  assert (Ku : simp [] true F A (cw_v (cw_vs c1 (vsids_make_unavailable (c_vs c1) x)) (v_unuse (c_v c1) x g))).
  { apply simp_unuse; try assumption; rewrite ?D1; auto.
    intros y V. change (s_val (c_s c1) x) with (s_val (c_s c) x) in V. rewrite V in Ed. rewrite Ed. reflexivity. }
  intros c' (v' & [->|(Ug & _ & _ & ->)] & Fr); (split; [|destruct Fr as (e & p & ->); exact Wn]); (eapply simp_frame; [exact Fr|]).
  - exact Ku.
  - apply (simp_drop _ _ _ g Ku); [exact Ug|]. cbn [cw_v c_v v_unuse v_sg]. apply upd_eq.
Qed.
Lemma simplify_vars_spec F A : forall l c, simp [] true F A c -> s_wen (c_s c) = false ->
  spec (simplify_vars l c) (fun c' => simp [] true F A c' /\ s_wen (c_s c') = false).
Proof.
  induction l as [|x l IH]; intros c K Wn; cbn [simplify_vars]; [apply spec_ret; auto|].
  eapply spec_bind; [apply (simplify_var_spec F A); assumption|]. intros c1 [K1 W1]. apply IH; assumption.
Qed.

(** The result is a state of the search again. *)
Lemma simp_inv F A c : simp [] true F A c -> s_wen (c_s c) = false -> inv false F A c.
Proof.
  intros K Wn. destruct (sp_empty _ _ _ _ _ K) as (Et & Ed & Eh). pose proof (fun x y => simp_fixed _ _ _ _ _ x y K) as Fx.
  split; [|unfold low; rewrite Ed, Et; split; [exact Eh|intros l []]].
  destruct K. constructor; auto.
  - constructor; auto.
    + constructor; auto; rewrite ?Et.
      * eapply live_nodup. apply sp_db0.
      * intros w l I1 I2 NV. exfalso. apply NV. apply (proj2 (sp_rest0 w I1)); [intros []|exact I2].
      * intros l o I NV. exfalso. apply NV. apply (sp_binopen0 _ _ I).
      * intros l w [].
      * intros l w [].
    + congruence.
    + constructor.
      * intros w c0 c1 r u _ _ _ (p & B & _). rewrite Eh in B. lia.
      * intros l o _ (p & B & _). rewrite Eh in B. lia.
  - rewrite Et. intros l [].
  - intros g x y G U. apply Fx. eapply sp_unit0; eassumption.
  - intros i p. rewrite Ed. destruct i; discriminate.
Qed.

Lemma unit_simplify_spec F A c : simp (live (c_d c)) false F A c ->
  spec (unit_simplify c) (fun c' => inv false F A c' /\ s_trail (c_s c') = [] /\ s_head (c_s c') = 0 /\ s_decs (c_s c') = []).
Proof.
  intros K. unfold unit_simplify. eapply spec_bind; [apply simplify_binary_spec; exact K|]. intros c1 (K1 & _ & _).
  eapply spec_bind; [apply filter_clauses_spec; exact K1|]. intros c2 (K2 & W2).
  eapply spec_weaken; [apply simplify_vars_spec; [exact K2|exact W2]|]. intros c' [K' W'].
  split; [apply simp_inv; assumption|]. destruct (sp_empty _ _ _ _ _ K') as (A1 & A2 & A3). auto.
Qed.
