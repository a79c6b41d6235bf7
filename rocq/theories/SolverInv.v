(** The invariant of the solver between the steps of the search, and what keeps it. *)
From Coq Require Import Lia Arith PeanoNat Permutation ZArith ZifyBool ZifyNat ZifyN.
From Verif Require Import Spec Lit LitProofs BinFormat Hash F32 Vsids VsidsProofs VsidsWf Luby Config Search SearchBase
  Propagate P_Search ClauseDb DbProofs Analyze AnalyzeProofs SolverCtx CtxFrame VarsProofs Solver.
Local Open Scope nat_scope.

Lemma lo_var x p : lit_var (lit_of x p) = x.
Proof. unfold lit_of. rewrite lit_var_div. apply div2_val. Qed.
Lemma lo_pos x p : is_positive (lit_of x p) = p.
Proof. unfold lit_of. rewrite is_positive_even, odd_val. apply negb_involutive. Qed.
Lemma lo_eta l : lit_of (lit_var l) (is_positive l) = l.
Proof. unfold lit_of. rewrite lit_var_div, is_positive_even. rewrite (div2_odd_eq l) at 3. destruct (N.odd l); reflexivity. Qed.

Lemma ch_ext a b c : (forall l, In l c -> a (lit_var l) = b (lit_var l)) -> clause_holds a c = clause_holds b c.
Proof.
  intros H. apply Bool.eq_iff_eq_true. rewrite !ch_in. split; intros (l & I & T); exists l; (split; [exact I|]);
    rewrite lh_true in *; rewrite <- T; [symmetry|]; apply H; exact I.
Qed.
Lemma lh_ext a b l : a (lit_var l) = b (lit_var l) -> lit_holds a l = lit_holds b l.
Proof. intros H. apply Bool.eq_iff_eq_true. rewrite !lh_true, H. reflexivity. Qed.

(** What the clauses of the user say about the global variables; variables that have been hidden and
    dropped are not part of it any more. *)
Definition problem := (N -> bool) -> Prop.
Definition models (b : N -> bool) (F : problem) : Prop := F b.

(** * Assignments of the solver's variables *)
(** The assignment of the solver's variables that belongs to one of the global variables; names
    that are not in use keep the value they have. *)
Definition lift (v : vars) (s : search) (b : N -> bool) (x : N) : bool :=
  match v_gs v x with
  | Some g => b g
  | None => match s_val s x with Some y => y | None => false end
  end.

(** Values that do not depend on decisions *)
Definition fixv (s : search) (x : N) (y : bool) : Prop :=
  s_val s x = Some y /\ (~ In x (map lit_var (s_trail s)) \/ s_level s x = 0).

Definition units_hold (v : vars) (b : N -> bool) : Prop :=
  forall g y, vd_deleted (v_data v g) = false -> vd_unit (v_data v g) = Some y -> b g = y.

(** All solutions of the formula satisfy the clauses stored and the values known, *)
Definition sound (F : problem) (v : vars) (L : list N) (bin : N -> list N) (s : search) : Prop :=
  forall b, models b F ->
    sat_store L bin (s_lits s) (lift v s b) /\ (forall x y, fixv s x y -> lift v s b x = y) /\ units_hold v b.
(** and what satisfies the irredundant ones and the values known is a solution, up to the values of dropped variables. *)
Definition agree (v : vars) (b b' : N -> bool) : Prop := forall g, vd_deleted (v_data v g) = false -> b' g = b g.
Definition complete (F : problem) (v : vars) (I : N -> Prop) (bin : N -> list N) (s : search) : Prop :=
  forall b, (forall c, I c -> clause_holds (lift v s b) (s_lits s c) = true) ->
    (forall l o, In o (bin l) -> clause_holds (lift v s b) [lnot l; o] = true) ->
    (forall x y, fixv s x y -> lift v s b x = y) -> units_hold v b -> exists b', agree v b b' /\ models b' F.

Lemma agree_alive (F : problem) v v' b : (forall g, vd_deleted (v_data v' g) = false -> vd_deleted (v_data v g) = false) ->
  (exists b', agree v b b' /\ models b' F) -> exists b', agree v' b b' /\ models b' F.
Proof. intros H (b' & A & M). exists b'. split; [|exact M]. intros g D. apply A. apply H. exact D. Qed.

Lemma lift_agree v s b b' x : vars_ok v -> agree v b b' -> lift v s b' x = lift v s b x.
Proof. intros K A. unfold lift. destruct (v_gs v x) as [g|] eqn:G; [|reflexivity]. apply A. apply (vo_used _ K g x). apply (vo_sg _ K). exact G. Qed.

Definition irred (d : cdb) (c : N) : Prop := In c (live d) /\ htier d c = Irred.

(** * The invariant *)
Definition in_use (v : vars) (x : N) : Prop := exists g, v_gs v x = Some g /\ vd_isolated (v_data v g) = false.

(** In all states *)
Record base (c : ctx) : Prop := {
  b_vars : vars_ok (c_v c);
  b_shown : forall g, vd_deleted (v_data (c_v c) g) = false -> vd_assumed (v_data (c_v c) g) = true -> v_ug (c_v c) g <> None;
  b_wf : wf (c_vs c);
  b_heap : forall x, In x (vs_heap (c_vs c)) -> v_gs (c_v c) x <> None;
  b_as : forall l, In l (as_lits (c_as c)) ->
           exists g, v_gs (c_v c) (lit_var l) = Some g /\ vd_assumed (v_data (c_v c) g) = true;
  b_flags : (forall v, a_flags (c_an c) v = false) /\ a_clean (c_an c) = [] /\ a_fuel (c_an c) = false }.

(** Level 0 has only units that are not propagated yet, or nothing. *)
Definition low (s : search) : Prop :=
  match s_decs s with
  | [] => s_head s = 0 /\ forall l, In l (s_trail s) -> s_reason s (lit_var l) = RUnit
  | p :: _ => p = 0
  end.

(** The clauses stored have distinct variables in use. *)
Definition clauses_used (v : vars) (L : list N) (bin : N -> list N) (lits : N -> list N) : Prop :=
  (forall c x, In c L -> In x (lits c) -> in_use v (lit_var x)) /\
  (forall l o, In o (bin l) -> in_use v (lit_var o)).

(** The first decisions are the assumptions. *)
Definition decs_as (s : search) (as_ : list N) : Prop :=
  forall i p, nth_error (s_decs s) i = Some p -> i < length as_ -> nth_error (s_trail s) p = nth_error as_ i.

(** The assumptions still listed are among those set, and imply the others. *)
Definition as_in (v : vars) (as_ A : list N) : Prop :=
  forall l g, In l as_ -> v_gs v (lit_var l) = Some g -> In (lit_of g (is_positive l)) A.
Definition as_all (F : problem) (v : vars) (s : search) (as_ A : list N) : Prop :=
  forall b, models b F -> (forall l, In l as_ -> lit_holds (lift v s b) l = true) ->
    forall a, In a A -> lit_holds b a = true.

(** The variables of the assumptions set cannot be hidden. *)
Definition as_kept (v : vars) (A : list N) : Prop :=
  forall a, In a A -> vd_deleted (v_data v (lit_var a)) = false /\ vd_assumed (v_data v (lit_var a)) = true.

Record core (f : bool) (F : problem) (A : list N) (c : ctx) : Prop := {
  iv_base : base c;
  iv_search : search_inv (v_slen (c_v c)) (live (c_d c)) (c_bin c) f (c_s c);
  iv_db : db_ok (s_lits (c_s c)) (c_d c);
  iv_trail : forall l, In l (s_trail (c_s c)) -> v_gs (c_v c) (lit_var l) <> None;
  iv_used : clauses_used (c_v c) (live (c_d c)) (c_bin c) (s_lits (c_s c));
  iv_open : forall x, v_gs (c_v c) x <> None -> s_val (c_s c) x = None -> In x (vs_heap (c_vs c));
  iv_unit : forall g x y, v_sg (c_v c) g = Some x -> vd_unit (v_data (c_v c) g) = Some y -> fixv (c_s c) x y;
  iv_sound : sound F (c_v c) (live (c_d c)) (c_bin c) (c_s c);
  iv_comp : complete F (c_v c) (irred (c_d c)) (c_bin c) (c_s c);
  iv_dec : decs_as (c_s c) (as_lits (c_as c));
  iv_in : as_in (c_v c) (as_lits (c_as c)) A;
  iv_kept : as_kept (c_v c) A;
  iv_all : as_all F (c_v c) (c_s c) (as_lits (c_as c)) A }.
Definition inv (f : bool) (F : problem) (A : list N) (c : ctx) : Prop := core f F A c /\ low (c_s c).

Lemma base_frame c c' : frame c c' -> base c -> base c'.
Proof. intros (e & p & ->) K. destruct K. constructor; assumption. Qed.
Lemma core_frame f F A c c' : frame c c' -> core f F A c -> core f F A c'.
Proof. intros (e & p & ->) K. destruct K. constructor; try assumption. eapply base_frame; [|eassumption]. eexists _, _. reflexivity. Qed.

Lemma inv_frame f F A c c' : frame c c' -> inv f F A c -> inv f F A c'.
Proof. intros X [K Lo]. split; [eapply core_frame; eassumption|]. destruct X as (e & p & ->). exact Lo. Qed.

(** * Meaning is kept *)
Lemma lift_ext v s s' b x : (v_gs v x = None -> s_val s' x = s_val s x) -> lift v s' b x = lift v s b x.
Proof. unfold lift. intros H. destruct (v_gs v x); [reflexivity|]. rewrite H; reflexivity. Qed.

Definition same_absent (v : vars) (s s' : search) : Prop := forall x, v_gs v x = None -> s_val s' x = s_val s x.
Definition same_fixed (s s' : search) : Prop := forall x y, fixv s' x y <-> fixv s x y.

Lemma ch_perm a c c' : Permutation c c' -> clause_holds a c = clause_holds a c'.
Proof.
  intros P. apply Bool.eq_iff_eq_true. rewrite !ch_in. split; intros (l & I & T); exists l; (split; [|exact T]).
  - eapply Permutation_in; eassumption.
  - eapply Permutation_in; [apply Permutation_sym|]; eassumption.
Qed.
Lemma ch_lift v s s' b c : same_absent v s s' -> clause_holds (lift v s' b) c = clause_holds (lift v s b) c.
Proof. intros E. apply ch_ext. intros l _. apply lift_ext. apply E. Qed.
Lemma lh_lift v s s' b l : same_absent v s s' -> lit_holds (lift v s' b) l = lit_holds (lift v s b) l.
Proof. intros E. apply lh_ext. apply lift_ext. apply E. Qed.

Lemma sound_same F v L bin s s' : same_absent v s s' -> same_fixed s s' ->
  (forall c, In c L -> Permutation (s_lits s c) (s_lits s' c)) -> sound F v L bin s -> sound F v L bin s'.
Proof.
  intros E X P H b M. destruct (H b M) as ((S1 & S2) & K & U). split; [split|split; [|exact U]].
  - intros c I. rewrite ch_lift with (s := s) by exact E. rewrite <- (ch_perm _ _ _ (P c I)). apply S1; exact I.
  - intros l o I. rewrite ch_lift with (s := s) by exact E. apply S2; exact I.
  - intros x y Q. rewrite lift_ext with (s := s) by apply E. apply K. apply X. exact Q.
Qed.
Lemma complete_same F v (I : N -> Prop) bin s s' : same_absent v s s' -> same_fixed s s' ->
  (forall c, I c -> Permutation (s_lits s c) (s_lits s' c)) -> complete F v I bin s -> complete F v I bin s'.
Proof.
  intros E X P H b S1 S2 K U. apply H.
  - intros c Ic. rewrite (ch_perm _ _ _ (P c Ic)). rewrite <- ch_lift with (s' := s') by exact E. apply S1; exact Ic.
  - intros l o Il. rewrite <- ch_lift with (s' := s') by exact E. apply S2; exact Il.
  - intros x y Q. rewrite <- lift_ext with (s' := s') by apply E. apply K. apply X. exact Q.
  - exact U.
Qed.
Lemma as_all_same F v s s' as_ A : same_absent v s s' -> as_all F v s as_ A -> as_all F v s' as_ A.
Proof. intros E H b M S. apply H; [exact M|]. intros l I. rewrite <- lh_lift with (s' := s') by exact E. apply S. exact I. Qed.

(** Changes of the search that keep the values known *)
Lemma core_search f f' F A c s' vs' : core f F A c ->
  search_inv (v_slen (c_v c)) (live (c_d c)) (c_bin c) f' s' ->
  (forall x, Permutation (s_lits (c_s c) x) (s_lits s' x)) ->
  (forall l, In l (s_trail s') -> v_gs (c_v c) (lit_var l) <> None) ->
  wf vs' -> (forall x, In x (vs_heap vs') -> v_gs (c_v c) x <> None) ->
  (forall x, v_gs (c_v c) x <> None -> s_val s' x = None -> In x (vs_heap vs')) ->
  same_fixed (c_s c) s' -> same_absent (c_v c) (c_s c) s' -> decs_as s' (as_lits (c_as c)) ->
  core f' F A (cw_vs (cw_s c s') vs').
Proof.
  intros K S P T W Hp O Fx Ab D. destruct K. constructor; cbn [cw_vs cw_s c_s c_d c_bin c_v c_vs c_as]; auto.
  - destruct iv_base0. constructor; auto.
  - eapply db_ok_perm; [|exact iv_db0]. exact P.
  - destruct iv_used0 as [U1 U2]. split; [|exact U2]. intros x l I1 I2. eapply U1; [exact I1|].
    eapply Permutation_in; [apply Permutation_sym, P|exact I2].
  - intros g x y G U. apply Fx. eapply iv_unit0; eassumption.
  - eapply sound_same; [exact Ab|exact Fx|intros; apply P|exact iv_sound0].
  - eapply complete_same; [exact Ab|exact Fx|intros; apply P|exact iv_comp0].
  - eapply as_all_same; eassumption.
Qed.

(** * Decisions *)
Lemma fixv_decide n s l : trail_ok n s -> s_val s (lit_var l) = None -> same_fixed s (decide s l).
Proof.
  intros T U x y. unfold fixv, decide, enqueue, new_decision_level. cbn [s_val s_trail s_level with_decs s_decs].
  rewrite map_app, in_app_iff. cbn [map]. rewrite app_length. cbn [length].
  destruct (N.eq_dec x (lit_var l)) as [->|NE].
  - rewrite !upd_eq, U. split; [intros [_ [H|H]]; [exfalso; apply H; right; left; reflexivity|lia]|intros [H _]; discriminate].
  - rewrite !upd_ne by exact NE. split; intros [V [H|H]]; (split; [exact V|]); auto.
    left. intros [Q|[Q|[]]]; [tauto|congruence].
Qed.
Lemma decide_search n L bin s l : search_inv n L bin false s -> s_head s = length (s_trail s) ->
  s_val s (lit_var l) = None -> (lit_var l < n)%N -> search_inv n L bin false (decide s l).
Proof.
  intros [T S W P] H U B. constructor.
  - apply decide_ok; assumption.
  - eapply decide_store; eassumption.
  - intros E. apply W in E. destruct E. constructor; assumption.
  - eapply decide_prop; eassumption.
Qed.
Lemma low_decide s l : low s -> (s_decs s = [] -> s_trail s = []) -> low (decide s l).
Proof.
  unfold low, decide, enqueue, new_decision_level. cbn [s_decs with_decs]. intros Lo H.
  destruct (s_decs s); cbn [app]; [rewrite (H eq_refl); reflexivity|exact Lo].
Qed.
Lemma decs_as_decide n s l as_ : trail_ok n s -> decs_as s as_ ->
  (clevel s < length as_ -> nth_error as_ (clevel s) = Some l) -> decs_as (decide s l) as_.
Proof.
  unfold decs_as, decide, enqueue, new_decision_level. cbn [s_decs s_trail with_decs]. intros T D H i p E I.
  apply nth_error_snoc in E as [[B E]|[-> ->]].
  - rewrite nth_error_app1; [apply D; assumption|].
    apply nth_error_In in E. apply (tk_decs _ _ T) in E. lia.
  - rewrite nth_error_app2 by lia. rewrite Nat.sub_diag. cbn [nth_error]. symmetry. apply H. exact I.
Qed.

Lemma inv_decide F A c l vs' : inv false F A c -> s_head (c_s c) = length (s_trail (c_s c)) ->
  (s_decs (c_s c) = [] -> s_trail (c_s c) = []) ->
  s_val (c_s c) (lit_var l) = None -> v_gs (c_v c) (lit_var l) <> None ->
  (clevel (c_s c) < length (as_lits (c_as c)) -> nth_error (as_lits (c_as c)) (clevel (c_s c)) = Some l) ->
  wf vs' -> (forall x, In x (vs_heap vs') -> v_gs (c_v c) x <> None) ->
  (forall x, v_gs (c_v c) x <> None -> x <> lit_var l -> s_val (c_s c) x = None -> In x (vs_heap vs')) ->
  inv false F A (cw_vs (cw_s c (decide (c_s c) l)) vs').
Proof.
  intros [K Lo] H Z U G D W Hp O.
  pose proof (in_trail _ _ _ _ _ (iv_search _ _ _ _ K)) as T.
  assert (B : (lit_var l < v_slen (c_v c))%N).
  { destruct (v_gs (c_v c) (lit_var l)) eqn:E; [|congruence]. eapply vo_x; [apply (iv_base _ _ _ _ K)|exact E]. }
  split; [|apply low_decide; [exact Lo|exact Z]].
  eapply core_search with (f := false); try eassumption.
  - apply decide_search; try assumption. apply K.
  - intros x. unfold decide, enqueue, new_decision_level. cbn [s_lits with_decs]. reflexivity.
  - intros x I. unfold decide, enqueue, new_decision_level in I. cbn [s_trail with_decs] in I.
    apply in_app_or in I as [I|[<-|[]]]; [apply (iv_trail _ _ _ _ K); exact I|exact G].
  - intros x Gx. unfold decide, enqueue, new_decision_level. cbn [s_val with_decs].
    destruct (N.eq_dec x (lit_var l)) as [->|NE]; [rewrite upd_eq; discriminate|rewrite upd_ne by exact NE].
    intros V. apply O; assumption.
  - eapply fixv_decide; eassumption.
  - intros x Gx. unfold decide, enqueue, new_decision_level. cbn [s_val with_decs]. apply upd_ne. congruence.
  - eapply decs_as_decide; [exact T|apply K|exact D].
Qed.

(** * Backtracking *)
Lemma fixv_undone n s k s' : trail_ok n s -> undone s k s' -> k < length (s_decs s) -> same_fixed s s'.
Proof.
  intros T U Hk x y. unfold fixv. rewrite (ud_val _ _ _ U), (ud_level _ _ _ U), (ud_trail _ _ _ U).
  set (m := nth k (s_decs s) 0).
  assert (E : s_trail s = firstn m (s_trail s) ++ skipn m (s_trail s)) by (symmetry; apply firstn_skipn).
  pose proof (tk_nodup _ _ T) as ND. rewrite E in ND. rewrite map_app in ND.
  destruct (existsb (N.eqb x) (map lit_var (skipn m (s_trail s)))) eqn:Q.
  - apply memb_in in Q. split; [intros [? _]; discriminate|]. intros [V [H|H]].
    + exfalso. apply H. rewrite E, map_app, in_app_iff. right. exact Q.
    + exfalso. apply in_map_iff in Q as (l & <- & I). apply In_nth_error in I as (p & I).
      rewrite nth_error_skipn in I. rewrite (tk_level _ _ T _ _ I) in H.
      destruct (lvl_cut (s_decs s) k (m + p) (tk_sorted _ _ T) Hk) as [[_ C] _]. fold m in C.
      assert (m + p < m) by (apply C; lia). lia.
  - assert (NQ : ~ In x (map lit_var (skipn m (s_trail s)))) by (intros I; apply memb_in in I; congruence).
    split; intros [V [H|H]]; (split; [exact V|]); auto; left; intros I.
    + rewrite E, map_app, in_app_iff in I. tauto.
    + apply H. rewrite E, map_app, in_app_iff. tauto.
Qed.
Lemma undone_search n L bin f s k s' : search_inv n L bin f s -> undone s k s' -> k < length (s_decs s) ->
  search_inv n L bin false s'.
Proof.
  intros [T S W P] U Hk. constructor.
  - eapply undone_ok; eassumption.
  - eapply undone_store; eassumption.
  - rewrite (ud_wen _ _ _ U). intros E. eapply undone_watch; [exact U|apply W; exact E].
  - eapply undone_prop; [exact T|exact U|exact Hk|]. destruct f; [exact P|].
    eapply prop_ok_weaken; [| |exact P]; unfold none2; tauto.
Qed.
Lemma low_undone s k s' : low s -> undone s k s' -> k < length (s_decs s) -> low s' /\ (s_decs s' = [] -> s_trail s' = [] /\ s_head s' = 0).
Proof.
  unfold low. intros Lo U Hk. rewrite (ud_decs _ _ _ U), (ud_head _ _ _ U), (ud_trail _ _ _ U).
  destruct (s_decs s) as [|p r] eqn:E; [cbn [length] in Hk; lia|]. subst p. destruct k as [|k]; cbn [firstn nth].
  - split; [|auto]. split; [reflexivity|]. intros l [].
  - split; [reflexivity|discriminate].
Qed.
Lemma decs_as_undone n s k s' as_ : trail_ok n s -> undone s k s' -> k < length (s_decs s) -> decs_as s as_ -> decs_as s' as_.
Proof.
  intros T U Hk D i p. rewrite (ud_decs _ _ _ U), (ud_trail _ _ _ U). intros E I.
  apply nth_error_firstn_some in E as [B E]. rewrite <- (D i p E I). apply nth_error_firstn.
  pose proof (tk_sorted _ _ T) as S. pose proof (nth_error_nth' (s_decs s) 0 Hk) as E2.
  destruct (lvl_cut (s_decs s) k p S Hk) as [[_ C] _]. apply C.
  assert (nth_error (s_decs s) k = Some (nth k (s_decs s) 0)) as E3 by exact E2. clear C.
  assert (Q : p < nth k (s_decs s) 0).
  { apply nth_error_split in E3 as (a & b & Ea & La). rewrite Ea in S. rewrite Ea in E.
    rewrite nth_error_app1 in E by lia. apply nth_error_In in E. eapply sorted_app_lt; [exact S|exact E|left; reflexivity]. }
  apply (lvl_cut (s_decs s) k p S Hk). exact Q.
Qed.

Lemma backtrack_inv f F A c k : inv f F A c -> (f = true -> k < clevel (c_s c)) ->
  inv false F A (backtrack_to k c) /\
  (k < clevel (c_s c) -> undone (c_s c) k (c_s (backtrack_to k c))) /\
  (clevel (c_s c) <= k -> backtrack_to k c = c) /\
  c_v (backtrack_to k c) = c_v c /\ c_d (backtrack_to k c) = c_d c /\ c_bin (backtrack_to k c) = c_bin c /\
  c_as (backtrack_to k c) = c_as c /\ c_st (backtrack_to k c) = c_st c /\ c_an (backtrack_to k c) = c_an c.
Proof.
  intros [K Lo] Hf. pose proof (in_trail _ _ _ _ _ (iv_search _ _ _ _ K)) as T. unfold backtrack_to.
  destruct (backtrack (c_s c) (c_vs c) k) as [s' vs'] eqn:B. split; [|split; [|split; [|repeat split]]].
  - destruct (Nat.lt_ge_cases k (clevel (c_s c))) as [Hk|Hk].
    + destruct (backtrack_undone _ _ _ _ _ _ T B Hk) as (U & W & _).
      destruct (W (b_wf _ (iv_base _ _ _ _ K))) as [W1 W2].
      split; [|eapply low_undone; [exact Lo|exact U|exact Hk]].
      eapply core_search with (f := f); try eassumption.
      * eapply undone_search; [apply K|exact U|exact Hk].
      * intros x. rewrite (ud_lits _ _ _ U). reflexivity.
      * intros l. rewrite (ud_trail _ _ _ U). intros I. apply (iv_trail _ _ _ _ K). eapply in_firstn; exact I.
      * intros x I. apply W2 in I as [I|I]; [|apply (b_heap _ (iv_base _ _ _ _ K)); exact I].
        apply in_map_iff in I as (l & <- & I). apply (iv_trail _ _ _ _ K).
        rewrite <- (firstn_skipn (nth k (s_decs (c_s c)) 0) (s_trail (c_s c))). apply in_or_app. right. exact I.
      * intros x G V. apply W2. rewrite (ud_val _ _ _ U) in V. destruct (existsb _ _) eqn:Q; [left; apply memb_in; exact Q|].
        right. apply (iv_open _ _ _ _ K); assumption.
      * eapply fixv_undone; eassumption.
      * intros x G. rewrite (ud_val _ _ _ U). destruct (existsb _ _) eqn:Q; [|reflexivity]. exfalso.
        apply memb_in in Q. apply in_map_iff in Q as (l & E & I). subst x. apply (iv_trail _ _ _ _ K l); [|exact G].
        rewrite <- (firstn_skipn (nth k (s_decs (c_s c)) 0) (s_trail (c_s c))). apply in_or_app. right. exact I.
      * eapply decs_as_undone; [exact T|exact U|exact Hk|apply K].
    + assert (f = false) as -> by (destruct f; [specialize (Hf eq_refl); lia|reflexivity]).
      unfold backtrack in B. unfold clevel in Hk. rewrite (proj2 (Nat.leb_le _ _) Hk) in B. injection B as <- <-.
      destruct c. split; [exact K|exact Lo].
  - intros Hk. destruct (backtrack_undone _ _ _ _ _ _ T B Hk) as (U & _). exact U.
  - intros Hk. unfold backtrack in B. unfold clevel in Hk. rewrite (proj2 (Nat.leb_le _ _) Hk) in B. injection B as <- <-.
    destruct c. reflexivity.
Qed.

(** * Propagation *)
Lemma new_in_use n v L bin s0 s' x : trail_ok n s' -> store_ok n L bin s' -> extends s0 s' ->
  clauses_used v L bin (s_lits s0) -> s_val s0 x = None -> s_val s' x <> None -> in_use v x.
Proof.
  intros T S E [U1 U2] V V'. pose proof (ex_new _ _ E _ V V') as I. apply in_map_iff in I as (l & <- & I).
  pose proof (ex_unit _ _ E _ V V') as NU. apply In_nth_error in I as (p & I). pose proof (nth_error_In _ _ I) as Il.
  pose proof (tk_reason _ _ T _ _ I) as R. unfold reason_ok in R. destruct (s_reason s' (lit_var l)) as [|o|c] eqn:Q.
  - congruence.
  - eapply U2. eapply so_rbin; eassumption.
  - destruct R as (_ & rest & Ec & _). apply (U1 c l).
    + eapply so_rlong; eassumption.
    + eapply Permutation_in; [apply Permutation_sym, (Propagate.ex_lits _ _ E)|]. rewrite Ec. left. reflexivity.
Qed.

Lemma assigned_fixed n s x y : trail_ok n s -> s_decs s = [] -> s_val s x = Some y -> fixv s x y.
Proof.
  intros T D V. split; [exact V|]. destruct (in_dec N.eq_dec x (map lit_var (s_trail s))) as [I|I]; [right|left; exact I].
  apply in_map_iff in I as (l & <- & I). apply In_nth_error in I as (p & I). rewrite (tk_level _ _ T _ _ I), D. reflexivity.
Qed.

(** Values known after propagation: at level 0 all, above nothing new *)
Lemma extends_fixv n s s' x y : trail_ok n s -> trail_ok n s' -> extends s s' -> fixv s x y -> fixv s' x y.
Proof.
  intros T T' E [V H]. assert (NV : s_val s x <> None) by congruence. split; [rewrite (ex_val _ _ E) by exact NV; exact V|].
  destruct H as [H|H].
  - left. intros I. apply in_map_iff in I as (l & El & I). subst x.
    destruct (ex_trail _ _ E) as (t & Et). rewrite Et in I. apply in_app_or in I as [I|I].
    + apply H. apply in_map. exact I.
    + apply In_nth_error in I as (p & I).
      assert (Ip : nth_error (s_trail s') (length (s_trail s) + p) = Some l).
      { rewrite Et, nth_error_app2 by lia. replace (length (s_trail s) + p - length (s_trail s)) with p by lia. exact I. }
      pose proof (tk_depth _ _ T' _ _ Ip) as Dp. rewrite (ex_depth _ _ E) in Dp by exact NV.
      destruct (tk_assigned _ _ T (lit_var l) NV) as [Q|[Q _]]; [tauto|]. congruence.
  - right. rewrite (ex_level _ _ E) by exact NV. exact H.
Qed.
Lemma extends_fixv_rev n s s' x y : trail_ok n s -> trail_ok n s' -> extends s s' -> 0 < clevel s -> fixv s' x y -> fixv s x y.
Proof.
  intros T T' E Lv [V H]. assert (D : clevel s' = clevel s) by (unfold clevel; rewrite (ex_decs _ _ E); reflexivity).
  destruct (s_val s x) as [z|] eqn:V0.
  - assert (NV : s_val s x <> None) by congruence. pose proof (ex_val _ _ E _ NV) as Ev.
    split; [congruence|]. destruct H as [H|H].
    + left. intros I. apply H. destruct (ex_trail _ _ E) as (t & ->). rewrite map_app, in_app_iff. left. exact I.
    + right. rewrite <- (ex_level _ _ E) by exact NV. exact H.
  - exfalso. assert (NV : s_val s' x <> None) by congruence. pose proof (ex_new _ _ E _ V0 NV) as I.
    destruct H as [H|H]; [tauto|]. apply in_map_iff in I as (l & El & I). subst x.
    destruct (ex_trail _ _ E) as (t & Et). rewrite Et in I. apply in_app_or in I as [I|I].
    + apply (tk_true _ _ T) in I. apply istrue_assigned in I. congruence.
    + apply In_nth_error in I as (p & I).
      assert (Ip : nth_error (s_trail s') (length (s_trail s) + p) = Some l).
      { rewrite Et, nth_error_app2 by lia. replace (length (s_trail s) + p - length (s_trail s)) with p by lia. exact I. }
      rewrite (tk_level _ _ T' _ _ Ip) in H. rewrite (ex_decs _ _ E) in H.
      destruct (s_decs s) as [|d ds] eqn:Ed; [unfold clevel in Lv; rewrite Ed in Lv; cbn in Lv; lia|].
      assert (In d (s_decs s)) as Id by (rewrite Ed; left; reflexivity).
      apply (tk_decs _ _ T) in Id. rewrite lvl_all in H; [cbn in H; lia|].
      intros d' I'. rewrite <- Ed in I'. apply (tk_decs _ _ T) in I'. lia.
Qed.

Lemma watchless_extends s w b s' : extends (with_wen (with_watch s w) b) s' -> s_wen s' = true ->
  extends (with_wen s true) s'.
Proof. intros E W. destruct E. cbn [with_wen with_watch s_trail s_decs s_lits s_val s_reason s_level s_depth s_last s_wen] in *. constructor; cbn [with_wen s_trail s_decs s_lits s_val s_reason s_level s_depth s_last s_wen]; auto. Qed.

Definition conflicting (r : presult) : bool := match r with PConflict _ => true | _ => false end.
Lemma propagate_core F A c s' r : core false F A c ->
  propagate (v_slen (c_v c)) (live (c_d c)) (c_bin c) (c_s c) = (s', r) ->
  core (conflicting r) F A (cw_s c s') /\ s_decs s' = s_decs (c_s c) /\
  (0 < clevel (c_s c) -> low (c_s c) -> low s') /\
  match r with
  | POk => s_head s' = length (s_trail s')
  | PConflict k => conflict_at (live (c_d c)) (c_bin c) s' k
  | _ => False
  end.
Proof.
  intros K E. destruct (iv_search _ _ _ _ K) as [T S W P].
  destruct (propagate_spec _ _ _ _ _ _ T S W P E) as (T' & S' & W' & We' & (w & b0 & Ex) & R).
  pose proof (watchless_extends _ _ _ _ Ex We') as X. clear Ex w b0. set (s0 := with_wen (c_s c) true) in *.
  assert (D : s_decs s' = s_decs (c_s c)) by apply (ex_decs _ _ X).
  assert (T0 : trail_ok (v_slen (c_v c)) s0) by (destruct T; constructor; assumption).
  assert (U0 : clauses_used (c_v c) (live (c_d c)) (c_bin c) (s_lits s0)) by apply K.
  assert (NU : forall x, s_val (c_s c) x = None -> s_val s' x <> None -> in_use (c_v c) x).
  { intros x V V'. eapply (new_in_use _ _ _ _ s0 s'); eassumption. }
  assert (Ab : same_absent (c_v c) (c_s c) s').
  { intros x G. destruct (s_val (c_s c) x) as [y|] eqn:V.
    - assert (NV : s_val s0 x <> None) by (change (s_val (c_s c) x <> None); congruence).
      rewrite (ex_val _ _ X _ NV). exact V.
    - destruct (s_val s' x) eqn:V'; [|reflexivity]. assert (in_use (c_v c) x) as (g & G' & _) by (apply NU; congruence). congruence. }
  assert (Perm : forall x, Permutation (s_lits (c_s c) x) (s_lits s' x)) by apply (Propagate.ex_lits _ _ X).
  assert (SI : search_inv (v_slen (c_v c)) (live (c_d c)) (c_bin c) (conflicting r) s').
  { constructor; auto. destruct r; cbn [conflicting]; try tauto; apply R. }
  assert (Tr : forall l, In l (s_trail s') -> v_gs (c_v c) (lit_var l) <> None).
  { intros l I. pose proof (tk_true _ _ T' _ I) as Il. apply istrue_assigned in Il.
    destruct (s_val (c_s c) (lit_var l)) eqn:V.
    - assert (NV : s_val s0 (lit_var l) <> None) by (change (s_val (c_s c) (lit_var l) <> None); congruence).
      destruct (tk_assigned _ _ T (lit_var l)) as [Q|[Q _]]; [congruence| |].
      + apply in_map_iff in Q as (l2 & E2 & I2). rewrite <- E2. apply (iv_trail _ _ _ _ K). exact I2.
      + exfalso. apply In_nth_error in I as (p & I). pose proof (tk_depth _ _ T' _ _ I) as Dp.
        rewrite (ex_depth _ _ X _ NV) in Dp. change (s_depth s0) with (s_depth (c_s c)) in Dp. congruence.
    - destruct (NU _ V Il) as (g & G & _). congruence. }
  assert (Op : forall x, v_gs (c_v c) x <> None -> s_val s' x = None -> In x (vs_heap (c_vs c))).
  { intros x G V. apply (iv_open _ _ _ _ K); [exact G|]. destruct (s_val (c_s c) x) eqn:V0; [|reflexivity].
    assert (NV : s_val s0 x <> None) by (change (s_val (c_s c) x <> None); congruence).
    rewrite (ex_val _ _ X _ NV) in V. change (s_val s0 x) with (s_val (c_s c) x) in V. congruence. }
  assert (Dc : decs_as s' (as_lits (c_as c))).
  { intros i p. rewrite D. intros Ei Li. rewrite <- (iv_dec _ _ _ _ K i p Ei Li). destruct (ex_trail _ _ X) as (t & ->).
    apply nth_error_app1. apply nth_error_In in Ei. apply (tk_decs _ _ T) in Ei. apply Ei. }
  assert (Fx1 : forall x y, fixv (c_s c) x y -> fixv s' x y).
  { intros x y H. eapply extends_fixv; [exact T0|exact T'|exact X|exact H]. }
  split; [|split; [exact D|split; [|destruct r; try tauto; apply R]]].
  - assert (Fx : 0 < clevel (c_s c) -> same_fixed (c_s c) s').
    { intros Lv x y. split; [|apply Fx1]. intros H.
      exact (extends_fixv_rev _ _ _ _ _ T0 T' X Lv H). }
    assert (So : sound F (c_v c) (live (c_d c)) (c_bin c) s').
    { destruct (Nat.eq_dec (clevel (c_s c)) 0) as [Z|NZ].
      - assert (Dn : s_decs (c_s c) = []) by (unfold clevel in Z; destruct (s_decs (c_s c)); [reflexivity|discriminate]).
        intros b M. destruct (iv_sound _ _ _ _ K b M) as (Sb & Kb & Ub).
        assert (Ag : agrees_with s' (lift (c_v c) (c_s c) b)).
        { eapply (extends_sound _ _ _ s0); [exact T'|exact S'|exact X|exact Sb|].
          intros x y V. apply Kb. eapply assigned_fixed; [exact T|exact Dn|exact V]. }
        destruct Sb as [Sb1 Sb2]. split; [split|split; [|exact Ub]].
        + intros x I. rewrite ch_lift with (s := c_s c) by exact Ab. rewrite <- (ch_perm _ _ _ (Perm x)). apply Sb1. exact I.
        + intros l o I. rewrite ch_lift with (s := c_s c) by exact Ab. apply Sb2. exact I.
        + intros x y [V _]. rewrite lift_ext with (s := c_s c) by apply Ab. apply Ag. exact V.
      - eapply sound_same; [exact Ab|apply Fx; lia|intros; apply Perm|apply K]. }
    assert (Co : complete F (c_v c) (irred (c_d c)) (c_bin c) s').
    { intros b S1 S2 Kb Ub. apply (iv_comp _ _ _ _ K).
      - intros x I. rewrite (ch_perm _ _ _ (Perm x)). rewrite <- ch_lift with (s' := s') by exact Ab. apply S1; exact I.
      - intros l o I. rewrite <- ch_lift with (s' := s') by exact Ab. apply S2; exact I.
      - intros x y Q. rewrite <- lift_ext with (s' := s') by apply Ab. apply Kb. apply Fx1. exact Q.
      - exact Ub. }
    destruct K. constructor; cbn [cw_vs cw_s c_s c_d c_bin c_v c_vs c_as]; auto.
    + destruct iv_base0. constructor; auto.
    + eapply db_ok_perm; [|exact iv_db0]. exact Perm.
    + destruct iv_used0 as [U1 U2]. split; [|exact U2]. intros x l I1 I2. eapply U1; [exact I1|].
      eapply Permutation_in; [apply Permutation_sym, Perm|exact I2].
    + intros g x y G U. apply Fx1. eapply iv_unit0; eassumption.
    + eapply as_all_same; eassumption.
  - intros Lv Lo. unfold low in *. rewrite D. unfold clevel in Lv. destruct (s_decs (c_s c)); [cbn in Lv; lia|exact Lo].
Qed.

(** A conflict at level 0 *)
Lemma conflict_zero F A c k : core true F A c -> conflict_at (live (c_d c)) (c_bin c) (c_s c) k -> s_decs (c_s c) = [] ->
  forall b, ~ models b F.
Proof.
  intros K C D b M. destruct (iv_sound _ _ _ _ K b M) as (Sb & Kb & _).
  eapply conflict_refutes; [exact C|exact Sb|]. intros x y V. apply Kb. eapply assigned_fixed; [apply (iv_search _ _ _ _ K)|exact D|exact V].
Qed.
