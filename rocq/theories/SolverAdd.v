(** Adding clauses and values to the state of the search (Solver.v), for clauses of the user and
    learned ones. *)
From Coq Require Import Lia Arith PeanoNat Permutation ZArith ZifyBool ZifyNat ZifyN.
From Verif Require Import Spec Lit LitProofs BinFormat Hash F32 Vsids VsidsProofs VsidsWf Luby Config Search SearchBase
  Propagate P_Search ClauseDb DbProofs Analyze AnalyzeProofs SolverCtx CtxFrame VarsProofs Solver SolverInv SolverSimplify.
Local Open Scope nat_scope.

(** The invariant without the parts about propagation *)
Record meaning (F : problem) (A : list N) (c : ctx) : Prop := {
  mn_base : base c;
  mn_db : db_ok (s_lits (c_s c)) (c_d c);
  mn_trail : forall l, In l (s_trail (c_s c)) -> v_gs (c_v c) (lit_var l) <> None;
  mn_used : clauses_used (c_v c) (live (c_d c)) (c_bin c) (s_lits (c_s c));
  mn_open : forall x, v_gs (c_v c) x <> None -> s_val (c_s c) x = None -> In x (vs_heap (c_vs c));
  mn_unit : forall g x y, v_sg (c_v c) g = Some x -> vd_unit (v_data (c_v c) g) = Some y -> fixv (c_s c) x y;
  mn_sound : sound F (c_v c) (live (c_d c)) (c_bin c) (c_s c);
  mn_comp : complete F (c_v c) (irred (c_d c)) (c_bin c) (c_s c);
  mn_dec : decs_as (c_s c) (as_lits (c_as c));
  mn_in : as_in (c_v c) (as_lits (c_as c)) A;
  mn_kept : as_kept (c_v c) A;
  mn_all : as_all F (c_v c) (c_s c) (as_lits (c_as c)) A }.

Lemma core_meaning f F A c : core f F A c -> meaning F A c.
Proof. intros K. destruct K. constructor; assumption. Qed.
Lemma meaning_core f F A c : meaning F A c -> search_inv (v_slen (c_v c)) (live (c_d c)) (c_bin c) f (c_s c) -> core f F A c.
Proof. intros K S. destruct K. constructor; assumption. Qed.

(** Formulas with the same solutions *)
Lemma meaning_equiv F F' A c : (forall b, models b F' <-> models b F) -> meaning F A c -> meaning F' A c.
Proof.
  intros E K. destruct K. constructor; auto.
  - intros b M. apply mn_sound0. apply E. exact M.
  - intros b S1 S2 K U. destruct (mn_comp0 b) as (b' & Ag & M); try assumption. exists b'. split; [exact Ag|]. apply E. exact M.
  - intros b M. apply mn_all0. apply E. exact M.
Qed.
Lemma core_equiv f F F' A c : (forall b, models b F' <-> models b F) -> core f F A c -> core f F' A c.
Proof. intros E K. apply meaning_core; [eapply meaning_equiv; [exact E|]; eapply core_meaning; exact K|apply K]. Qed.
(** A problem with one more clause *)
Definition also (C : list N) (F : problem) : problem := fun b => F b /\ clause_holds b C = true.
Lemma models_cons b C F : models b (also C F) <-> models b F /\ clause_holds b C = true.
Proof. reflexivity. Qed.

(** * A new value *)
Lemma fixv_enqueue n s l r x y : trail_ok n s -> s_val s (lit_var l) = None ->
  (fixv (enqueue s l r) x y <-> fixv s x y \/ (s_decs s = [] /\ x = lit_var l /\ y = is_positive l)).
Proof.
  intros T U. unfold fixv. cbn [enqueue s_val s_trail s_level]. rewrite map_app, in_app_iff. cbn [map In]. unfold upd.
  destruct (N.eqb_spec x (lit_var l)) as [->|NE].
  - split.
    + intros [E [H|H]]; [exfalso; apply H; right; left; reflexivity|]. right. split; [|split; [reflexivity|congruence]].
      destruct (s_decs s); [reflexivity|discriminate].
    + intros [[E _]|(E & _ & ->)]; [congruence|]. split; [reflexivity|]. right. rewrite E. reflexivity.
  - split.
    + intros [E H]. left. split; [exact E|]. destruct H as [H|H]; [left; tauto|right; exact H].
    + intros [[E H]|(_ & E & _)]; [|congruence]. split; [exact E|]. destruct H as [H|H]; [left|right; exact H].
      intros [I|[I|[]]]; [tauto|congruence].
Qed.

Lemma meaning_enqueue n F F' A c l r : meaning F A c -> trail_ok n (c_s c) -> s_val (c_s c) (lit_var l) = None ->
  v_gs (c_v c) (lit_var l) <> None ->
  (s_decs (c_s c) = [] -> forall b, models b F' <-> models b F /\ lit_holds (lift (c_v c) (c_s c) b) l = true) ->
  (s_decs (c_s c) <> [] -> F' = F) ->
  meaning F' A (cw_s c (enqueue (c_s c) l r)).
Proof.
  intros K T U G E0 E1.
  pose proof (fun x y => fixv_enqueue _ _ l r x y T U) as Fx.
  assert (Ab : same_absent (c_v c) (c_s c) (enqueue (c_s c) l r)).
  { intros x Gx. cbn [enqueue s_val]. apply upd_ne. intros ->. congruence. }
  assert (M : forall b, models b F' -> models b F).
  { intros b Mb. destruct (s_decs (c_s c)) eqn:D; [apply (E0 eq_refl b), Mb|]. rewrite <- E1; [exact Mb|discriminate]. }
  destruct K. constructor; cbn [cw_s c_s c_d c_bin c_v c_vs c_as]; auto.
  - destruct mn_base0. constructor; assumption.
  - cbn [enqueue s_trail]. intros x I. apply in_app_or in I as [I|[<-|[]]]; auto.
  - cbn [enqueue s_val]. intros x Gx. unfold upd. destruct (N.eqb_spec x (lit_var l)); [discriminate|]. apply mn_open0. exact Gx.
  - intros g x y Gx Ux. apply Fx. left. eapply mn_unit0; eassumption.
  - intros b Mb. destruct (mn_sound0 b (M b Mb)) as (S & Kb & Ub). split; [|split; [|exact Ub]].
    + destruct S as [S1 S2]. split.
      * intros x I. rewrite (ch_lift _ _ _ _ _ Ab). apply S1. exact I.
      * intros x o I. rewrite (ch_lift _ _ _ _ _ Ab). apply S2. exact I.
    + intros x y Q. rewrite (lift_ext _ _ _ _ _ (Ab x)). apply Fx in Q as [Q|(D & -> & ->)]; [apply Kb; exact Q|].
      apply lh_true. apply (E0 D). exact Mb.
  - intros b S1 S2 Kb Ub.
    assert (Cb : exists b', agree (c_v c) b b' /\ models b' F).
    { apply mn_comp0; auto.
      - intros x I. rewrite <- (ch_lift _ _ _ _ _ Ab). apply S1. exact I.
      - intros x o I. rewrite <- (ch_lift _ _ _ _ _ Ab). apply S2. exact I.
      - intros x y Q. rewrite <- (lift_ext _ _ _ _ _ (Ab x)). apply Kb. apply Fx. left. exact Q. }
    destruct Cb as (b' & Ag & Mb). exists b'. split; [exact Ag|].
    destruct (s_decs (c_s c)) eqn:D; [|rewrite E1; [exact Mb|discriminate]]. apply (E0 eq_refl). split; [exact Mb|].
    apply lh_true. rewrite (lift_agree _ _ b b' _ (b_vars _ mn_base0) Ag). rewrite <- (lift_ext _ _ _ _ _ (Ab _)). apply Kb. apply Fx. right. auto.
  - intros i p. cbn [enqueue s_decs s_trail]. intros Q I. rewrite nth_error_app1; [apply (mn_dec0 i p Q I)|].
    apply (tk_decs _ _ T). eapply nth_error_In. exact Q.
  - intros b Mb S. apply mn_all0; [apply M; exact Mb|]. intros x I. rewrite <- (lh_lift _ _ _ _ _ Ab). apply S. exact I.
Qed.

(** * A new binary clause *)
Lemma bin_twice a l0 l1 : clause_holds a [l0; l1] = clause_holds a [l1; l0].
Proof. apply ch_perm. apply perm_swap. Qed.

Lemma meaning_add_bin F F' A c l0 l1 : meaning F A c -> in_use (c_v c) (lit_var l0) -> in_use (c_v c) (lit_var l1) ->
  (forall b, models b F' <-> models b F /\ clause_holds (lift (c_v c) (c_s c) b) [l0; l1] = true) ->
  meaning F' A (add_binary_clause l0 l1 c).
Proof.
  intros K U0 U1 E. pose proof (fun l o => add_binary_in l0 l1 c l o) as Bi.
  destruct K. constructor; auto; try (change (c_s (add_binary_clause l0 l1 c)) with (c_s c)); try (change (c_d (add_binary_clause l0 l1 c)) with (c_d c));
    try (change (c_v (add_binary_clause l0 l1 c)) with (c_v c)).
  - destruct mn_base0. constructor; assumption.
  - destruct mn_used0 as [A1 A2]. split; [exact A1|]. intros l o I. apply Bi in I as [I|[[_ ->]|[_ ->]]]; [apply (A2 _ _ I)|assumption|assumption].
  - intros b Mb. apply E in Mb as [Mb Hc]. destruct (mn_sound0 b Mb) as ((S1 & S2) & Kb & Ub). split; [split; [exact S1|]|split; [exact Kb|exact Ub]].
    intros l o I. apply Bi in I as [I|[[-> ->]|[-> ->]]]; [apply S2; exact I| |]; rewrite lnot_invol; [exact Hc|rewrite bin_twice; exact Hc].
  - intros b S1 S2 Kb Ub. destruct (mn_comp0 b) as (b' & Ag & Mb); auto.
    { intros l o I. apply S2. apply Bi. left. exact I. }
    exists b'. split; [exact Ag|]. apply E. split; [exact Mb|].
    rewrite (ch_ext _ (lift (c_v c) (c_s c) b)) by (intros l _; apply lift_agree; [apply mn_base0|exact Ag]).
    specialize (S2 (lnot l0) l1). rewrite lnot_invol in S2. apply S2. apply Bi. right. left. auto.
  - intros b Mb. apply mn_all0. apply E in Mb. apply Mb.
Qed.

Lemma store_add_bin n L s c l0 l1 : store_ok n L (c_bin c) s -> (lit_var l0 < n)%N -> (lit_var l1 < n)%N -> lit_var l0 <> lit_var l1 ->
  (forall l, l = l0 \/ l = l1 -> s_val s (lit_var l) <> None -> on_trail s l) ->
  store_ok n L (c_bin (add_binary_clause l0 l1 c)) s.
Proof.
  intros S B0 B1 NE On. pose proof (fun l o => add_binary_in l0 l1 c l o) as Bi. destruct S. constructor; auto.
  - intros l o I. apply Bi in I as [I|[[-> ->]|[-> ->]]].
    + destruct (so_bin _ _ I) as (C1 & C2 & C3 & C4). repeat (split; [assumption|]). apply Bi. left. exact C4.
    + rewrite lnot_var. repeat (split; [assumption || congruence|]). apply Bi. right. right. split; [reflexivity|apply lnot_invol].
    + rewrite lnot_var. repeat (split; [assumption || congruence|]). apply Bi. right. left. split; [reflexivity|apply lnot_invol].
  - intros l o I. apply Bi in I as [I|[[-> ->]|[-> ->]]]; [apply (so_on_bin _ _ I)| |]; apply On; tauto.
  - intros l b I1 I2. apply Bi. left. apply so_rbin; assumption.
Qed.

(** * A new long clause *)
Lemma add_long_parts s d h cl s' d' x : add_long s d h cl = (s', d', x) ->
  x = d_size d /\ s' = watch_clause (with_lits s (upd (s_lits s) x cl)) x (nth 0 cl 0%N) (nth 1 cl 0%N) /\
  d_full d' = d_full d || (2^32 - 1 <? d_size d)%N /\ (forall y, d_hdr d' y = if N.eqb y x then h else d_hdr d y).
Proof. unfold add_long. intros E. injection E as <- <- <-. repeat split. Qed.
Lemma watch_same s x a b : s_val (watch_clause s x a b) = s_val s /\ s_trail (watch_clause s x a b) = s_trail s /\
  s_decs (watch_clause s x a b) = s_decs s /\ s_head (watch_clause s x a b) = s_head s /\ s_level (watch_clause s x a b) = s_level s /\
  s_reason (watch_clause s x a b) = s_reason s /\ s_depth (watch_clause s x a b) = s_depth s /\ s_lits (watch_clause s x a b) = s_lits s /\
  s_wen (watch_clause s x a b) = s_wen s /\ s_last (watch_clause s x a b) = s_last s.
Proof. unfold watch_clause. destruct (s_wen s) eqn:E; repeat split; cbn [with_watch s_wen]; exact E. Qed.

Record added (s : search) (d : cdb) (cl : list N) (h : hdr) (s' : search) (d' : cdb) (x : N) : Prop := {
  ad_val : s_val s' = s_val s; ad_trail : s_trail s' = s_trail s; ad_decs : s_decs s' = s_decs s; ad_head : s_head s' = s_head s;
  ad_level : s_level s' = s_level s; ad_reason : s_reason s' = s_reason s; ad_depth : s_depth s' = s_depth s;
  ad_lits : forall y, s_lits s' y = if N.eqb y x then cl else s_lits s y; ad_wen : s_wen s' = s_wen s;
  ad_watch : s_wen s = true -> s_watch s' = add_watch (add_watch (s_watch s) (lnot (nth 0 cl 0%N)) (x, nth 1 cl 0%N)) (lnot (nth 1 cl 0%N)) (x, nth 0 cl 0%N);
  ad_live : live d' = live d ++ [x]; ad_new : ~ In x (live d);
  ad_tier : forall y, In y (live d) -> htier d' y = htier d y; ad_own : htier d' x = h_tier h;
  ad_db : db_ok (s_lits s') d' }.
Lemma add_long_added s d h cl s' d' x : add_long s d h cl = (s', d', x) -> db_ok (s_lits s) d -> d_full d' = false ->
  h_deleted h = false -> h_mark h = false -> (h_tier h = Irred -> h_glue h = 0%N) -> added s d cl h s' d' x.
Proof.
  intros E [Dc Du] Fu Hd Hm Hg. destruct (add_long_parts _ _ _ _ _ _ _ E) as (Ex & Es & Ef & Eh).
  assert (Sz : (d_size d <= 2^32 - 1)%N).
  { rewrite Ef in Fu. apply Bool.orb_false_iff in Fu as [_ Fu]. apply N.ltb_ge in Fu. exact Fu. }
  pose proof (add_long_core s d h cl Hd Dc Sz Hg) as Dc'. pose proof (add_live s d h cl Hd Dc) as Al. rewrite E in Dc', Al. cbn [fst snd] in Dc', Al.
  rewrite <- Ex in Al.
  destruct (watch_same (with_lits s (upd (s_lits s) x cl)) x (nth 0 cl 0%N) (nth 1 cl 0%N)) as (W1 & W2 & W3 & W4 & W5 & W6 & W7 & W8 & W9 & _).
  assert (Nx : ~ In x (live d)).
  { intros I. apply live_in in I as [I _]. apply (dk_size _ _ _ _ Dc) in I. lia. }
  constructor; try (rewrite Es; assumption); auto.
  - intros y. rewrite Es, W8. reflexivity.
  - intros Wn. rewrite Es. unfold watch_clause. cbn [with_lits s_wen]. rewrite Wn. reflexivity.
  - intros y I. unfold htier. rewrite Eh. destruct (N.eqb_spec y x) as [->|]; [contradiction|reflexivity].
  - unfold htier. rewrite Eh, N.eqb_refl. reflexivity.
  - split; [exact Dc'|]. intros y. rewrite Eh. destruct (N.eqb_spec y x); [exact Hm|apply Du].
Qed.

Lemma meaning_add_long F F' A c cl h s' d' x : meaning F A c -> added (c_s c) (c_d c) cl h s' d' x ->
  (forall l, In l cl -> in_use (c_v c) (lit_var l)) ->
  (forall b, models b F' <-> models b F /\ clause_holds (lift (c_v c) (c_s c) b) cl = true) ->
  (h_tier h = Irred \/ forall b, models b F' <-> models b F) ->
  meaning F' A (cw_d (cw_s c s') d').
Proof.
  intros K Ad U E Or.
  assert (Ab : same_absent (c_v c) (c_s c) s') by (intros y _; rewrite (ad_val _ _ _ _ _ _ _ Ad); reflexivity).
  assert (Fx : forall y z, fixv s' y z <-> fixv (c_s c) y z).
  { intros y z. unfold fixv. rewrite (ad_val _ _ _ _ _ _ _ Ad), (ad_trail _ _ _ _ _ _ _ Ad), (ad_level _ _ _ _ _ _ _ Ad). tauto. }
  assert (Li : forall y, In y (live d') <-> In y (live (c_d c)) \/ y = x).
  { intros y. rewrite (ad_live _ _ _ _ _ _ _ Ad), in_app_iff. cbn [In]. intuition congruence. }
  assert (Lo : forall y, In y (live (c_d c)) -> s_lits s' y = s_lits (c_s c) y).
  { intros y I. rewrite (ad_lits _ _ _ _ _ _ _ Ad). destruct (N.eqb_spec y x) as [->|]; [|reflexivity]. exfalso. exact (ad_new _ _ _ _ _ _ _ Ad I). }
  assert (Ln : s_lits s' x = cl) by (rewrite (ad_lits _ _ _ _ _ _ _ Ad), N.eqb_refl; reflexivity).
  destruct K. constructor; cbn [cw_d cw_s c_s c_d c_bin c_v c_vs c_as]; auto.
  - destruct mn_base0. constructor; assumption.
  - apply Ad.
  - rewrite (ad_trail _ _ _ _ _ _ _ Ad). exact mn_trail0.
  - destruct mn_used0 as [A1 A2]. split; [|exact A2]. intros y l I J. apply Li in I as [I| ->].
    + rewrite (Lo _ I) in J. eapply A1; eassumption.
    + rewrite Ln in J. apply U. exact J.
  - rewrite (ad_val _ _ _ _ _ _ _ Ad). exact mn_open0.
  - intros g y z G Q. apply Fx. eapply mn_unit0; eassumption.
  - intros b Mb. apply E in Mb as [Mb Hc]. destruct (mn_sound0 b Mb) as ((S1 & S2) & Kb & Ub). split; [split|split; [|exact Ub]].
    + intros y I. rewrite (ch_lift _ _ _ _ _ Ab). apply Li in I as [I| ->]; [rewrite (Lo _ I); apply S1; exact I|rewrite Ln; exact Hc].
    + intros l o I. rewrite (ch_lift _ _ _ _ _ Ab). apply S2. exact I.
    + intros y z Q. rewrite (lift_ext _ _ _ _ _ (Ab y)). apply Kb. apply Fx. exact Q.
  - intros b S1 S2 Kb Ub.
    assert (Cb : exists b', agree (c_v c) b b' /\ models b' F).
    { apply mn_comp0; auto.
      - intros y [I Ti]. rewrite <- (ch_lift _ _ _ _ _ Ab), <- (Lo _ I). apply S1. split; [apply Li; left; exact I|].
        rewrite (ad_tier _ _ _ _ _ _ _ Ad) by exact I. exact Ti.
      - intros l o I. rewrite <- (ch_lift _ _ _ _ _ Ab). apply S2. exact I.
      - intros y z Q. rewrite <- (lift_ext _ _ _ _ _ (Ab y)). apply Kb. apply Fx. exact Q. }
    destruct Cb as (b' & Ag & Mb). exists b'. split; [exact Ag|]. destruct Or as [Or|Or]; [|apply Or; exact Mb]. apply E. split; [exact Mb|].
    rewrite (ch_ext _ (lift (c_v c) (c_s c) b)) by (intros l _; apply lift_agree; [apply mn_base0|exact Ag]).
    rewrite <- (ch_lift _ _ _ _ _ Ab), <- Ln. apply S1. split; [apply Li; right; reflexivity|]. rewrite (ad_own _ _ _ _ _ _ _ Ad). exact Or.
  - intros i p. rewrite (ad_decs _ _ _ _ _ _ _ Ad), (ad_trail _ _ _ _ _ _ _ Ad). apply mn_dec0.
  - intros b Mb S. apply mn_all0; [apply E in Mb; apply Mb|]. intros l I. rewrite <- (lh_lift _ _ _ _ _ Ab). apply S. exact I.
Qed.

(** What the search keeps *)
Section AddLong.
Context {n : N} {bin : N -> list N} {s : search} {d : cdb} {cl : list N} {h : hdr} {s' : search} {d' : cdb} {x : N}.
Context (Ad : added s d cl h s' d' x).

Lemma added_lits y : In y (live d) -> s_lits s' y = s_lits s y.
Proof. intros I. rewrite (ad_lits _ _ _ _ _ _ _ Ad). destruct (N.eqb_spec y x) as [->|]; [exfalso; exact (ad_new _ _ _ _ _ _ _ Ad I)|reflexivity]. Qed.
Lemma added_new : s_lits s' x = cl.
Proof. rewrite (ad_lits _ _ _ _ _ _ _ Ad), N.eqb_refl. reflexivity. Qed.
Lemma added_in y : In y (live d') <-> In y (live d) \/ y = x.
Proof. rewrite (ad_live _ _ _ _ _ _ _ Ad), in_app_iff. cbn [In]. intuition congruence. Qed.
Lemma added_istrue l : istrue s' l <-> istrue s l.
Proof. unfold istrue. rewrite (ad_val _ _ _ _ _ _ _ Ad). tauto. Qed.

Lemma added_trail : trail_ok n s -> store_ok n (live d) bin s -> trail_ok n s'.
Proof.
  intros T S. destruct T. constructor; rewrite ?(ad_val _ _ _ _ _ _ _ Ad), ?(ad_trail _ _ _ _ _ _ _ Ad), ?(ad_decs _ _ _ _ _ _ _ Ad), ?(ad_head _ _ _ _ _ _ _ Ad),
    ?(ad_level _ _ _ _ _ _ _ Ad), ?(ad_reason _ _ _ _ _ _ _ Ad), ?(ad_depth _ _ _ _ _ _ _ Ad); auto.
  - intros l I. apply added_istrue. auto.
  - intros p l Q. specialize (tk_reason p l Q). pose proof (nth_error_In _ _ Q) as Il. unfold reason_ok in *. rewrite (ad_reason _ _ _ _ _ _ _ Ad), (ad_decs _ _ _ _ _ _ _ Ad).
    unfold before in *. rewrite (ad_trail _ _ _ _ _ _ _ Ad). destruct (s_reason s (lit_var l)) as [|o|y] eqn:R; [exact tk_reason|exact tk_reason|].
    rewrite added_lits; [exact tk_reason|]. eapply so_rlong; eassumption.
Qed.
Lemma added_store : store_ok n (live d) bin s -> clause_ok n cl ->
  (forall l, In l cl -> s_val s (lit_var l) <> None -> on_trail s l) -> store_ok n (live d') bin s'.
Proof.
  intros S C On. destruct S. constructor; unfold on_trail in *;
    rewrite ?(ad_val _ _ _ _ _ _ _ Ad), ?(ad_trail _ _ _ _ _ _ _ Ad), ?(ad_reason _ _ _ _ _ _ _ Ad); auto.
  - eapply live_nodup. apply (proj1 (ad_db _ _ _ _ _ _ _ Ad)).
  - intros y I. apply added_in in I as [I| ->]; [rewrite added_lits by exact I; apply so_clause; exact I|rewrite added_new; exact C].
  - intros y l I J. apply added_in in I as [I| ->]; [rewrite added_lits in J by exact I; eapply so_on_long; eassumption|].
    rewrite added_new in J. apply On. exact J.
  - intros l y I R. apply added_in. left. eapply so_rlong; eassumption.
Qed.
Lemma added_watch : (s_wen s = true -> watch_ok (live d) s (s_watch s)) -> clause_ok n cl -> (s_wen s' = true -> watch_ok (live d') s' (s_watch s')).
Proof.
  intros W (C1 & C2 & _) E. rewrite (ad_wen _ _ _ _ _ _ _ Ad) in E. assert (exists c0 c1 r, cl = c0 :: c1 :: r) as (c0 & c1 & r & Ec) by (clear - C1; destruct cl as [|c0 [|c1 r]]; [cbn in C1; lia|cbn in C1; lia|eauto]).
  eapply watch_ok_add with (c := x) (c0 := c0) (c1 := c1); [apply W; exact E|apply Ad| | | | |].
  - intros y. rewrite added_in. tauto.
  - intros y I. apply added_lits. exact I.
  - rewrite added_new. exact Ec.
  - rewrite Ec in C2. cbn [map] in C2. inversion C2 as [|? ? Q _]; subst. intros ->. apply Q. left. reflexivity.
  - rewrite (ad_watch _ _ _ _ _ _ _ Ad E), Ec. reflexivity.
Qed.
Lemma added_processed l : processed s' l <-> processed s l.
Proof. unfold processed. rewrite (ad_head _ _ _ _ _ _ _ Ad), (ad_trail _ _ _ _ _ _ _ Ad). tauto. Qed.
(** The new clause is an exception. *)
Lemma added_prop exL exB : prop_ok (live d) bin s exL exB -> prop_ok (live d') bin s' (fun l y => exL l y \/ y = x) exB.
Proof.
  intros P. destruct P. constructor.
  - intros y c0 c1 r w I Q Hw Pr. apply added_processed in Pr. apply added_in in I as [I| ->]; [|tauto].
    rewrite added_lits in * by exact I. destruct (po_long y c0 c1 r w I Q Hw Pr) as [H|(t & I1 & I2 & I3)]; [tauto|]. right.
    exists t. rewrite (ad_level _ _ _ _ _ _ _ Ad). split; [exact I1|]. split; [apply added_istrue; exact I2|exact I3].
  - intros l o I Pr. apply added_processed in Pr. rewrite (ad_level _ _ _ _ _ _ _ Ad). destruct (po_bin l o I Pr) as [H|[H1 H2]]; [tauto|].
    right. split; [apply added_istrue; exact H1|exact H2].
Qed.
End AddLong.

Lemma prop_head0 L bin s exL exB : s_head s = 0 -> prop_ok L bin s exL exB.
Proof.
  intros H. constructor.
  - intros x c0 c1 r w _ _ _ (p & B & _). rewrite H in B. lia.
  - intros l o _ (p & B & _). rewrite H in B. lia.
Qed.
