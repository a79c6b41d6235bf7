(** The trail and the implication graph of Search.v: their invariant and what preserves it. *)
From Coq Require Import Lia Arith PeanoNat Sorted.
From Verif Require Import Spec Lit LitProofs F32 Vsids VsidsProofs VsidsWf Search.
Local Open Scope nat_scope.

(** * Values of literals *)
Definition istrue (s : search) (l : N) : Prop := s_val s (lit_var l) = Some (is_positive l).
Definition isfalse (s : search) (l : N) : Prop := istrue s (lnot l).

Lemma lh_iff a l : lit_holds a l = xorb (a (lit_var l)) (is_negative l).
Proof. unfold lit_holds. rewrite <- lit_var_div, <- is_negative_odd. reflexivity. Qed.
Lemma lh_true a l : lit_holds a l = true <-> a (lit_var l) = is_positive l.
Proof. rewrite lh_iff. unfold is_positive. destruct (a (lit_var l)), (is_negative l); cbn; intuition congruence. Qed.
Lemma lh_false a l : lit_holds a l = false <-> lit_holds a (lnot l) = true.
Proof. rewrite lit_holds_lnot. destruct (lit_holds a l); cbn; intuition congruence. Qed.
Lemma ch_in a c : clause_holds a c = true <-> exists l, In l c /\ lit_holds a l = true.
Proof. unfold clause_holds. rewrite existsb_exists. reflexivity. Qed.
Lemma ch_incl a c c' : (forall l, In l c -> In l c') -> clause_holds a c = true -> clause_holds a c' = true.
Proof. rewrite !ch_in. intros H (l & I & L). eauto. Qed.

Lemma pos_lnot l : is_positive (lnot l) = negb (is_positive l).
Proof. unfold is_positive. rewrite lnot_sign. reflexivity. Qed.

Lemma isfalse_iff s l : isfalse s l <-> s_val s (lit_var l) = Some (is_negative l).
Proof. unfold isfalse, istrue. rewrite lnot_var, pos_lnot. unfold is_positive. rewrite negb_involutive. reflexivity. Qed.
Lemma ltrue_iff s l : ltrue s l = true <-> istrue s l.
Proof.
  unfold ltrue, istrue. destruct (s_val s (lit_var l)) as [b|]; [|intuition congruence].
  rewrite Bool.eqb_true_iff. intuition congruence.
Qed.
Lemma lfalse_iff s l : lfalse s l = true <-> isfalse s l.
Proof.
  rewrite isfalse_iff. unfold lfalse. destruct (s_val s (lit_var l)) as [b|]; [|intuition congruence].
  rewrite Bool.eqb_true_iff. intuition congruence.
Qed.
Lemma lunk_iff s l : lunk s l = true <-> s_val s (lit_var l) = None.
Proof. unfold lunk. destruct (s_val s (lit_var l)); intuition congruence. Qed.
Lemma ltrue_false s l : ltrue s l = false <-> ~ istrue s l.
Proof. rewrite <- ltrue_iff. destruct (ltrue s l); intuition congruence. Qed.
Lemma lfalse_false s l : lfalse s l = false <-> ~ isfalse s l.
Proof. rewrite <- lfalse_iff. destruct (lfalse s l); intuition congruence. Qed.
Lemma lunk_false s l : lunk s l = false <-> s_val s (lit_var l) <> None.
Proof. unfold lunk. destruct (s_val s (lit_var l)); intuition congruence. Qed.
Lemma true_not_false s l : istrue s l -> ~ isfalse s l.
Proof. rewrite isfalse_iff. unfold istrue, is_positive. destruct (is_negative l); intros -> E; discriminate. Qed.
Lemma value_cases s l : istrue s l \/ isfalse s l \/ s_val s (lit_var l) = None.
Proof.
  rewrite isfalse_iff. unfold istrue, is_positive.
  destruct (s_val s (lit_var l)) as [b|]; [|auto]. destruct b, (is_negative l); auto.
Qed.
Lemma unk_not_true s l : s_val s (lit_var l) = None -> ~ istrue s l.
Proof. unfold istrue. congruence. Qed.
Lemma unk_not_false s l : s_val s (lit_var l) = None -> ~ isfalse s l.
Proof. rewrite isfalse_iff. congruence. Qed.
Lemma isfalse_lnot s l : isfalse s (lnot l) <-> istrue s l.
Proof. unfold isfalse. rewrite lnot_invol. reflexivity. Qed.
Lemma istrue_assigned s l : istrue s l -> s_val s (lit_var l) <> None.
Proof. unfold istrue. congruence. Qed.
Lemma isfalse_assigned s l : isfalse s l -> s_val s (lit_var l) <> None.
Proof. rewrite isfalse_iff. congruence. Qed.
Lemma istrue_val s s' l : s_val s' = s_val s -> istrue s l -> istrue s' l.
Proof. unfold istrue. congruence. Qed.
Lemma same_true s a b : istrue s a -> istrue s b -> lit_var a = lit_var b -> a = b.
Proof.
  intros A B E. destruct (same_var_cases _ _ E) as [?| ->]; [assumption|].
  exfalso. exact (true_not_false s b B A).
Qed.

(** * Levels *)
Definition lvl (decs : list nat) (p : nat) : nat := length (filter (fun d => Nat.leb d p) decs).

Lemma lvl_le decs p : lvl decs p <= length decs.
Proof. unfold lvl. induction decs as [|d ds IH]; cbn; [lia|]. destruct (Nat.leb d p); cbn; lia. Qed.
Lemma lvl_mono decs p q : p <= q -> lvl decs p <= lvl decs q.
Proof.
  intros L. unfold lvl. induction decs as [|d ds IH]; cbn; [lia|].
  destruct (Nat.leb_spec d p), (Nat.leb_spec d q); cbn; lia.
Qed.
Lemma lvl_app a b p : lvl (a ++ b) p = lvl a p + lvl b p.
Proof. unfold lvl. rewrite filter_app, app_length. reflexivity. Qed.
Lemma lvl_all decs p : (forall d, In d decs -> d <= p) -> lvl decs p = length decs.
Proof.
  unfold lvl. induction decs as [|d ds IH]; intros H; cbn; [reflexivity|].
  destruct (Nat.leb_spec d p); [cbn; rewrite IH; auto; intros; apply H; right; auto|].
  specialize (H d (or_introl eq_refl)). lia.
Qed.
Lemma lvl_none decs p : (forall d, In d decs -> p < d) -> lvl decs p = 0.
Proof.
  unfold lvl. induction decs as [|d ds IH]; intros H; cbn; [reflexivity|].
  destruct (Nat.leb_spec d p); [specialize (H d (or_introl eq_refl)); lia|].
  apply IH. intros; apply H; right; auto.
Qed.
Lemma lvl_in decs d : In d decs -> 0 < lvl decs d.
Proof.
  unfold lvl. induction decs as [|x ds IH]; [intros []|]. intros [->|H]; cbn.
  - rewrite Nat.leb_refl. cbn. lia.
  - destruct (Nat.leb x d); cbn; auto with arith.
Qed.

Definition sorted (decs : list nat) : Prop := StronglySorted lt decs.
Lemma sorted_app_lt a b : sorted (a ++ b) -> forall x y, In x a -> In y b -> x < y.
Proof.
  induction a as [|z a IH]; intros H x y Hx Hy; [destruct Hx|].
  inversion H as [|? ? S F]; subst. destruct Hx as [->|Hx].
  - rewrite Forall_forall in F. apply F. apply in_or_app. auto.
  - eauto.
Qed.
Lemma sorted_app_l a b : sorted (a ++ b) -> sorted a.
Proof.
  induction a as [|z a IH]; intros H; [constructor|]. inversion H as [|? ? S F]; subst.
  constructor; [apply IH; exact S|]. apply Forall_app in F. tauto.
Qed.
Lemma sorted_snoc a x : sorted a -> (forall d, In d a -> d < x) -> sorted (a ++ [x]).
Proof.
  induction a as [|z a IH]; intros H L; [repeat constructor|]. inversion H as [|? ? S F]; subst. cbn.
  constructor; [apply IH; auto; intros; apply L; right; auto|].
  apply Forall_app. split; [exact F|]. repeat constructor. apply L. left. reflexivity.
Qed.

(** Positions below the [k]-th decision have at most level [k], those from it on more. *)
Lemma lvl_cut decs k p : sorted decs -> k < length decs ->
  (p < nth k decs 0 <-> lvl decs p <= k) /\ (p < nth k decs 0 -> lvl decs p = lvl (firstn k decs) p).
Proof.
  intros S K. pose proof (firstn_skipn k decs) as E.
  assert (Es : skipn k decs = nth k decs 0 :: skipn (Datatypes.S k) decs).
  { clear S E. revert k K. induction decs as [|d ds IH]; intros k K; [cbn in K; lia|].
    destruct k; [reflexivity|]. cbn in *. apply IH. lia. }
  rewrite Es in E. rewrite <- E in S.
  pose proof (sorted_app_lt _ _ S) as O.
  set (x := nth k decs 0) in *. set (a := firstn k decs) in *. set (b := skipn (Datatypes.S k) decs) in *.
  assert (La : length a = k) by (unfold a; rewrite firstn_length; lia).
  assert (Sb : forall y, In y b -> x < y).
  { intros y Hy. clear - S Hy. revert S. induction a as [|z a IH]; intros S; inversion S as [|? ? S' F]; subst.
    - rewrite Forall_forall in F. apply F. exact Hy.
    - auto. }
  assert (Sa : forall y, In y a -> y < x).
  { intros y Hy. apply O; [exact Hy|]. left. reflexivity. }
  rewrite <- E, lvl_app. change (x :: b) with ([x] ++ b). rewrite lvl_app.
  split.
  - split; intros H.
    + pose proof (lvl_le a p). rewrite (lvl_none b p), (lvl_none [x] p).
      * lia.
      * intros d [<-|[]]. lia.
      * intros d Hd. specialize (Sb d Hd). lia.
    + destruct (Nat.lt_ge_cases p x) as [|G]; [assumption|]. exfalso.
      rewrite (lvl_all a p), (lvl_all [x] p) in H; cbn in H; try lia.
      * intros d [<-|[]]. lia.
      * intros d Hd. specialize (Sa d Hd). lia.
  - intros H. rewrite (lvl_none b p), (lvl_none [x] p); [lia| |].
    + intros d [<-|[]]. lia.
    + intros d Hd. specialize (Sb d Hd). lia.
Qed.

(** * The invariant of trail and implication graph *)
Definition before (s : search) (p : nat) (x : N) : Prop :=
  exists q, q < p /\ nth_error (s_trail s) q = Some x.

Definition reason_ok (s : search) (p : nat) (l : N) : Prop :=
  match s_reason s (lit_var l) with
  | RUnit => In p (s_decs s) \/ lvl (s_decs s) p = 0
  | RBinary b => ~ In p (s_decs s) /\ before s p (lnot b)
  | RLong c => ~ In p (s_decs s) /\
      exists rest, s_lits s c = l :: rest /\ forall x, In x rest -> before s p (lnot x)
  end.

Record trail_ok (n : N) (s : search) : Prop := {
  tk_nodup : NoDup (map lit_var (s_trail s));
  tk_true : forall l, In l (s_trail s) -> istrue s l;
  tk_assigned : forall v, s_val s v <> None ->
      In v (map lit_var (s_trail s)) \/ (s_depth s v = None /\ s_reason s v = RUnit);
  tk_depth : forall p l, nth_error (s_trail s) p = Some l -> s_depth s (lit_var l) = Some (S p);
  tk_level : forall p l, nth_error (s_trail s) p = Some l -> s_level s (lit_var l) = lvl (s_decs s) p;
  tk_sorted : sorted (s_decs s);
  tk_decs : forall d, In d (s_decs s) -> d < length (s_trail s) /\ d <= s_head s;
  tk_head : s_head s <= length (s_trail s);
  tk_reason : forall p l, nth_error (s_trail s) p = Some l -> reason_ok s p l;
  tk_vars : forall v, s_val s v <> None -> (v < n)%N }.

Lemma in_vars l tr : In (lit_var l) (map lit_var tr) -> In l tr \/ In (lnot l) tr.
Proof.
  rewrite in_map_iff. intros (x & E & I). destruct (same_var_cases _ _ E) as [->| ->]; auto.
Qed.

Lemma before_app s s' p x t : s_trail s' = s_trail s ++ t -> before s p x -> before s' p x.
Proof.
  intros E (q & L & H). exists q. split; [exact L|]. rewrite E, nth_error_app1; [exact H|].
  apply nth_error_Some. congruence.
Qed.

Lemma nth_error_snoc {A} (l : list A) x p y : nth_error (l ++ [x]) p = Some y ->
  (p < length l /\ nth_error l p = Some y) \/ (p = length l /\ y = x).
Proof.
  intros H. destruct (Nat.lt_ge_cases p (length l)) as [L|L].
  - left. rewrite nth_error_app1 in H by exact L. auto.
  - right. rewrite nth_error_app2 in H by exact L.
    destruct (p - length l) as [|k] eqn:E; cbn in H; [|destruct k; discriminate].
    injection H as <-. split; [lia|reflexivity].
Qed.

Lemma trail_ok_length n s : trail_ok n s -> length (s_trail s) <= N.to_nat n.
Proof.
  intros K. rewrite <- (map_length lit_var).
  assert (I : incl (map lit_var (s_trail s)) (map N.of_nat (seq 0 (N.to_nat n)))).
  { intros v Hv. apply in_map_iff in Hv. destruct Hv as (l & <- & Hl).
    pose proof (tk_vars _ _ K (lit_var l) (istrue_assigned _ _ (tk_true _ _ K l Hl))) as L.
    apply in_map_iff. exists (N.to_nat (lit_var l)). split; [lia|]. apply in_seq. lia. }
  pose proof (NoDup_incl_length (tk_nodup _ _ K) I) as H. rewrite (map_length N.of_nat), seq_length in H. exact H.
Qed.

(** An unassigned variable is not on the trail. *)
Lemma unk_not_in n s l : trail_ok n s -> s_val s (lit_var l) = None -> ~ In (lit_var l) (map lit_var (s_trail s)).
Proof.
  intros K U I. apply in_map_iff in I. destruct I as (x & E & I).
  pose proof (tk_true _ _ K x I) as T. unfold istrue in T. congruence.
Qed.

Lemma enqueue_istrue s l r x : s_val s (lit_var l) = None ->
  (istrue (enqueue s l r) x <-> istrue s x \/ x = l).
Proof.
  intros U. unfold istrue, enqueue. cbn [s_val]. unfold upd.
  destruct (N.eqb_spec (lit_var x) (lit_var l)) as [E|NE].
  - split.
    + intros H. right. apply lit_eq_split; [exact E|]. injection H as H.
      unfold is_positive in H. destruct (is_negative l), (is_negative x); cbn in H; congruence.
    + intros [H| ->]; [congruence|reflexivity].
  - split; [auto|]. intros [H| ->]; [exact H|congruence].
Qed.
Lemma enqueue_isfalse s l r x : s_val s (lit_var l) = None ->
  (isfalse (enqueue s l r) x <-> isfalse s x \/ x = lnot l).
Proof.
  intros U. unfold isfalse. rewrite enqueue_istrue by exact U.
  split; (intros [H|H]; [left; exact H|right]); [rewrite <- H, lnot_invol|rewrite H, lnot_invol]; reflexivity.
Qed.

(** The reason given to a newly assigned literal *)
Definition new_reason_ok (s : search) (l : N) (r : reason) : Prop :=
  match r with
  | RUnit => s_decs s = []
  | RBinary b => In (lnot b) (s_trail s)
  | RLong c => exists rest, s_lits s c = l :: rest /\ forall x, In x rest -> In (lnot x) (s_trail s)
  end.

Lemma in_before s x : In x (s_trail s) -> before s (length (s_trail s)) x.
Proof.
  intros H. apply In_nth_error in H. destruct H as (q & H). exists q. split; [|exact H].
  apply nth_error_Some. congruence.
Qed.

Lemma before_in s p x : before s p x -> In x (s_trail s).
Proof. intros (q & _ & H). eapply nth_error_In; eauto. Qed.

(** [enqueue] with the fields other than head and decisions fixed; also used for decisions. *)
Lemma enqueue_ok_gen n s l r : trail_ok n s -> s_val s (lit_var l) = None -> (lit_var l < n)%N ->
  (r = RUnit -> s_decs s = []) ->
  new_reason_ok s l r -> trail_ok n (enqueue s l r).
Proof.
  intros K U B R0 R.
  pose proof (unk_not_in _ _ _ K U) as NI.
  assert (Dle : forall d, In d (s_decs s) -> d < length (s_trail s)) by (intros d Hd; apply (tk_decs _ _ K); exact Hd).
  constructor; cbn [enqueue s_trail s_val s_decs s_head s_depth s_level s_reason].
  - rewrite map_app. cbn [map].
    rewrite <- (rev_involutive (map lit_var (s_trail s) ++ [lit_var l])). apply NoDup_rev.
    rewrite rev_app_distr. cbn. constructor; [rewrite <- in_rev; exact NI|]. apply NoDup_rev. apply (tk_nodup _ _ K).
  - intros x Hx. apply enqueue_istrue; [exact U|]. apply in_app_or in Hx.
    destruct Hx as [Hx|[<-|[]]]; [left; apply (tk_true _ _ K); exact Hx|right; reflexivity].
  - intros v. unfold upd. destruct (N.eqb_spec v (lit_var l)) as [->|NE].
    + intros _. left. rewrite map_app, in_app_iff. right. left. reflexivity.
    + intros H. destruct (tk_assigned _ _ K v H) as [I|I]; [left|right; exact I].
      rewrite map_app, in_app_iff. left. exact I.
  - intros p x H. apply nth_error_snoc in H. destruct H as [[L H]|[-> ->]].
    + rewrite upd_ne; [exact (tk_depth _ _ K p x H)|]. intros E. apply NI. rewrite <- E.
      apply in_map. eapply nth_error_In; eauto.
    + rewrite upd_eq. reflexivity.
  - intros p x H. apply nth_error_snoc in H. destruct H as [[L H]|[-> ->]].
    + rewrite upd_ne; [exact (tk_level _ _ K p x H)|]. intros E. apply NI. rewrite <- E.
      apply in_map. eapply nth_error_In; eauto.
    + rewrite upd_eq. symmetry. apply lvl_all. intros d Hd. specialize (Dle d Hd). lia.
  - apply (tk_sorted _ _ K).
  - intros d Hd. rewrite app_length. cbn. destruct (tk_decs _ _ K d Hd). lia.
  - rewrite app_length. pose proof (tk_head _ _ K). lia.
  - intros p x H. apply nth_error_snoc in H. destruct H as [[L H]|[-> ->]].
    + pose proof (tk_reason _ _ K p x H) as Q. unfold reason_ok in *. cbn [enqueue s_reason s_lits s_decs].
      rewrite upd_ne.
      2:{ intros E. apply NI. rewrite <- E. apply in_map. eapply nth_error_In; eauto. }
      destruct (s_reason s (lit_var x)) as [|b|c]; [exact Q| |].
      * destruct Q as [Q1 Q2]. split; [exact Q1|]. eapply before_app; [reflexivity|exact Q2].
      * destruct Q as (Q1 & rest & E & Q2). split; [exact Q1|]. exists rest. split; [exact E|].
        intros y Hy. eapply before_app; [reflexivity|]. auto.
    + unfold reason_ok. cbn [enqueue s_reason s_lits s_decs]. rewrite upd_eq.
      assert (Nd : ~ In (length (s_trail s)) (s_decs s)) by (intros H; specialize (Dle _ H); lia).
      destruct r as [|b|c]; cbn in R.
      * right. rewrite R. reflexivity.
      * split; [exact Nd|]. eapply before_app; [reflexivity|]. apply in_before. exact R.
      * destruct R as (rest & E & R). split; [exact Nd|]. exists rest. split; [exact E|].
        intros y Hy. eapply before_app; [reflexivity|]. apply in_before. auto.
  - intros v. unfold upd. destruct (N.eqb_spec v (lit_var l)) as [->|NE]; [intros _; exact B|].
    apply (tk_vars _ _ K).
Qed.

Lemma enqueue_ok n s l r : trail_ok n s -> s_val s (lit_var l) = None -> (lit_var l < n)%N ->
  new_reason_ok s l r -> trail_ok n (enqueue s l r).
Proof.
  intros K U B R. apply enqueue_ok_gen; auto. intros ->. exact R.
Qed.

(** A decision: [new_decision_level] followed by [enqueue]. *)
Definition decide (s : search) (l : N) : search := enqueue (new_decision_level s) l RUnit.

Lemma decide_ok n s l : trail_ok n s -> s_val s (lit_var l) = None -> (lit_var l < n)%N ->
  s_head s = length (s_trail s) -> trail_ok n (decide s l).
Proof.
  intros K U B Hh.
  pose proof (unk_not_in _ _ _ K U) as NI.
  assert (Dle : forall d, In d (s_decs s) -> d < length (s_trail s)) by (intros d Hd; apply (tk_decs _ _ K); exact Hd).
  unfold decide, new_decision_level, with_decs.
  constructor; cbn [enqueue s_trail s_val s_decs s_head s_depth s_level s_reason].
  - rewrite map_app. cbn [map].
    rewrite <- (rev_involutive (map lit_var (s_trail s) ++ [lit_var l])). apply NoDup_rev.
    rewrite rev_app_distr. cbn. constructor; [rewrite <- in_rev; exact NI|]. apply NoDup_rev. apply (tk_nodup _ _ K).
  - intros x Hx. apply in_app_or in Hx. unfold istrue. cbn [enqueue s_val]. destruct Hx as [Hx|[<-|[]]].
    + rewrite upd_ne; [apply (tk_true _ _ K); exact Hx|]. intros E. apply NI. rewrite <- E. apply in_map. exact Hx.
    + rewrite upd_eq. reflexivity.
  - intros v. unfold upd. destruct (N.eqb_spec v (lit_var l)) as [->|NE].
    + intros _. left. rewrite map_app, in_app_iff. right. left. reflexivity.
    + intros H. destruct (tk_assigned _ _ K v H) as [I|I]; [left|right; exact I].
      rewrite map_app, in_app_iff. left. exact I.
  - intros p x H. apply nth_error_snoc in H. destruct H as [[L H]|[-> ->]].
    + rewrite upd_ne; [exact (tk_depth _ _ K p x H)|]. intros E. apply NI. rewrite <- E.
      apply in_map. eapply nth_error_In; eauto.
    + rewrite upd_eq. reflexivity.
  - intros p x H. apply nth_error_snoc in H. destruct H as [[L H]|[-> ->]].
    + rewrite upd_ne.
      * rewrite (tk_level _ _ K p x H), lvl_app. rewrite (lvl_none [length (s_trail s)]); [lia|].
        intros d [<-|[]]. exact L.
      * intros E. apply NI. rewrite <- E. apply in_map. eapply nth_error_In; eauto.
    + rewrite upd_eq. symmetry. apply lvl_all. intros d Hd. apply in_app_or in Hd.
      destruct Hd as [Hd|[<-|[]]]; [specialize (Dle d Hd); lia|lia].
  - apply sorted_snoc; [apply (tk_sorted _ _ K)|exact Dle].
  - intros d Hd. rewrite app_length. cbn. apply in_app_or in Hd.
    destruct Hd as [Hd|[<-|[]]]; [destruct (tk_decs _ _ K d Hd); lia|lia].
  - rewrite app_length. pose proof (tk_head _ _ K). lia.
  - intros p x H. apply nth_error_snoc in H. destruct H as [[L H]|[-> ->]].
    + pose proof (tk_reason _ _ K p x H) as Q. unfold reason_ok in *. cbn [enqueue s_reason s_lits s_decs].
      rewrite upd_ne.
      2:{ intros E. apply NI. rewrite <- E. apply in_map. eapply nth_error_In; eauto. }
      destruct (s_reason s (lit_var x)) as [|b|c].
      * destruct Q as [Q|Q]; [left; apply in_or_app; left; exact Q|right].
        rewrite lvl_app, Q, (lvl_none [length (s_trail s)]); [reflexivity|]. intros d [<-|[]]. exact L.
      * destruct Q as [Q1 Q2]. split.
        -- rewrite in_app_iff. intros [?|[?|[]]]; [auto|lia].
        -- eapply before_app; [reflexivity|exact Q2].
      * destruct Q as (Q1 & rest & E & Q2). split.
        -- rewrite in_app_iff. intros [?|[?|[]]]; [auto|lia].
        -- exists rest. split; [exact E|]. intros y Hy. eapply before_app; [reflexivity|]. apply Q2. exact Hy.
    + unfold reason_ok. cbn [enqueue s_reason s_lits s_decs]. rewrite upd_eq.
      left. apply in_or_app. right. left. reflexivity.
  - intros v. unfold upd. destruct (N.eqb_spec v (lit_var l)) as [->|NE]; [intros _; exact B|].
    apply (tk_vars _ _ K).
Qed.

(** * Backtracking *)
Lemma undo_spec tr : forall val last vs val' last' vs', NoDup (map lit_var tr) ->
  undo val last vs tr = (val', last', vs') ->
  (forall v, In v (map lit_var tr) -> val' v = None) /\
  (forall v, ~ In v (map lit_var tr) -> val' v = val v) /\
  (forall v, In v (map lit_var tr) -> last' v = match val v with Some b => b | None => false end) /\
  (forall v, ~ In v (map lit_var tr) -> last' v = last v) /\
  (wf vs -> wf vs' /\ forall x, In x (vs_heap vs') <-> In x (map lit_var tr) \/ In x (vs_heap vs)).
Proof.
  induction tr as [|l tr IH]; intros val last vs val' last' vs' ND E; cbn [undo map In] in *.
  - injection E as <- <- <-. split; [intros v []|]. split; [reflexivity|]. split; [intros v []|].
    split; [reflexivity|]. intros W. split; [exact W|]. cbn [In]. tauto.
  - inversion ND as [|? ? NI ND']; subst.
    apply IH in E; [|exact ND']. destruct E as (A & B & C & D & W).
    split; [|split; [|split; [|split]]].
    + intros v [<-|H]; [|auto]. rewrite B by exact NI. apply upd_eq.
    + intros v H. rewrite B by tauto. apply upd_ne. intros ->. tauto.
    + intros v [<-|H].
      * rewrite D by exact NI. apply upd_eq.
      * rewrite C by exact H. rewrite upd_ne; [reflexivity|]. intros ->. contradiction.
    + intros v H. rewrite D by tauto. apply upd_ne. intros ->. tauto.
    + intros W0. destruct (vstep_wf vs (OAvail (lit_var l)) _ None W0 eq_refl) as [W1 A1].
      cbn [avail_after] in A1. destruct (W W1) as [W2 A2]. split; [exact W2|].
      intros x. rewrite A2, A1. cbn [In]. intuition.
Qed.

Lemma nth_error_firstn {A} (l : list A) k p : p < k -> nth_error (firstn k l) p = nth_error l p.
Proof.
  revert k p. induction l as [|x l IH]; intros [|k] [|p] H; cbn; try lia; try reflexivity.
  apply IH. lia.
Qed.
Lemma nth_error_firstn_some {A} (l : list A) k p x :
  nth_error (firstn k l) p = Some x <-> p < k /\ nth_error l p = Some x.
Proof.
  split.
  - intros H. assert (L : p < length (firstn k l)) by (apply nth_error_Some; congruence).
    rewrite firstn_length in L. split; [lia|]. rewrite nth_error_firstn in H by lia. exact H.
  - intros [L H]. rewrite nth_error_firstn by exact L. exact H.
Qed.
Lemma skipn_sorted decs k d : sorted decs -> k < length decs -> In d decs -> In d (firstn k decs) \/ nth k decs 0 <= d.
Proof.
  intros S K H. destruct (Nat.lt_ge_cases d (nth k decs 0)) as [L|L]; [left|auto].
  rewrite <- (firstn_skipn k decs) in H. apply in_app_or in H. destruct H as [H|H]; [exact H|exfalso].
  assert (Es : skipn k decs = nth k decs 0 :: skipn (Datatypes.S k) decs).
  { clear - K. revert k K. induction decs as [|x ds IH]; intros k K; [cbn in K; lia|].
    destruct k; [reflexivity|]. cbn in *. apply IH. lia. }
  rewrite Es in H. destruct H as [E0|H]; [lia|].
  rewrite <- (firstn_skipn k decs), Es in S. clear - S H L.
  revert S L. generalize (nth k decs 0). intros x S L. induction (firstn k decs) as [|z a IH]; inversion S as [|? ? S' F]; subst.
  - rewrite Forall_forall in F. specialize (F d H). lia.
  - auto.
Qed.

(** What [backtrack] does if there is something to undo. *)
Record undone (s : search) (k : nat) (s' : search) : Prop := {
  ud_val : forall v, s_val s' v =
     if existsb (N.eqb v) (map lit_var (skipn (nth k (s_decs s) 0) (s_trail s))) then None else s_val s v;
  ud_trail : s_trail s' = firstn (nth k (s_decs s) 0) (s_trail s);
  ud_head : s_head s' = nth k (s_decs s) 0;
  ud_decs : s_decs s' = firstn k (s_decs s);
  ud_reason : s_reason s' = s_reason s;
  ud_level : s_level s' = s_level s;
  ud_depth : s_depth s' = s_depth s;
  ud_lits : s_lits s' = s_lits s;
  ud_watch : s_watch s' = s_watch s;
  ud_wen : s_wen s' = s_wen s }.

Lemma memb_in v l : existsb (N.eqb v) l = true <-> In v l.
Proof.
  rewrite existsb_exists. split.
  - intros (x & I & E). apply N.eqb_eq in E. subst. exact I.
  - intros I. exists v. split; [exact I|apply N.eqb_refl].
Qed.
Lemma NoDup_app_l {A} (a b : list A) : NoDup (a ++ b) -> NoDup a.
Proof. induction a as [|x a IH]; cbn; intros H; [constructor|]. inversion H; subst. constructor; [rewrite in_app_iff in *; tauto|auto]. Qed.
Lemma NoDup_app_r {A} (a b : list A) : NoDup (a ++ b) -> NoDup b.
Proof. induction a as [|x a IH]; cbn; intros H; [exact H|]. inversion H; subst. auto. Qed.
Lemma NoDup_app_disj {A} (a b : list A) x : NoDup (a ++ b) -> In x a -> In x b -> False.
Proof.
  induction a as [|y a IH]; cbn; intros H Ha Hb; [destruct Ha|]. inversion H; subst.
  destruct Ha as [->|Ha]; [|eauto]. match goal with N : ~ In _ _ |- _ => apply N end. apply in_or_app. auto.
Qed.

Lemma backtrack_undone n s vs k s' vs' : trail_ok n s -> backtrack s vs k = (s', vs') -> k < length (s_decs s) ->
  undone s k s' /\
  (wf vs -> wf vs' /\ forall x, In x (vs_heap vs') <->
       In x (map lit_var (skipn (nth k (s_decs s) 0) (s_trail s))) \/ In x (vs_heap vs)) /\
  (forall v, s_last s' v = if existsb (N.eqb v) (map lit_var (skipn (nth k (s_decs s) 0) (s_trail s)))
                           then match s_val s v with Some b => b | None => false end else s_last s v).
Proof.
  intros K E L. unfold backtrack in E. destruct (Nat.leb_spec (length (s_decs s)) k); [lia|].
  set (len := nth k (s_decs s) 0) in *.
  destruct (undo _ _ _ _) as [[val last] vs1] eqn:U. injection E as <- <-.
  apply undo_spec in U.
  2:{ pose proof (tk_nodup _ _ K) as ND. rewrite <- (firstn_skipn len (s_trail s)), map_app in ND.
      eapply NoDup_app_r; exact ND. }
  destruct U as (A & B & C & D & W). split; [|split; [exact W|]].
  - constructor; try reflexivity. intros v. cbn [s_val].
    destruct (existsb _ _) eqn:X; [apply A; apply memb_in; exact X|].
    apply B. rewrite <- memb_in. unfold len in *. congruence.
  - intros v. cbn [s_last]. destruct (existsb _ _) eqn:X; [apply C; apply memb_in; exact X|].
    apply D. rewrite <- memb_in. unfold len in *. congruence.
Qed.

Lemma undone_istrue n s k s' x : trail_ok n s -> undone s k s' -> k < length (s_decs s) ->
  (istrue s' x <-> istrue s x /\ (~ In (lit_var x) (map lit_var (s_trail s)) \/ s_level s (lit_var x) <= k)).
Proof.
  intros K U L. unfold istrue. rewrite (ud_val _ _ _ U).
  set (len := nth k (s_decs s) 0) in *.
  destruct (existsb _ _) eqn:X.
  - apply memb_in in X. split; [discriminate|]. intros [_ H]. exfalso.
    destruct H as [H|H].
    + apply H. rewrite <- (firstn_skipn len (s_trail s)), map_app, in_app_iff. auto.
    + apply in_map_iff in X. destruct X as (y & Ey & Iy). apply In_nth_error in Iy. destruct Iy as (q & Hq).
      assert (Hy : nth_error (s_trail s) (len + q) = Some y).
      { rewrite <- Hq. clear. generalize (s_trail s). induction len as [|m IH]; intros l; [reflexivity|].
        destruct l; [destruct q; reflexivity|]. apply IH. }
      rewrite <- Ey, (tk_level _ _ K _ _ Hy) in H.
      apply (lvl_cut _ _ (len + q) (tk_sorted _ _ K) L) in H. fold len in H. lia.
  - assert (NI : ~ In (lit_var x) (map lit_var (skipn len (s_trail s)))) by (rewrite <- memb_in; congruence).
    split; [|tauto]. intros H. split; [exact H|].
    destruct (in_dec N.eq_dec (lit_var x) (map lit_var (s_trail s))) as [I|I]; [right|auto].
    apply in_map_iff in I. destruct I as (y & Ey & Iy).
    rewrite <- (firstn_skipn len (s_trail s)), in_app_iff in Iy. destruct Iy as [Iy|Iy].
    2:{ exfalso. apply NI. rewrite <- Ey. apply in_map. exact Iy. }
    apply In_nth_error in Iy. destruct Iy as (q & Hq). apply nth_error_firstn_some in Hq. destruct Hq as [Lq Hq].
    rewrite <- Ey, (tk_level _ _ K _ _ Hq). apply (lvl_cut _ _ q (tk_sorted _ _ K) L). exact Lq.
Qed.

Lemma undone_ok n s k s' : trail_ok n s -> undone s k s' -> k < length (s_decs s) -> trail_ok n s'.
Proof.
  intros K U L.
  set (len := nth k (s_decs s) 0).
  assert (Hlen : In len (s_decs s)) by (apply nth_In; exact L).
  destruct (tk_decs _ _ K len Hlen) as [Llen Lh].
  assert (ND : NoDup (map lit_var (firstn len (s_trail s)) ++ map lit_var (skipn len (s_trail s)))).
  { rewrite <- map_app, firstn_skipn. apply (tk_nodup _ _ K). }
  assert (Vkeep : forall x, In x (firstn len (s_trail s)) -> s_val s' (lit_var x) = s_val s (lit_var x)).
  { intros x Hx. rewrite (ud_val _ _ _ U). destruct (existsb _ _) eqn:X; [|reflexivity].
    apply memb_in in X. exfalso. exact (NoDup_app_disj _ _ _ ND (in_map lit_var _ _ Hx) X). }
  assert (Vsome : forall v, s_val s' v <> None -> s_val s v <> None).
  { intros v. rewrite (ud_val _ _ _ U). destruct (existsb _ _); congruence. }
  assert (DL : forall d, In d (s_decs s') -> d < len).
  { intros d Hd. rewrite (ud_decs _ _ _ U) in Hd.
    assert (S2 := tk_sorted _ _ K). rewrite <- (firstn_skipn k (s_decs s)) in S2.
    apply (sorted_app_lt _ _ S2); [exact Hd|].
    assert (Es : skipn k (s_decs s) = len :: skipn (S k) (s_decs s)).
    { unfold len. clear - L. revert k L. induction (s_decs s) as [|x ds IH]; intros k L; [cbn in L; lia|].
      destruct k; [reflexivity|]. cbn in *. apply IH. lia. }
    rewrite Es. left. reflexivity. }
  constructor; rewrite ?(ud_trail _ _ _ U), ?(ud_reason _ _ _ U), ?(ud_level _ _ _ U), ?(ud_depth _ _ _ U); fold len.
  - eapply NoDup_app_l; exact ND.
  - intros x Hx. unfold istrue. rewrite Vkeep by exact Hx. apply (tk_true _ _ K).
    rewrite <- (firstn_skipn len (s_trail s)), in_app_iff. auto.
  - intros v Hv. destruct (tk_assigned _ _ K v (Vsome v Hv)) as [I|I]; [|right; exact I]. left.
    rewrite <- (firstn_skipn len (s_trail s)), map_app, in_app_iff in I. destruct I as [I|I]; [exact I|].
    exfalso. rewrite (ud_val _ _ _ U) in Hv. apply memb_in in I. unfold len in I. rewrite I in Hv. congruence.
  - intros p x H. apply nth_error_firstn_some in H. destruct H as [_ H]. exact (tk_depth _ _ K p x H).
  - intros p x H. apply nth_error_firstn_some in H. destruct H as [Lp H].
    rewrite (tk_level _ _ K p x H), (ud_decs _ _ _ U). apply (lvl_cut _ _ p (tk_sorted _ _ K) L). exact Lp.
  - rewrite (ud_decs _ _ _ U). eapply sorted_app_l. rewrite firstn_skipn. apply (tk_sorted _ _ K).
  - intros d Hd. specialize (DL d Hd). rewrite firstn_length, (ud_head _ _ _ U). fold len. lia.
  - rewrite firstn_length, (ud_head _ _ _ U). fold len. lia.
  - intros p x H. pose proof H as H'. apply nth_error_firstn_some in H. destruct H as [Lp H].
    pose proof (tk_reason _ _ K p x H) as Q. unfold reason_ok in *.
    rewrite (ud_reason _ _ _ U), (ud_decs _ _ _ U), (ud_lits _ _ _ U).
    assert (Bf : forall y, before s p y -> before s' p y).
    { intros y (q & Lq & Hq). exists q. split; [exact Lq|]. rewrite (ud_trail _ _ _ U).
      apply nth_error_firstn_some. fold len. split; [lia|exact Hq]. }
    assert (If : In p (firstn k (s_decs s)) -> In p (s_decs s)).
    { intros I. rewrite <- (firstn_skipn k (s_decs s)), in_app_iff. auto. }
    destruct (s_reason s (lit_var x)).
    + destruct Q as [Q|Q].
      * left. destruct (skipn_sorted _ k p (tk_sorted _ _ K) L Q) as [?|?]; [assumption|fold len in H0; lia].
      * right. rewrite <- (proj2 (lvl_cut _ _ p (tk_sorted _ _ K) L) Lp). exact Q.
    + destruct Q as [Q1 Q2]. split; [tauto|auto].
    + destruct Q as (Q1 & rest & E & Q2). split; [tauto|]. exists rest. auto.
  - intros v Hv. apply (tk_vars _ _ K). auto.
Qed.
