(** The failed core computed by [analyze_assumption_conflict] (Analyze.v [failed_core_of]). *)
From Coq Require Import Lia Arith PeanoNat Permutation ZifyBool ZifyNat ZifyN.
From Verif Require Import Spec Lit LitProofs Hash F32 Vsids VsidsProofs VsidsWf Search SearchBase Propagate P_Search
  ClauseDb Analyze AnalyzeProofs.
Local Open Scope nat_scope.

(** Whatever the flags were: the literals added are units and decisions above level 0. *)
Lemma failed_loop_in hr s : forall tr flags count core hashes f' c' h',
  failed_loop hr s flags count core hashes tr = (f', c', h') ->
  forall x, In x c' -> In x core \/ (In x tr /\ s_reason s (lit_var x) = RUnit /\ 0 < s_level s (lit_var x)).
Proof.
  induction tr as [|l tr IH]; intros flags count core hashes f' c' h' E x I; cbn [failed_loop] in E.
  - injection E as <- <- <-. left. exact I.
  - assert (X : forall f n co h, failed_loop hr s f n co h tr = (f', c', h') ->
        (forall y, In y co -> In y core \/ (y = l /\ s_reason s (lit_var l) = RUnit /\ 0 < s_level s (lit_var l))) ->
        In x core \/ (In x (l :: tr) /\ s_reason s (lit_var x) = RUnit /\ 0 < s_level s (lit_var x))).
    { intros f n co h E' H. destruct (IH _ _ _ _ _ _ _ E' x I) as [Q|(Q1 & Q2)]; [|right; split; [right; exact Q1|exact Q2]].
      destruct (H x Q) as [Q'|(-> & Q')]; [left; exact Q'|right; split; [left; reflexivity|exact Q']]. }
    destruct (flags (lit_var l)); [|eapply X; [exact E|tauto]].
    destruct (s_reason s (lit_var l)) eqn:Er.
    + assert (H : forall y, In y (if Nat.ltb 0 (s_level s (lit_var l)) then core ++ [l] else core) -> In y core \/ (y = l /\ RUnit = RUnit /\ 0 < s_level s (lit_var l))).
      { intros y. destruct (Nat.ltb_spec 0 (s_level s (lit_var l))) as [L|L]; [|tauto]. intros Iy. apply in_app_or in Iy as [Iy|[<-|[]]]; auto. }
      cbv zeta in E. destruct (Nat.eqb (pred count) 0).
      * injection E as <- <- <-. destruct (H x I) as [Q|(-> & Q & Q2)]; [left; exact Q|right]. split; [left; reflexivity|]. split; [exact Er|exact Q2].
      * eapply X; [exact E|]. exact H.
    + cbv zeta in E. destruct (fold_left _ _ _) as [f n]. destruct (Nat.eqb n 0); [injection E as <- <- <-; left; exact I|]. eapply X; [exact E|tauto].
    + cbv zeta in E. destruct (fold_left _ _ _) as [f n]. destruct (Nat.eqb n 0); [injection E as <- <- <-; left; exact I|]. eapply X; [exact E|tauto].
Qed.

Definition cnt (f : N -> bool) (l : list N) : nat := length (filter (fun x => f (lit_var x)) l).
Lemma cnt_ext f g l : (forall x, In x l -> f (lit_var x) = g (lit_var x)) -> cnt f l = cnt g l.
Proof.
  unfold cnt. induction l as [|x l IH]; intros H; [reflexivity|]. cbn [filter]. rewrite (H x (or_introl eq_refl)).
  specialize (IH (fun y I => H y (or_intror I))). destruct (g (lit_var x)); cbn [length]; congruence.
Qed.
Lemma cnt_set f v : forall l, NoDup (map lit_var l) -> In v (map lit_var l) -> f v = false -> cnt (upd f v true) l = S (cnt f l).
Proof.
  induction l as [|x l IH]; intros Nd I Fv; [destruct I|]. cbn [map] in *. inversion Nd as [|? ? NI Nd']; subst.
  unfold cnt. cbn [filter]. destruct (N.eq_dec (lit_var x) v) as [EV|NE].
  - rewrite EV, upd_eq, Fv. cbn [length]. f_equal. apply cnt_ext. intros y Iy. apply upd_ne. intros E. apply NI. rewrite EV, <- E. apply in_map. exact Iy.
  - rewrite upd_ne by exact NE. destruct I as [I|I]; [congruence|]. specialize (IH Nd' I Fv). unfold cnt in IH. destruct (f (lit_var x)); cbn [length]; rewrite IH; reflexivity.
Qed.
Lemma cnt_zero f l : cnt f l = 0 -> forall x, In x l -> f (lit_var x) = false.
Proof.
  intros H x I. destruct (f (lit_var x)) eqn:E; [|reflexivity]. exfalso. unfold cnt in H.
  assert (J : In x (filter (fun x => f (lit_var x)) l)) by (apply filter_In; auto). destruct (filter _ l); [destruct J|discriminate].
Qed.
Lemma mark_lits tr : NoDup (map lit_var tr) -> forall lits f n f' n', (forall x, In x lits -> In (lit_var x) (map lit_var tr)) -> n = cnt f tr ->
  fold_left (fun (fn : (N -> bool) * nat) l => if fst fn (lit_var l) then fn else (upd (fst fn) (lit_var l) true, S (snd fn))) lits (f, n) = (f', n') ->
  n' = cnt f' tr /\ forall v, f' v = true <-> f v = true \/ In v (map lit_var lits).
Proof.
  intros Nd. induction lits as [|x lits IH]; intros f n f' n' H Hn E; cbn [fold_left fst snd] in E.
  - injection E as <- <-. split; [exact Hn|]. intros v. cbn. tauto.
  - destruct (f (lit_var x)) eqn:Ef.
    + destruct (IH _ _ _ _ (fun y I => H y (or_intror I)) Hn E) as [R1 R2]. split; [exact R1|]. intros v. rewrite R2. cbn [map In]. intuition. subst v. tauto.
    + destruct (IH _ _ _ _ (fun y I => H y (or_intror I)) (eq_trans (f_equal S Hn) (eq_sym (cnt_set _ _ _ Nd (H x (or_introl eq_refl)) Ef))) E) as [R1 R2].
      split; [exact R1|]. intros v. rewrite R2. cbn [map In]. unfold upd. destruct (N.eqb_spec v (lit_var x)) as [->|NE]; intuition congruence.
Qed.

Lemma failed_loop_tight n L bin hr s a : trail_ok n s -> store_ok n L bin s -> meets L bin s a ->
  forall tr post flags count core hashes f' c' h', s_trail s = rev tr ++ post ->
  (forall v, flags v = true -> In v (map lit_var tr)) -> count = cnt flags tr ->
  failed_loop hr s flags count core hashes tr = (f', c', h') ->
  ((forall x, In x core -> lit_holds a x = true) -> (forall l, In l tr -> flags (lit_var l) = true -> lit_holds a l = true) -> False) ->
  (forall v, f' v = false) /\ ~ (forall x, In x c' -> lit_holds a x = true).
Proof.
  intros K S Me. induction tr as [|l tr IH]; intros post flags count core hashes f' c' h' Et Hf Hc E Bad; cbn [failed_loop] in E.
  - injection E as <- <- <-. split; [intros v; destruct (flags v) eqn:Fv; [destruct (Hf v Fv)|reflexivity]|]. intros H. apply Bad; [exact H|]. intros l [].
  - cbn [rev] in Et. rewrite <- app_assoc in Et. cbn [app] in Et.
    assert (Nd : NoDup (map lit_var tr) /\ ~ In (lit_var l) (map lit_var tr)).
    { pose proof (tk_nodup _ _ K) as Q. rewrite Et, map_app in Q. cbn [map] in Q. rewrite map_rev in Q. apply NoDup_remove in Q as [Q1 Q2]. split.
      - apply NoDup_app_l in Q1. apply NoDup_rev in Q1. rewrite rev_involutive in Q1. exact Q1.
      - intros I. apply Q2. apply in_or_app. left. apply -> in_rev. exact I. }
    destruct Nd as [Nd Nl].
    assert (Hp : nth_error (s_trail s) (length (rev tr)) = Some l) by (rewrite Et, nth_error_app2, Nat.sub_diag by lia; reflexivity).
    destruct (flags (lit_var l)) eqn:Fl.
    + assert (Hc' : pred count = cnt (upd flags (lit_var l) false) tr).
      { rewrite Hc. unfold cnt. cbn [filter]. rewrite Fl. cbn [length pred]. apply cnt_ext. intros y I. rewrite upd_ne; [reflexivity|]. intros Q. apply Nl. rewrite <- Q. apply in_map. exact I. }
      assert (Hf' : forall v, upd flags (lit_var l) false v = true -> In v (map lit_var tr)).
      { intros v. unfold upd. destruct (N.eqb_spec v (lit_var l)); [discriminate|]. intros Q. destruct (Hf v Q) as [Z|Z]; [congruence|exact Z]. }
      assert (Fin : forall f nn co h, (forall v, f v = true -> In v (map lit_var tr)) -> nn = cnt f tr ->
          ((forall x, In x co -> lit_holds a x = true) -> (forall l, In l tr -> f (lit_var l) = true -> lit_holds a l = true) -> False) ->
          (if Nat.eqb nn 0 then (f, co, h) else failed_loop hr s f nn co h tr) = (f', c', h') ->
          (forall v, f' v = false) /\ ~ (forall x, In x c' -> lit_holds a x = true)).
      { intros f nn co h G1 G2 G3 G4. destruct (Nat.eqb_spec nn 0) as [Z|Z].
        - injection G4 as <- <- <-. rewrite Z in G2. symmetry in G2. pose proof (cnt_zero _ _ G2) as Q.
          split; [intros v; destruct (f v) eqn:Fv; [|reflexivity]; apply G1 in Fv as Iv; apply in_map_iff in Iv as (y & <- & Iy); rewrite (Q y Iy) in Fv; discriminate|].
          intros H. apply G3; [exact H|]. intros y Iy Fy. rewrite (Q y Iy) in Fy. discriminate.
        - exact (IH (l :: post) f nn co h f' c' h' Et G1 G2 G4 G3). }
      assert (Rs : s_reason s (lit_var l) <> RUnit -> forall f nn, fold_left (fun (fn : (N -> bool) * nat) l => if fst fn (lit_var l) then fn else (upd (fst fn) (lit_var l) true, Datatypes.S (snd fn)))
                   (reason_lits s (s_reason s (lit_var l))) (upd flags (lit_var l) false, pred count) = (f, nn) ->
          (forall v, f v = true -> In v (map lit_var tr)) /\ nn = cnt f tr /\
          ((forall x, In x core -> lit_holds a x = true) -> (forall l, In l tr -> f (lit_var l) = true -> lit_holds a l = true) -> False)).
      { intros NU f nn Ef.
        assert (Be : forall x, In x (reason_lits s (s_reason s (lit_var l))) -> In (lnot x) tr).
        { intros x Ix. destruct (reason_falselit _ _ _ _ _ K Hp Ix) as (_ & q & Lq & Eq). rewrite Et, nth_error_app1 in Eq by exact Lq.
          apply nth_error_In in Eq. apply in_rev. exact Eq. }
        destruct (mark_lits tr Nd _ _ _ _ _ (fun x Ix => eq_ind _ (fun v => In v (map lit_var tr)) (in_map lit_var _ _ (Be x Ix)) _ (lnot_var x)) Hc' Ef) as [R1 R2].
        assert (Imp : (forall x, In x (reason_lits s (s_reason s (lit_var l))) -> lit_holds a (lnot x) = true) -> lit_holds a l = true).
        { intros H. pose proof (tk_reason _ _ K _ _ Hp) as R. unfold reason_ok in R. destruct Me as [[SL SB] _]. pose proof (nth_error_In _ _ Hp) as Il.
          destruct (s_reason s (lit_var l)) as [|b|x] eqn:Er; [congruence| |]; cbn [reason_lits] in H.
          - pose proof (SB _ _ (so_rbin _ _ _ _ S _ _ Il Er)) as Q. rewrite lnot_invol in Q. apply ch_in in Q as (y & [<-|[<-|[]]] & Hy); [|exact Hy].
            specialize (H b (or_introl eq_refl)). rewrite lit_holds_lnot, Hy in H. discriminate.
          - destruct R as (_ & rest & Ex & _). rewrite Ex in H. cbn [tl] in H. pose proof (SL _ (so_rlong _ _ _ _ S _ _ Il Er)) as Q. rewrite Ex in Q.
            apply ch_in in Q as (y & [<-|Iy] & Hy); [exact Hy|]. specialize (H y Iy). rewrite lit_holds_lnot, Hy in H. discriminate. }
        split; [|split; [exact R1|]].
        - intros v Fv. apply R2 in Fv as [Fv|Iv]; [apply Hf'; exact Fv|]. apply in_map_iff in Iv as (x & <- & Ix). rewrite <- (lnot_var x). apply in_map. apply Be. exact Ix.
        - intros H1 H2. apply Bad; [exact H1|]. intros y [<-|Iy] Fy.
          + apply Imp. intros x Ix. apply H2; [apply Be; exact Ix|]. apply R2. right. rewrite lnot_var. apply in_map. exact Ix.
          + apply H2; [exact Iy|]. apply R2. left. rewrite upd_ne; [exact Fy|]. intros Q. apply Nl. rewrite <- Q. apply in_map. exact Iy. }
      destruct (s_reason s (lit_var l)) as [|b|x] eqn:Er; cbv zeta in E.
      * eapply Fin; [exact Hf'|exact Hc'| |exact E]. intros H1 H2. apply Bad.
        -- intros x Ix. apply H1. destruct (Nat.ltb 0 _); [apply in_or_app; left|]; exact Ix.
        -- intros y [<-|Iy] Fy.
           ++ destruct (Nat.ltb_spec 0 (s_level s (lit_var l))) as [Lv|Lv]; [apply H1; apply in_or_app; right; left; reflexivity|].
              apply (proj2 Me); [eapply nth_error_In; exact Hp|exact Er|lia].
           ++ apply H2; [exact Iy|]. rewrite upd_ne; [exact Fy|]. intros Q. apply Nl. rewrite <- Q. apply in_map. exact Iy.
      * destruct (fold_left _ _ _) as [f nn] eqn:Ef. destruct (Rs ltac:(discriminate) _ _ eq_refl) as (G1 & G2 & G3). eapply Fin; eassumption.
      * destruct (fold_left _ _ _) as [f nn] eqn:Ef. destruct (Rs ltac:(discriminate) _ _ eq_refl) as (G1 & G2 & G3). eapply Fin; eassumption.
    + refine (IH (l :: post) _ _ _ _ _ _ _ Et _ _ E _).
      * intros v Fv. destruct (Hf v Fv) as [Z|Z]; [|exact Z]. congruence.
      * rewrite Hc. unfold cnt. cbn [filter]. rewrite Fl. reflexivity.
      * intros H1 H2. apply Bad; [exact H1|]. intros y [<-|Iy] Fy; [congruence|]. apply H2; assumption.
Qed.

Lemma failed_loop_keep hr s x : forall tr flags count core hashes f' c' h',
  failed_loop hr s flags count core hashes tr = (f', c', h') -> In x core -> In x c'.
Proof.
  induction tr as [|l tr IH]; intros f0 n0 core h0 f' c' h' El Q; cbn [failed_loop] in El; [injection El as <- <- <-; exact Q|].
  destruct (f0 (lit_var l)); [|eapply IH; eassumption].
  destruct (s_reason s (lit_var l)); cbv zeta in El; [|destruct (fold_left _ _ _) as [ff nn]|destruct (fold_left _ _ _) as [ff nn]].
  - assert (Q' : In x (if Nat.ltb 0 (s_level s (lit_var l)) then core ++ [l] else core)) by (destruct (Nat.ltb 0 _); [apply in_or_app; left|]; exact Q).
    destruct (Nat.eqb (pred n0) 0); [injection El as <- <- <-; exact Q'|eapply IH; eassumption].
  - destruct (Nat.eqb nn 0); [injection El as <- <- <-; exact Q|eapply IH; eassumption].
  - destruct (Nat.eqb nn 0); [injection El as <- <- <-; exact Q|eapply IH; eassumption].
Qed.

(** The core consists of the assumption and of decisions. *)
Lemma failed_core_in n hr s flags as_ f' core h : trail_ok n s -> failed_core_of hr s flags as_ = (f', core, h) ->
  forall x, In x core -> x = as_ \/ exists p, In p (s_decs s) /\ nth_error (s_trail s) p = Some x.
Proof.
  intros K E x I. unfold failed_core_of in E. destruct (failed_loop _ _ _ _ _ _ _) as [[f co] h'] eqn:El. injection E as <- <- <-.
  destruct (failed_loop_in _ _ _ _ _ _ _ _ _ _ El x I) as [[<-|[]]|(Q1 & Q2 & Q3)]; [left; reflexivity|]. right.
  apply in_rev in Q1. apply In_nth_error in Q1 as (p & Hp). exists p. split; [|exact Hp].
  pose proof (tk_reason _ _ K _ _ Hp) as R. unfold reason_ok in R. rewrite Q2 in R. destruct R as [R|R]; [exact R|].
  rewrite (tk_level _ _ K _ _ Hp) in Q3. lia.
Qed.
(** With clean flags the core cannot hold together with the clauses. *)
Lemma failed_core_tight n L bin hr s flags as_ f' core h a : trail_ok n s -> store_ok n L bin s -> meets L bin s a ->
  (forall x y, s_val s x = Some y -> ~ In x (map lit_var (s_trail s)) -> a x = y) ->
  isfalse s as_ -> (forall v, flags v = false) -> failed_core_of hr s flags as_ = (f', core, h) ->
  ~ (forall x, In x core -> lit_holds a x = true).
Proof.
  intros K S Me Rm Fa Cl E. unfold failed_core_of in E. destruct (failed_loop _ _ _ _ _ _ _) as [[f co] h'] eqn:El. injection E as <- <- <-.
  destruct (in_dec N.eq_dec (lit_var as_) (map lit_var (s_trail s))) as [I|NI].
  - assert (Tr : s_trail s = rev (rev (s_trail s)) ++ []) by (rewrite rev_involutive, app_nil_r; reflexivity).
    assert (Nd : NoDup (map lit_var (rev (s_trail s)))) by (rewrite map_rev; apply NoDup_rev; apply (tk_nodup _ _ K)).
    assert (I' : In (lit_var as_) (map lit_var (rev (s_trail s)))) by (rewrite map_rev; apply -> in_rev; exact I).
    eapply (failed_loop_tight n L bin hr s a K S Me (rev (s_trail s)) [] (upd flags (lit_var as_) true) 1 [as_] [] f co h' Tr).
    + intros v. unfold upd. destruct (N.eqb_spec v (lit_var as_)) as [->|NE]; [intros _; exact I'|rewrite Cl; discriminate].
    + rewrite (cnt_set _ _ _ Nd I' (Cl _)). f_equal. unfold cnt. symmetry. rewrite length_zero_iff_nil. 
      destruct (filter _ _) as [|y r] eqn:Ef; [reflexivity|]. exfalso. assert (J : In y (filter (fun x => flags (lit_var x)) (rev (s_trail s)))) by (rewrite Ef; left; reflexivity).
      apply filter_In in J as [_ J]. rewrite Cl in J. discriminate.
    + exact El.
    + intros H1 H2. specialize (H1 as_ (or_introl eq_refl)). apply in_vars in I as [I|I].
      * exact (true_not_false _ _ (tk_true _ _ K _ I) Fa).
      * specialize (H2 (lnot as_)). rewrite lnot_var, upd_eq in H2. specialize (H2 ltac:(apply -> in_rev; exact I) eq_refl). rewrite lit_holds_lnot, H1 in H2. discriminate.
  - intros H. assert (J : In as_ co).
    { eapply failed_loop_keep; [exact El|left; reflexivity]. }
    specialize (H _ J). apply lh_true in H. apply isfalse_iff in Fa. rewrite (Rm _ _ Fa NI) in H. unfold is_positive in H. destruct (is_negative as_); discriminate.
Qed.
