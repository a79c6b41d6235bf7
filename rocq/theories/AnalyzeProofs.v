(** Conflict analysis (Analyze.v): the learned clause is implied and asserting. *)
From Coq Require Import Lia Arith PeanoNat Permutation Sorted.
From Verif Require Import Spec Lit LitProofs Hash F32 Vsids VsidsProofs VsidsWf Search SearchBase Propagate Analyze.
Local Open Scope nat_scope.

(** The assignments in question: they satisfy the stored clauses and the units of level 0. *)
Definition meets (L : list N) (bin : N -> list N) (s : search) (a : N -> bool) : Prop :=
  sat_store L bin (s_lits s) a /\
  forall l, In l (s_trail s) -> s_reason s (lit_var l) = RUnit -> s_level s (lit_var l) = 0 -> lit_holds a l = true.

(** A false literal with its negation on the trail *)
Definition falselit (s : search) (x : N) : Prop := isfalse s x /\ In (lnot x) (s_trail s).

Lemma level0_holds n L bin s a l : trail_ok n s -> store_ok n L bin s -> meets L bin s a ->
  In l (s_trail s) -> s_level s (lit_var l) = 0 -> lit_holds a l = true.
Proof.
  intros K S [Sa Ua] I Lv. apply In_nth_error in I. destruct I as (p & Hp).
  assert (Z : forall q x, q < Datatypes.S p -> nth_error (s_trail s) q = Some x -> s_level s (lit_var x) = 0).
  { intros q x Hq Hx. rewrite (tk_level _ _ K q x Hx). rewrite (tk_level _ _ K p l Hp) in Lv.
    pose proof (lvl_mono (s_decs s) q p). lia. }
  eapply trail_holds with (k := Datatypes.S p) (p := p); [exact K|exact S|exact Sa| |lia|exact Hp].
  intros q x Hq Hx. destruct (s_reason s (lit_var x)) eqn:Er; [left|right; discriminate|right; discriminate].
  apply Ua; [eapply nth_error_In; exact Hx|exact Er|]. eapply Z; eauto.
Qed.

Lemma falselit_level0 n L bin s a x : trail_ok n s -> store_ok n L bin s -> meets L bin s a ->
  falselit s x -> s_level s (lit_var x) = 0 -> lit_holds a x = false.
Proof.
  intros K S M [_ I] Lv. apply lh_false. eapply level0_holds; eauto. rewrite lnot_var. exact Lv.
Qed.

Lemma falselit_eq s x y : falselit s x -> falselit s y -> lit_var x = lit_var y -> x = y.
Proof.
  intros [A _] [B _] E. apply lnot_inj. eapply same_true; [exact A|exact B|]. rewrite !lnot_var. exact E.
Qed.

Lemma reason_falselit n s p l x : trail_ok n s -> nth_error (s_trail s) p = Some l ->
  In x (reason_lits s (s_reason s (lit_var l))) -> falselit s x /\ before s p (lnot x).
Proof.
  intros K Hp Hx. pose proof (tk_reason _ _ K p l Hp) as R. unfold reason_ok in R.
  assert (B : before s p (lnot x)).
  { destruct (s_reason s (lit_var l)) as [|b|c]; cbn [reason_lits] in Hx.
    - destruct Hx.
    - destruct Hx as [<-|[]]. apply R.
    - destruct R as (_ & rest & E & R). rewrite E in Hx. cbn [tl] in Hx. auto. }
  split; [|exact B]. destruct B as (q & Hq & Hn). apply nth_error_In in Hn. split; [|exact Hn].
  apply (tk_true _ _ K). exact Hn.
Qed.

(** * Flags *)
Lemma clear_flags l : forall f v, fold_left (fun f v => upd f v false) l f v = if existsb (N.eqb v) l then false else f v.
Proof.
  induction l as [|x l IH]; intros f v; cbn [fold_left existsb]; [reflexivity|]. rewrite IH. unfold upd.
  destruct (N.eqb_spec v x) as [->|]; cbn [orb]; [|reflexivity]. destruct (existsb _ l); reflexivity.
Qed.

(** * Hints *)
(** What is recorded for a literal with its reason *)
Definition rhash (s : search) (l : N) : N := N.lxor (clause_hash (reason_lits s (s_reason s (lit_var l)))) (lit_hash l).
Definition earlier (s : search) (a b : N) : Prop :=
  exists i j, i < j /\ nth_error (s_trail s) i = Some a /\ nth_error (s_trail s) j = Some b.
Definition ordered (s : search) (V : list N) : Prop := StronglySorted (earlier s) V.
(** The reasons of [R] were resolved with the conflict [D], [C] are the literals that wait. *)
Record hint_inv (hr : bool) (s : search) (D : list N) (a : analyze) (C R post : list N) : Prop := {
  hi_hashes : hr = true -> a_hashes a = clause_hash D :: map (rhash s) R;
  hi_ordered : ordered s (rev R);
  hi_in : forall r, In r R -> In r post /\ In r (s_trail s) /\ s_level s (lit_var r) = clevel s /\ s_reason s (lit_var r) <> RUnit;
  hi_closed : forall x, In x D \/ (exists r, In r R /\ In x (reason_lits s (s_reason s (lit_var r)))) ->
      s_level s (lit_var x) = 0 \/ In x (a_clause a) \/ In (lnot x) C \/ In (lnot x) R }.
(** Entries of the list to be sorted *)
Definition ent (s : search) (l : N) : nat * N := (match s_depth s (lit_var l) with Some d => d | None => 0 end, rhash s l).

(** * The loop of the resolution *)
(** [C] are the literals of the current level that wait to be resolved. *)
Record res_inv (s : search) (a : analyze) (C : list N) : Prop := {
  ri_flags : forall v, a_flags a v = true <-> In v (map lit_var (a_clause a)) \/ In v (map lit_var C);
  ri_clean : a_clean a = map lit_var (a_clause a);
  ri_nodup : NoDup (map lit_var (a_clause a));
  ri_clause : forall x, In x (a_clause a) -> falselit s x /\ 0 < s_level s (lit_var x) < clevel s;
  ri_count : a_count a = length C;
  ri_cnodup : NoDup C;
  ri_cur : forall c, In c C -> In c (s_trail s) /\ s_level s (lit_var c) = clevel s }.

Lemma add_literals_spec n s (tr : list N) : trail_ok n s -> 0 < clevel s -> forall lits vs a C vs' a',
  res_inv s a C -> (forall c, In c C -> In c tr) ->
  (forall x, In x lits -> falselit s x /\ In (lnot x) tr /\ s_level s (lit_var x) <= clevel s) ->
  add_literals s (vs, a) lits = (vs', a') ->
  exists C', res_inv s a' C' /\ (forall c, In c C' -> In c tr) /\
    incl C C' /\ incl (a_clause a) (a_clause a') /\
    (forall x, In x lits -> s_level s (lit_var x) = 0 \/ In x (a_clause a') \/ In (lnot x) C') /\
    a_involved a' = a_involved a /\ a_fuel a' = a_fuel a /\ a_unordered a' = a_unordered a /\ a_hashes a' = a_hashes a.
Proof.
  intros K Lv. induction lits as [|x lits IH]; intros vs a C vs' a' I Ct Hl E; unfold add_literals in E; cbn [fold_left] in E.
  - injection E as <- <-. exists C. split; [exact I|]. split; [exact Ct|]. split; [apply incl_refl|].
    split; [apply incl_refl|]. split; [intros ? []|]. auto.
  - assert (Hx : falselit s x /\ In (lnot x) tr /\ s_level s (lit_var x) <= clevel s) by (apply Hl; left; reflexivity).
    assert (Hl' : forall y, In y lits -> falselit s y /\ In (lnot y) tr /\ s_level s (lit_var y) <= clevel s)
      by (intros; apply Hl; right; assumption).
    destruct Hx as (Fx & Tx & Lx).
    destruct (add_literal s (vs, a) x) as [vs1 a1] eqn:E1.
    assert (G : exists C1, res_inv s a1 C1 /\ (forall c, In c C1 -> In c tr) /\ incl C C1 /\
              incl (a_clause a) (a_clause a1) /\ (s_level s (lit_var x) = 0 \/ In x (a_clause a1) \/ In (lnot x) C1) /\
              a_involved a1 = a_involved a /\ a_fuel a1 = a_fuel a /\ a_unordered a1 = a_unordered a /\ a_hashes a1 = a_hashes a).
    { unfold add_literal in E1. destruct (Nat.ltb_spec 0 (s_level s (lit_var x))) as [L0|L0].
      - destruct (a_flags a (lit_var x)) eqn:Ef; cbn [andb negb] in E1.
        + injection E1 as <- <-. exists C. split; [exact I|]. split; [exact Ct|]. split; [apply incl_refl|].
          split; [apply incl_refl|]. split; [|auto]. right. apply (ri_flags _ _ _ I) in Ef. destruct Ef as [Ef|Ef].
          * left. apply in_map_iff in Ef. destruct Ef as (y & Ey & Iy).
            rewrite <- (falselit_eq s y x); [exact Iy|apply (ri_clause _ _ _ I y Iy)|exact Fx|exact Ey].
          * right. apply in_map_iff in Ef. destruct Ef as (y & Ey & Iy).
            assert (y = lnot x); [|subst y; exact Iy]. eapply same_true; [|exact (proj1 Fx)|rewrite lnot_var; exact Ey].
            apply (tk_true _ _ K). apply (ri_cur _ _ _ I y Iy).
        + assert (Nf : ~ (In (lit_var x) (map lit_var (a_clause a)) \/ In (lit_var x) (map lit_var C))).
          { intros H. apply (ri_flags _ _ _ I) in H. congruence. }
          destruct (Nat.eqb_spec (s_level s (lit_var x)) (clevel s)) as [Lc|Lc]; injection E1 as <- <-.
          * exists (lnot x :: C). split.
            { constructor; cbn [with_cnt with_flags a_clause a_clean a_flags a_count].
              - intros v. unfold upd. cbn [map In]. rewrite lnot_var. destruct (N.eqb_spec v (lit_var x)) as [->|NE].
                + intuition.
                + rewrite (ri_flags _ _ _ I). intuition congruence.
              - apply I.
              - apply I.
              - apply I.
              - cbn. f_equal. apply I.
              - constructor; [|apply I]. intros H. apply Nf. right. rewrite <- (lnot_var x). apply in_map. exact H.
              - intros c [<-|Hc]; [|apply I; exact Hc]. rewrite lnot_var. split; [apply Fx|exact Lc]. }
            split. { intros c [<-|Hc]; auto. }
            split. { intros c Hc. right. exact Hc. }
            split; [apply incl_refl|]. split; [|auto]. right. right. left. reflexivity.
          * exists C. split.
            { constructor; cbn [with_clean with_clause with_flags a_clause a_clean a_flags a_count].
              - intros v. rewrite map_app, in_app_iff. unfold upd. cbn [map In]. destruct (N.eqb_spec v (lit_var x)) as [->|NE].
                + intuition.
                + rewrite (ri_flags _ _ _ I). intuition congruence.
              - rewrite map_app. cbn [map]. f_equal. apply I.
              - rewrite map_app. cbn [map].
                rewrite <- (rev_involutive (map lit_var (a_clause a) ++ [lit_var x])). apply NoDup_rev.
                rewrite rev_app_distr. cbn [rev app]. constructor; [rewrite <- in_rev; tauto|]. apply NoDup_rev. apply I.
              - intros y Hy. apply in_app_or in Hy. destruct Hy as [Hy|[<-|[]]]; [apply I; exact Hy|]. split; [exact Fx|lia].
              - apply I.
              - apply I.
              - apply I. }
            split; [exact Ct|]. split; [apply incl_refl|]. split; [apply incl_appl, incl_refl|].
            split; [|auto]. right. left. cbn [with_clean with_clause a_clause]. apply in_or_app. right. left. reflexivity.
      - cbn [andb] in E1. injection E1 as <- <-. exists C. split; [exact I|]. split; [exact Ct|]. split; [apply incl_refl|].
        split; [apply incl_refl|]. split; [left; lia|auto]. }
    destruct G as (C1 & I1 & Ct1 & Ci & Cl & Px & Q1 & Q2 & Q3 & Q4).
    apply (IH vs1 a1 C1 vs' a' I1 Ct1 Hl') in E. destruct E as (C2 & I2 & Ct2 & Ci2 & Cl2 & Pl & R1 & R2 & R3 & R4).
    exists C2. split; [exact I2|]. split; [exact Ct2|]. split; [eapply incl_tran; eauto|]. split; [eapply incl_tran; eauto|].
    split; [|repeat split; congruence].
    intros y [<-|Hy]; [|auto]. destruct Px as [?|[?|?]]; auto.
Qed.

(** The learned clause is a consequence. *)
Definition resolvent (L : list N) (bin : N -> list N) (s : search) (cl C : list N) : Prop :=
  forall a, meets L bin s a -> clause_holds a (map lnot C ++ cl) = true.

Lemma add_resolvent n L bin s lits C C' cl cl' : trail_ok n s -> store_ok n L bin s ->
  incl C C' -> incl cl cl' -> (forall x, In x lits -> falselit s x) ->
  (forall x, In x lits -> s_level s (lit_var x) = 0 \/ In x cl' \/ In (lnot x) C') ->
  (forall a, meets L bin s a -> clause_holds a (map lnot C ++ cl) = true \/ clause_holds a lits = true) ->
  resolvent L bin s cl' C'.
Proof.
  intros K S HC Hc Hf Hl R a M. destruct (R a M) as [H|H].
  - eapply ch_incl; [|exact H]. intros x Hx. apply in_app_or in Hx. apply in_or_app. destruct Hx as [Hx|Hx].
    + left. apply in_map_iff in Hx. destruct Hx as (y & <- & Hy). apply in_map. auto.
    + right. auto.
  - apply ch_in in H. destruct H as (x & Hx & Hh). apply ch_in. exists x. split; [|exact Hh]. apply in_or_app.
    destruct (Hl x Hx) as [Z|[Z|Z]].
    + rewrite (falselit_level0 _ _ _ _ _ _ K S M (Hf x Hx) Z) in Hh. discriminate.
    + right. exact Z.
    + left. apply in_map_iff. exists (lnot x). split; [apply lnot_invol|exact Z].
Qed.

Lemma in_split_remove (x : N) C : In x C -> NoDup C -> exists C', Permutation C (x :: C') /\ ~ In x C' /\ NoDup C'.
Proof.
  intros I ND. apply in_split in I. destruct I as (a & b & ->). exists (a ++ b).
  split; [symmetry; apply Permutation_middle|]. split; [apply (NoDup_remove_2 _ _ _ ND)|apply (NoDup_remove_1 _ _ _ ND)].
Qed.

Lemma push_swap_perm l x : exists r, push_swap l x = x :: r /\ Permutation r l.
Proof.
  destruct l as [|y r]; cbn [push_swap]; [exists []; auto|]. exists (r ++ [y]). split; [reflexivity|].
  rewrite Permutation_app_comm. reflexivity.
Qed.

(** What the loop leaves: the clause with the literal of the current level in front, and the
    flags of the others. *)
Record resolved (L : list N) (bin : N -> list N) (s : search) (a : analyze) : Prop := {
  rs_uip : exists u rest, a_clause a = u :: rest /\ falselit s u /\ s_level s (lit_var u) = clevel s /\
      (forall x, In x rest -> falselit s x /\ 0 < s_level s (lit_var x) < clevel s) /\
      NoDup (map lit_var rest) /\
      (forall v, a_flags a v = true <-> In v (map lit_var rest)) /\
      (forall v, In v (a_clean a) <-> In v (map lit_var rest)) /\ NoDup (a_clean a) /\
      (forall asg, meets L bin s asg -> clause_holds asg (u :: rest) = true) }.

Lemma resolve_loop_spec n L bin hr s : trail_ok n s -> store_ok n L bin s -> 0 < clevel s ->
  forall D0 tr post vs a C Rs vs' a',
  s_trail s = rev tr ++ post -> res_inv s a C -> C <> [] -> (forall c, In c C -> In c tr) ->
  resolvent L bin s (a_clause a) C ->
  (forall c, In c (a_involved a) -> In c L) ->
  hint_inv hr s D0 a C Rs post ->
  resolve_loop hr s (vs, a) tr = (vs', a') ->
  resolved L bin s a' /\ (forall c, In c (a_involved a') -> In c L) /\ a_fuel a' = a_fuel a /\ a_unordered a' = a_unordered a /\
  exists Rs', hint_inv hr s D0 a' [] Rs' (s_trail s).
Proof.
  intros K S Lv D0. induction tr as [|lit tr IH]; intros post vs a C Rs vs' a' Et I Ne Ct R Iv Hi E; cbn [resolve_loop] in E.
  { exfalso. destruct C as [|c C]; [contradiction|]. exact (Ct c (or_introl eq_refl)). }
  set (p := length tr).
  assert (Hp : nth_error (s_trail s) p = Some lit).
  { rewrite Et. cbn [rev]. rewrite <- app_assoc. cbn [app]. rewrite nth_error_app2; rewrite rev_length; [|lia].
    unfold p. rewrite Nat.sub_diag. reflexivity. }
  assert (Pos : forall c, In c (lit :: tr) -> exists q, q <= p /\ nth_error (s_trail s) q = Some c).
  { intros c [<-|Hc]; [exists p; split; [lia|exact Hp]|]. apply in_rev in Hc. apply In_nth_error in Hc. destruct Hc as (q & Hq).
    assert (q < length (rev tr)) by (apply nth_error_Some; congruence). rewrite rev_length in *.
    exists q. split; [unfold p; lia|]. rewrite Et. cbn [rev]. rewrite <- !app_assoc. rewrite nth_error_app1; [exact Hq|rewrite rev_length; lia]. }
  (* the literals of the current level come last *)
  assert (Lvl : s_level s (lit_var lit) = clevel s).
  { destruct C as [|c C]; [contradiction|]. destruct (Pos c (Ct c (or_introl eq_refl))) as (q & Hq & Hn).
    destruct (ri_cur _ _ _ I c (or_introl eq_refl)) as [_ Lc].
    rewrite (tk_level _ _ K q c Hn) in Lc. rewrite (tk_level _ _ K p lit Hp).
    pose proof (lvl_mono (s_decs s) q p Hq). pose proof (lvl_le (s_decs s) p). unfold clevel in *. lia. }
  assert (Et' : s_trail s = rev tr ++ lit :: post) by (rewrite Et; cbn [rev]; rewrite <- app_assoc; reflexivity).
  assert (ND : NoDup (s_trail s)) by (eapply NoDup_map_inv; apply (tk_nodup _ _ K)).
  destruct (a_flags a (lit_var lit)) eqn:Ef.
  - apply (ri_flags _ _ _ I) in Ef.
    assert (Ic : In lit C).
    { destruct Ef as [Ef|Ef]; apply in_map_iff in Ef; destruct Ef as (y & Ey & Iy).
      - exfalso. destruct (ri_clause _ _ _ I y Iy) as [_ H]. rewrite Ey in H. lia.
      - assert (y = lit); [|subst y; exact Iy]. eapply same_true; [| |exact Ey]; apply (tk_true _ _ K).
        + apply (ri_cur _ _ _ I y Iy).
        + eapply nth_error_In; exact Hp. }
    destruct (in_split_remove lit C Ic (ri_cnodup _ _ _ I)) as (C1 & Pm & Nin & ND1).
    assert (Cnt : pred (a_count a) = length C1).
    { rewrite (ri_count _ _ _ I), (Permutation_length Pm). reflexivity. }
    set (a1 := with_cnt (with_flags a (upd (a_flags a) (lit_var lit) false)) (pred (a_count a))) in *.
    assert (InC : forall c, In c C <-> c = lit \/ In c C1).
    { intros c. split; intros H.
      - eapply Permutation_in in H; [|exact Pm]. destruct H; auto.
      - eapply Permutation_in; [symmetry; exact Pm|]. destruct H as [->|H]; [left|right]; auto. }
    assert (I1 : res_inv s a1 C1).
    { constructor; cbn [a1 with_cnt with_flags a_clause a_clean a_flags a_count]; try apply I.
      - intros v. unfold upd. destruct (N.eqb_spec v (lit_var lit)) as [->|NE].
        + split; [discriminate|]. intros [H|H]; exfalso; apply in_map_iff in H; destruct H as (y & Ey & Iy).
          * destruct (ri_clause _ _ _ I y Iy) as [_ H]. rewrite Ey in H. lia.
          * apply Nin. assert (y = lit); [|subst y; exact Iy]. eapply same_true; [| |exact Ey]; apply (tk_true _ _ K).
            -- apply (ri_cur _ _ _ I y). apply InC. auto.
            -- eapply nth_error_In; exact Hp.
        + rewrite (ri_flags _ _ _ I). split; intros [H|H]; auto; right; apply in_map_iff in H; destruct H as (y & Ey & Iy).
          * apply InC in Iy. destruct Iy as [->|Iy]; [congruence|]. apply in_map_iff. eauto.
          * apply in_map_iff. exists y. split; [exact Ey|]. apply InC. auto.
      - exact Cnt.
      - exact ND1.
      - intros c Hc. apply (ri_cur _ _ _ I). apply InC. auto. }
    assert (Ct1 : forall c, In c C1 -> In c tr).
    { intros c Hc. destruct (Ct c) as [E0|H]; [apply InC; auto|subst c; contradiction|exact H]. }
    destruct (a_count a1) as [|m] eqn:Ecnt.
    + injection E as <- <-. cbn [a1 with_cnt a_count] in Ecnt.
      assert (C1 = []) by (destruct C1; [reflexivity|cbn in *; rewrite Ecnt in Cnt; discriminate]). subst C1.
      destruct (push_swap_perm (a_clause a1) (lnot lit)) as (r & Er & Pr).
      split; [|split; [exact Iv|split; [reflexivity|split; [reflexivity|]]]].
      2: { exists Rs. constructor; cbn [with_clause a_hashes a_clause].
           - apply Hi.
           - apply Hi.
           - intros x Hx. destruct (hi_in _ _ _ _ _ _ _ Hi x Hx) as (_ & A & B). auto.
           - intros x Hx. change (a_clause a1) with (a_clause a) in Er, Pr. rewrite Er. destruct (hi_closed _ _ _ _ _ _ _ Hi x Hx) as [A|[A|[A|A]]]; auto.
             + right. left. right. eapply Permutation_in; [symmetry; exact Pr|exact A].
             + apply InC in A. destruct A as [A|[]]. right. left. left. rewrite <- A. apply lnot_invol. }
      constructor. cbn [with_clause a_clause a_flags a_clean].
      exists (lnot lit), r. split; [exact Er|]. split.
      { split; [unfold isfalse; rewrite lnot_invol; apply (tk_true _ _ K)|rewrite lnot_invol]; eapply nth_error_In; exact Hp. }
      split; [rewrite lnot_var; exact Lvl|].
      assert (Inr : forall v, In v (map lit_var r) <-> In v (map lit_var (a_clause a1))).
      { intros v. split; apply Permutation_in; [|symmetry]; apply Permutation_map; exact Pr. }
      split. { intros x Hx. apply (ri_clause _ _ _ I1). eapply Permutation_in; [exact Pr|exact Hx]. }
      split. { eapply Permutation_NoDup; [apply Permutation_map; symmetry; exact Pr|apply I1]. }
      split. { intros v. rewrite (ri_flags _ _ _ I1), Inr. cbn. tauto. }
      split. { intros v. rewrite (ri_clean _ _ _ I1), Inr. reflexivity. }
      split. { rewrite (ri_clean _ _ _ I1). apply I1. }
      intros asg M. specialize (R asg M). eapply ch_incl; [|exact R]. intros x Hx. apply in_app_or in Hx.
      destruct Hx as [Hx|Hx].
      * apply in_map_iff in Hx. destruct Hx as (y & <- & Hy). apply InC in Hy. destruct Hy as [->|[]]. left. reflexivity.
      * right. eapply Permutation_in; [symmetry; exact Pr|exact Hx].
    + assert (NeC1 : C1 <> []) by (intros ->; cbn [a1 with_cnt a_count] in Ecnt; rewrite Ecnt in Cnt; discriminate).
      (* another literal of this level comes earlier, so this one is not the decision *)
      assert (NU : s_reason s (lit_var lit) <> RUnit).
      { intros Er. pose proof (tk_reason _ _ K p lit Hp) as Q. unfold reason_ok in Q. rewrite Er in Q.
        rewrite (tk_level _ _ K p lit Hp) in Lvl. destruct Q as [Q|Q]; [|lia].
        destruct C1 as [|c C1]; [contradiction|].
        destruct (Pos c (or_intror (Ct1 c (or_introl eq_refl)))) as (q & Hq & Hn).
        destruct (ri_cur _ _ _ I1 c (or_introl eq_refl)) as [_ Lc]. rewrite (tk_level _ _ K q c Hn) in Lc.
        assert (q <> p). { intros ->. apply Nin. left. congruence. }
        (* then the decision at [p] counts for [p] but not for [q] *)
        destruct (in_split _ _ Q) as (d1 & d2 & Ed). unfold clevel in *. rewrite Ed in *.
        rewrite lvl_app in Lc. cbn [lvl filter] in Lc. unfold lvl in Lc. cbn [filter] in Lc.
        destruct (Nat.leb_spec p q); [lia|].
        pose proof (lvl_le d1 q) as A1. pose proof (lvl_le d2 q) as A2. unfold lvl in A1, A2.
        rewrite app_length in Lc. cbn [length] in Lc. lia. }
      set (r := s_reason s (lit_var lit)) in *.
      assert (Lits : forall x, In x (reason_lits s r) -> falselit s x /\ In (lnot x) tr /\ s_level s (lit_var x) <= clevel s).
      { intros x Hx. destruct (reason_falselit _ _ _ _ _ K Hp Hx) as [Fx (q & Hq & Hn)]. split; [exact Fx|]. split.
        - rewrite Et' in Hn. rewrite nth_error_app1 in Hn by (rewrite rev_length; exact Hq).
          apply nth_error_In in Hn. apply in_rev. exact Hn.
        - rewrite <- lnot_var. eapply trail_level; [exact K|]. apply Fx. }
      set (a2 := if hr && negb (is_unit_reason r) then with_hashes a1 _ else a1) in *.
      assert (I2 : res_inv s a2 C1) by (unfold a2; destruct (hr && _)%bool; [constructor; apply I1|exact I1]).
      assert (Q2 : a_clause a2 = a_clause a /\ a_involved a2 = a_involved a /\ a_fuel a2 = a_fuel a /\ a_unordered a2 = a_unordered a).
      { unfold a2. destruct (hr && _)%bool; repeat split; reflexivity. }
      assert (Q2h : hr = true -> a_hashes a2 = clause_hash D0 :: map (rhash s) (Rs ++ [lit])).
      { intros Eh. unfold a2. rewrite Eh. destruct (is_unit_reason r) eqn:Eu; [destruct r; try discriminate; contradiction|].
        cbn [andb negb with_hashes a_hashes a1 with_cnt with_flags]. rewrite (hi_hashes _ _ _ _ _ _ _ Hi Eh), map_app. reflexivity. }
      destruct Q2 as (Q2a & Q2b & Q2c & Q2d). clearbody a2.
      destruct (add_literals s (vs, a2) (reason_lits s r)) as [vs3 a3] eqn:E3.
      destruct (add_literals_spec n s tr K Lv _ _ _ _ _ _ I2 Ct1 Lits E3)
        as (C3 & I3 & Ct3 & Ci & Cl & Pl & P1 & P2 & P3 & P4).
      set (a4 := match r with RLong c => with_involved a3 (a_involved a3 ++ [c]) | _ => a3 end) in *.
      assert (I4 : res_inv s a4 C3) by (unfold a4; destruct r; try exact I3; constructor; apply I3).
      assert (Q4 : a_clause a4 = a_clause a3 /\ a_fuel a4 = a_fuel a3 /\ a_unordered a4 = a_unordered a3 /\ a_hashes a4 = a_hashes a3) by (unfold a4; destruct r; auto).
      destruct Q4 as (Q4a & Q4b & Q4c & Q4d).
      assert (Hi4 : hint_inv hr s D0 a4 C3 (Rs ++ [lit]) (lit :: post)).
      { constructor.
        - intros Eh. rewrite Q4d, P4. apply Q2h. exact Eh.
        - rewrite rev_app_distr. cbn [rev app]. constructor; [apply Hi|]. apply Forall_forall. intros y Hy. apply in_rev in Hy.
          destruct (hi_in _ _ _ _ _ _ _ Hi y Hy) as (Py & _). apply In_nth_error in Py. destruct Py as (q & Hq).
          exists p, (Datatypes.S p + q). split; [lia|]. split; [exact Hp|]. rewrite Et', nth_error_app2; rewrite rev_length; fold p; [|lia].
          replace (Datatypes.S p + q - p) with (Datatypes.S q) by lia. exact Hq.
        - intros y Hy. apply in_app_or in Hy. destruct Hy as [Hy|[<-|[]]].
          + destruct (hi_in _ _ _ _ _ _ _ Hi y Hy) as (A & B). split; [right; exact A|exact B].
          + split; [left; reflexivity|]. split; [eapply nth_error_In; exact Hp|]. split; [exact Lvl|exact NU].
        - intros x Hx. rewrite Q4a, in_app_iff. cbn [In].
          assert (Old : In x D0 \/ (exists r0, In r0 Rs /\ In x (reason_lits s (s_reason s (lit_var r0)))) -> s_level s (lit_var x) = 0 \/ In x (a_clause a3) \/ In (lnot x) C3 \/ In (lnot x) Rs \/ lit = lnot x \/ False).
          { intros Q. destruct (hi_closed _ _ _ _ _ _ _ Hi x Q) as [A|[A|[A|A]]]; auto 6.
            - right. left. apply Cl. rewrite Q2a. exact A.
            - apply InC in A. destruct A as [A|A]; [auto 6|]. right. right. left. apply Ci. exact A. }
          destruct Hx as [Hx|(y & Hy & Hx)]; [auto|]. apply in_app_or in Hy. destruct Hy as [Hy|[<-|[]]]; [apply Old; eauto|].
          destruct (Pl x Hx) as [A|[A|A]]; auto. }
      assert (Iv4 : forall c, In c (a_involved a4) -> In c L).
      { intros c Hc. unfold a4 in Hc. destruct r as [| |c'] eqn:Er; cbn [with_involved a_involved] in Hc.
        - apply Iv. congruence.
        - apply Iv. congruence.
        - apply in_app_or in Hc. destruct Hc as [Hc|[<-|[]]]; [apply Iv; congruence|].
          eapply (so_rlong _ _ _ _ S); [eapply nth_error_In; exact Hp|exact Er]. }
      assert (R4 : resolvent L bin s (a_clause a4) C3).
      { rewrite Q4a. eapply add_resolvent with (lits := reason_lits s r) (C := C1) (cl := a_clause a2); eauto.
        - intros x Hx. apply (Lits x Hx).
        - intros asg M. specialize (R asg M). rewrite Q2a. apply ch_in in R. destruct R as (x & Hx & Hh).
          apply in_app_or in Hx. destruct Hx as [Hx|Hx].
          + apply in_map_iff in Hx. destruct Hx as (y & <- & Hy). apply InC in Hy. destruct Hy as [->|Hy].
            * (* the reason *)
              right. assert (Rc : clause_holds asg (lit :: reason_lits s r) = true).
              { pose proof (tk_reason _ _ K p lit Hp) as Q. unfold reason_ok in Q. fold r in Q. destruct M as [[SL SB] _].
                assert (Il : In lit (s_trail s)) by (eapply nth_error_In; exact Hp).
                destruct r as [|b|c] eqn:Er; [contradiction| |]; cbn [reason_lits].
                - pose proof (SB _ _ (so_rbin _ _ _ _ S lit b Il Er)) as Q'. rewrite lnot_invol in Q'.
                  eapply ch_incl; [|exact Q']. cbn. tauto.
                - destruct Q as (_ & rest & Ec & _). pose proof (SL _ (so_rlong _ _ _ _ S lit c Il Er)) as Q'.
                  rewrite Ec in *. exact Q'. }
              apply ch_in in Rc. destruct Rc as (z & [<-|Hz] & Hzh); [|apply ch_in; eauto].
              exfalso. rewrite lit_holds_lnot, Hzh in Hh. discriminate.
            * left. apply ch_in. exists (lnot y). split; [apply in_or_app; left; apply in_map; exact Hy|exact Hh].
          + left. apply ch_in. exists x. split; [apply in_or_app; auto|exact Hh]. }
      assert (NeC3 : C3 <> []).
      { intros ->. destruct C1 as [|c C1]; [contradiction|]. exact (Ci c (or_introl eq_refl)). }
      destruct (IH (lit :: post) vs3 a4 C3 (Rs ++ [lit]) vs' a' Et' I4 NeC3 Ct3 R4 Iv4 Hi4 E) as (A & B & Cc & D & G).
      split; [exact A|]. split; [exact B|]. split; [congruence|]. split; [congruence|exact G].
  - assert (Ct1 : forall c, In c C -> In c tr).
    { intros c Hc. destruct (Ct c Hc) as [->|H]; [|exact H]. exfalso.
      assert (a_flags a (lit_var c) = true) by (apply (ri_flags _ _ _ I); right; apply in_map; exact Hc). congruence. }
    apply (IH (lit :: post) vs a C Rs vs' a' Et' I Ne Ct1 R Iv); [|exact E]. constructor; try apply Hi.
    intros x Hx. destruct (hi_in _ _ _ _ _ _ _ Hi x Hx) as (A & B). split; [right; exact A|exact B].
Qed.

(** * Minimisation *)
Definition justified (s : search) (f : N -> bool) (v : N) : Prop :=
  s_reason s v <> RUnit /\
  forall x, In x (reason_lits s (s_reason s v)) -> s_level s (lit_var x) = 0 \/ f (lit_var x) = true.

Definition trail_var (s : search) (v : N) : Prop := In v (map lit_var (s_trail s)).

(** The flagged variables are those to clean, and are on the trail. *)
Record min_inv (s : search) (a : analyze) : Prop := {
  mi_flags : forall v, a_flags a v = true <-> In v (a_clean a);
  mi_nodup : NoDup (a_clean a);
  mi_trail : forall v, In v (a_clean a) -> trail_var s v }.

(** [a'] has [new] flagged in addition. *)
Record flagged (a a' : analyze) (new : list N) : Prop := {
  fl_clean : a_clean a' = a_clean a ++ new;
  fl_flags : forall v, a_flags a' v = true <-> a_flags a v = true \/ In v new;
  fl_new : forall v, In v new -> a_flags a v = false;
  fl_clause : a_clause a' = a_clause a;
  fl_involved : a_involved a' = a_involved a;
  fl_fuel : a_fuel a' = a_fuel a }.

Lemma flagged_refl a : flagged a a [].
Proof. constructor; auto; [symmetry; apply app_nil_r|cbn; tauto|intros ? []]. Qed.
Lemma flagged_trans a b c x y : flagged a b x -> flagged b c y -> flagged a c (x ++ y).
Proof.
  intros A B. constructor.
  - rewrite (fl_clean _ _ _ B), (fl_clean _ _ _ A). symmetry. apply app_assoc.
  - intros v. rewrite (fl_flags _ _ _ B), (fl_flags _ _ _ A), in_app_iff. tauto.
  - intros v H. apply in_app_or in H. destruct H as [H|H]; [exact (fl_new _ _ _ A v H)|].
    pose proof (fl_new _ _ _ B v H) as Q. destruct (a_flags a v) eqn:E; [|reflexivity].
    assert (a_flags b v = true) by (apply (fl_flags _ _ _ A); auto). congruence.
  - rewrite (fl_clause _ _ _ B). apply A.
  - rewrite (fl_involved _ _ _ B). apply A.
  - rewrite (fl_fuel _ _ _ B). apply A.
Qed.
Lemma justified_mono s f g v : (forall x, f x = true -> g x = true) -> justified s f v -> justified s g v.
Proof. intros H [A B]. split; [exact A|]. intros x Hx. destruct (B x Hx); auto. Qed.

Lemma visit_reason_spec s bits : forall lits a stack a' r,
  min_inv s a -> (forall x, In x lits -> falselit s x) ->
  visit_reason s bits a stack lits = (a', r) ->
  exists new, flagged a a' new /\ min_inv s a' /\
  match r with
  | None => True
  | Some stack' =>
      (exists tops, stack' = tops ++ stack /\ length tops = length new /\
         (forall v, In v (map lit_var tops) <-> In v new) /\
         forall y, In y tops -> In y (s_trail s) /\ s_reason s (lit_var y) <> RUnit) /\
      forall x, In x lits -> s_level s (lit_var x) = 0 \/ a_flags a' (lit_var x) = true
  end.
Proof.
  induction lits as [|x lits IH]; intros a stack a' r I Hf E; cbn [visit_reason] in E.
  - injection E as <- <-. exists []. split; [apply flagged_refl|]. split; [exact I|]. split; [|intros ? []].
    exists []. split; [reflexivity|]. split; [reflexivity|]. split; [reflexivity|intros ? []].
  - assert (Fx : falselit s x) by (apply Hf; left; reflexivity).
    assert (Hf' : forall y, In y lits -> falselit s y) by (intros; apply Hf; right; assumption).
    destruct (a_flags a (lit_var x)) eqn:Ef; cbn [negb andb] in E.
    { apply IH in E; auto. destruct E as (new & A & B & C). exists new. split; [exact A|]. split; [exact B|].
      destruct r as [st|]; [|exact Logic.I]. destruct C as [C D]. split; [exact C|].
      intros y [<-|Hy]; [|auto]. right. apply (fl_flags _ _ _ A). auto. }
    destruct (Nat.ltb_spec 0 (s_level s (lit_var x))) as [L0|L0].
    2:{ apply IH in E; auto. destruct E as (new & A & B & C). exists new. split; [exact A|]. split; [exact B|].
        destruct r as [st|]; [|exact Logic.I]. destruct C as [C D]. split; [exact C|].
        intros y [<-|Hy]; [|auto]. left. lia. }
    destruct (is_unit_reason (s_reason s (lit_var x)) || negb (level_test bits (s_level s (lit_var x))))%bool eqn:Eu.
    { injection E as <- <-. exists []. split; [apply flagged_refl|]. split; [exact I|exact Logic.I]. }
    apply orb_false_iff in Eu. destruct Eu as [Eu _].
    assert (Nu : s_reason s (lit_var x) <> RUnit) by (intros Q; rewrite Q in Eu; discriminate).
    set (a1 := with_clean _ _) in E.
    assert (A1 : flagged a a1 [lit_var x]).
    { constructor; try reflexivity.
      - intros v. cbn [a1 with_clean with_flags a_flags In]. unfold upd. destruct (N.eqb_spec v (lit_var x)) as [->|NE].
        + split; auto.
        + split; [auto|]. intros [H|[H|[]]]; [exact H|congruence].
      - intros v [<-|[]]. exact Ef. }
    assert (I1 : min_inv s a1).
    { constructor.
      - intros v. rewrite (fl_flags _ _ _ A1), (fl_clean _ _ _ A1), in_app_iff, (mi_flags _ _ I). reflexivity.
      - rewrite (fl_clean _ _ _ A1). rewrite <- (rev_involutive (a_clean a ++ [lit_var x])). apply NoDup_rev.
        rewrite rev_app_distr. cbn [rev app]. constructor; [|apply NoDup_rev; apply I]. rewrite <- in_rev.
        intros Q. apply (mi_flags _ _ I) in Q. congruence.
      - intros v. rewrite (fl_clean _ _ _ A1), in_app_iff. intros [H|[<-|[]]]; [apply I; exact H|].
        unfold trail_var. rewrite <- lnot_var. apply in_map. apply Fx. }
    apply IH in E; auto. destruct E as (new & A & B & C). exists (lit_var x :: new).
    split; [apply (flagged_trans _ _ _ _ _ A1 A)|]. split; [exact B|]. destruct r as [st|]; [|exact Logic.I].
    destruct C as [(tops & Es & El & Ev & Ht) D]. split.
    + exists (tops ++ [lnot x]). split; [rewrite <- app_assoc; exact Es|].
      split; [rewrite app_length; cbn; lia|]. split.
      * intros v. rewrite map_app, in_app_iff, Ev. cbn [map In]. rewrite lnot_var. tauto.
      * intros y Hy. apply in_app_or in Hy. destruct Hy as [Hy|[<-|[]]]; [auto|]. split; [apply Fx|rewrite lnot_var; exact Nu].
    + intros y [<-|Hy]; [|auto]. right. apply (fl_flags _ _ _ A). left. apply (fl_flags _ _ _ A1). right. left. reflexivity.
Qed.

Lemma clean_bound n s a : trail_ok n s -> min_inv s a -> length (a_clean a) <= N.to_nat n.
Proof.
  intros K I.
  assert (Inc : incl (a_clean a) (map lit_var (s_trail s))) by (intros v Hv; apply I; exact Hv).
  pose proof (NoDup_incl_length (mi_nodup _ _ I) Inc) as Q. rewrite map_length in Q.
  pose proof (trail_ok_length _ _ K). lia.
Qed.

(** The reasons of [M] were visited and recorded. *)
Definition visited (s : search) (a : analyze) (M : list N) : Prop :=
  forall m, In m M -> In m (s_trail s) /\ s_level s (lit_var m) < clevel s /\ justified s (a_flags a) (lit_var m).
Definition recorded (hr : bool) (s : search) (a : analyze) (M : list N) : Prop := hr = true -> a_unordered a = map (ent s) M.
Lemma visited_mono s a a' M : (forall v, a_flags a v = true -> a_flags a' v = true) -> visited s a M -> visited s a' M.
Proof. intros H V m Hm. destruct (V m Hm) as (A & B & C). split; [exact A|]. split; [exact B|]. eapply justified_mono; eauto. Qed.
Lemma visit_reason_hints s bits : forall lits a stack a' r, visit_reason s bits a stack lits = (a', r) ->
  a_unordered a' = a_unordered a /\ a_hashes a' = a_hashes a /\
  match r with None => True | Some stack' => forall y, In y stack' -> In y stack \/ exists x, In x lits /\ y = lnot x end.
Proof.
  induction lits as [|x lits IH]; intros a stack a' r E; cbn [visit_reason] in E.
  - injection E as <- <-. auto.
  - destruct (negb (a_flags a (lit_var x)) && Nat.ltb 0 (s_level s (lit_var x)))%bool.
    + destruct (is_unit_reason _ || _)%bool; [injection E as <- <-; auto|]. apply IH in E. destruct E as (A & B & C). split; [exact A|]. split; [exact B|].
      destruct r as [st|]; [|exact Logic.I]. intros y Hy. destruct (C y Hy) as [[<-|Q]|(z & Hz & ->)]; [right; exists x; cbn; auto|auto|right; exists z; cbn; auto].
    + apply IH in E. destruct E as (A & B & C). split; [exact A|]. split; [exact B|].
      destruct r as [st|]; [|exact Logic.I]. intros y Hy. destruct (C y Hy) as [Q|(z & Hz & ->)]; [auto|right; exists z; cbn; auto].
Qed.

Lemma dfs_spec n hr s bits (B : N -> Prop) : trail_ok n s -> forall fuel a stack M a' ok,
  min_inv s a ->
  (forall y, In y stack -> In y (s_trail s) /\ s_reason s (lit_var y) <> RUnit /\ s_level s (lit_var y) < clevel s) ->
  (forall v, In v (a_clean a) -> B v \/ In v (map lit_var stack) \/ In v (map lit_var M)) -> visited s a M -> recorded hr s a M ->
  length stack + N.to_nat n <= fuel + length (a_clean a) ->
  dfs fuel hr s bits a stack = (a', ok) ->
  exists new M', flagged a a' new /\ min_inv s a' /\ recorded hr s a' (M ++ M') /\ a_hashes a' = a_hashes a /\
    (ok = true -> visited s a' (M ++ M') /\ forall v, In v (a_clean a') -> B v \/ In v (map lit_var (M ++ M'))).
Proof.
  intros K. induction fuel as [|fuel IH]; intros a stack M a' ok I Hs Hj HV HR Hm E; destruct stack as [|lit stack]; cbn [dfs] in E.
  - injection E as <- <-. exists [], []. rewrite app_nil_r. split; [apply flagged_refl|]. split; [exact I|]. split; [exact HR|]. split; [reflexivity|].
    intros _. split; [exact HV|]. intros v Hv. destruct (Hj v Hv) as [?|[[]|?]]; auto.
  - exfalso. pose proof (clean_bound _ _ _ K I). cbn [length] in Hm. lia.
  - injection E as <- <-. exists [], []. rewrite app_nil_r. split; [apply flagged_refl|]. split; [exact I|]. split; [exact HR|]. split; [reflexivity|].
    intros _. split; [exact HV|]. intros v Hv. destruct (Hj v Hv) as [?|[[]|?]]; auto.
  - destruct (Hs lit (or_introl eq_refl)) as (Il & Nu & Ll).
    set (r := s_reason s (lit_var lit)) in *.
    set (a1 := if (hr && negb (is_unit_reason r))%bool then with_unordered a _ else a) in *.
    assert (A1 : flagged a a1 []).
    { unfold a1. destruct (hr && _)%bool; [|apply flagged_refl].
      constructor; try reflexivity; [symmetry; apply app_nil_r|cbn; tauto|intros ? []]. }
    assert (I1 : min_inv s a1) by (unfold a1; destruct (hr && _)%bool; [constructor; apply I|exact I]).
    assert (F1 : a_flags a1 = a_flags a /\ a_clean a1 = a_clean a /\ a_hashes a1 = a_hashes a) by (unfold a1; destruct (hr && _)%bool; auto).
    assert (R1 : recorded hr s a1 (M ++ [lit])).
    { intros Eh. unfold a1. rewrite Eh. destruct (is_unit_reason r) eqn:Eu; [destruct r; try discriminate; contradiction|].
      cbn [andb negb with_unordered a_unordered]. rewrite (HR Eh), map_app. reflexivity. }
    destruct F1 as (F1 & F1' & F1h). clearbody a1.
    assert (Hf : forall x, In x (reason_lits s r) -> falselit s x /\ s_level s (lit_var x) < clevel s).
    { intros x Hx. destruct (In_nth_error _ _ Il) as (p & Hp). destruct (reason_falselit _ _ _ _ _ K Hp Hx) as [Fx (q & Hq & Hn)]. split; [exact Fx|].
      rewrite <- lnot_var, (tk_level _ _ K q _ Hn). rewrite (tk_level _ _ K p _ Hp) in Ll. pose proof (lvl_mono (s_decs s) q p). lia. }
    destruct (visit_reason s bits a1 stack (reason_lits s r)) as [a2 [stack2|]] eqn:Ev.
    2:{ injection E as <- <-. destruct (visit_reason_spec _ _ _ _ _ _ _ I1 (fun x Hx => proj1 (Hf x Hx)) Ev) as (new & A & Bq & _).
        destruct (visit_reason_hints _ _ _ _ _ _ _ Ev) as (Hu & Hh & _).
        exists ([] ++ new), [lit]. split; [eapply flagged_trans; eauto|]. split; [exact Bq|]. split; [intros Eh; rewrite Hu; apply R1; exact Eh|]. split; [congruence|discriminate]. }
    destruct (visit_reason_spec _ _ _ _ _ _ _ I1 (fun x Hx => proj1 (Hf x Hx)) Ev) as (new & A & I2 & (tops & Es & El & Evs & Ht) & Hr).
    destruct (visit_reason_hints _ _ _ _ _ _ _ Ev) as (Hu & Hh & Hst).
    assert (Mono : forall v, a_flags a v = true -> a_flags a2 v = true).
    { intros v Hv. apply (fl_flags _ _ _ A). rewrite F1. auto. }
    apply (IH a2 stack2 (M ++ [lit])) in E; auto.
    + destruct E as (new2 & M2 & A2 & I3 & R3 & Hh3 & Hok). exists (([] ++ new) ++ new2), ([lit] ++ M2).
      split; [eapply flagged_trans; [eapply flagged_trans; eauto|exact A2]|]. split; [exact I3|]. rewrite app_assoc. split; [exact R3|]. split; [congruence|exact Hok].
    + intros y Hy. destruct (Hst y Hy) as [Q|(x & Hx & ->)]; [apply Hs; right; exact Q|].
      rewrite Es in Hy. apply in_app_or in Hy. destruct Hy as [Hy|Hy]; [|apply Hs; right; exact Hy].
      destruct (Ht _ Hy) as [T1 T2]. split; [exact T1|]. split; [exact T2|]. rewrite lnot_var. apply (Hf x Hx).
    + intros v Hv. rewrite (fl_clean _ _ _ A), F1' in Hv. rewrite Es, map_app, in_app_iff.
      apply in_app_or in Hv. destruct Hv as [Hv|Hv].
      * rewrite map_app, in_app_iff. cbn [map In]. destruct (Hj v Hv) as [Q|[Q|Q]]; [auto| |auto].
        cbn [map In] in Q. destruct Q as [<-|Q]; auto.
      * right. left. left. apply Evs. exact Hv.
    + intros m Hm'. apply in_app_or in Hm'. destruct Hm' as [Hm'|[<-|[]]].
      * destruct (HV m Hm') as (X & Y & Z). split; [exact X|]. split; [exact Y|]. eapply justified_mono; [exact Mono|exact Z].
      * split; [exact Il|]. split; [exact Ll|]. split; [exact Nu|exact Hr].
    + intros Eh. rewrite Hu. apply R1. exact Eh.
    + rewrite Es, app_length, El, (fl_clean _ _ _ A), F1', app_length. cbn [length] in Hm. lia.
Qed.

Lemma skipn_app_exact {A} (x y : list A) : skipn (length x) (x ++ y) = y.
Proof. rewrite skipn_app, skipn_all, Nat.sub_diag. reflexivity. Qed.
Lemma firstn_app_exact {A} (x y : list A) : firstn (length x) (x ++ y) = x.
Proof. rewrite firstn_app, firstn_all, Nat.sub_diag. cbn. apply app_nil_r. Qed.

Lemma minimize_loop_spec n hr s bits : trail_ok n s -> forall lits K M a a' r,
  min_inv s a -> (forall x, In x lits -> falselit s x /\ a_flags a (lit_var x) = true /\ s_level s (lit_var x) < clevel s) ->
  (forall v, In v (a_clean a) -> In v (map lit_var (K ++ lits)) \/ In v (map lit_var M)) -> visited s a M -> recorded hr s a M ->
  minimize_loop (S (N.to_nat n)) hr s bits a lits = (a', r) ->
  min_inv s a' /\ (forall v, a_flags a v = true -> a_flags a' v = true) /\
  (exists M', visited s a' M' /\ recorded hr s a' M' /\ a_hashes a' = a_hashes a /\
     forall v, In v (a_clean a') -> In v (map lit_var (K ++ r)) \/ In v (map lit_var M')) /\
  incl r lits /\ (NoDup (map lit_var lits) -> NoDup (map lit_var r)) /\
  a_involved a' = a_involved a /\ a_fuel a' = a_fuel a.
Proof.
  intros T. induction lits as [|l lits IH]; intros K M a a' r I Hl Hj HV HR E; cbn [minimize_loop] in E.
  - injection E as <- <-. split; [exact I|]. split; [auto|]. split; [exists M; auto|]. split; [apply incl_refl|]. auto.
  - assert (Hl' : forall x, In x lits -> falselit s x /\ a_flags a (lit_var x) = true /\ s_level s (lit_var x) < clevel s) by (intros; apply Hl; right; assumption).
    destruct (Hl l (or_introl eq_refl)) as (Fl & Hfl & Lvl).
    assert (Assoc : forall x : list N, (K ++ [l]) ++ x = K ++ l :: x) by (intros; rewrite <- app_assoc; reflexivity).
    assert (Cons : forall r, incl r lits /\ (NoDup (map lit_var lits) -> NoDup (map lit_var r)) ->
              incl (l :: r) (l :: lits) /\ (NoDup (map lit_var (l :: lits)) -> NoDup (map lit_var (l :: r)))).
    { intros r0 [X Y]. split; [intros z [<-|Hz]; [left; reflexivity|right; auto]|].
      cbn [map]. intros Q. inversion Q as [|? ? Q1 Q2]; subst. constructor; [|auto]. intros H. apply Q1.
      apply in_map_iff in H. destruct H as (z & Ez & Hz). apply in_map_iff. exists z. auto. }
    destruct (is_unit_reason (s_reason s (lit_var l))) eqn:Eu.
    { destruct (minimize_loop (S (N.to_nat n)) hr s bits a lits) as [a2 r2] eqn:E2. injection E as <- <-.
      apply (IH (K ++ [l]) M) in E2; auto; [|rewrite Assoc; exact Hj].
      destruct E2 as (A & B & C & D & F & G & H). rewrite Assoc in C.
      split; [exact A|]. split; [exact B|]. split; [exact C|]. destruct (Cons r2 (conj D F)) as (X & Y). auto. }
    destruct (dfs (S (N.to_nat n)) hr s bits a [lnot l]) as [a1 ok] eqn:Ed.
    assert (D1 : exists new M1, flagged a a1 new /\ min_inv s a1 /\ recorded hr s a1 (M ++ M1) /\ a_hashes a1 = a_hashes a /\
      (ok = true -> visited s a1 (M ++ M1) /\ forall v, In v (a_clean a1) -> In v (map lit_var (K ++ lits)) \/ In v (map lit_var (M ++ M1)))).
    { eapply dfs_spec with (n := n) (fuel := S (N.to_nat n)) (stack := [lnot l]); [exact T|exact I| | |exact HV|exact HR|cbn [length]; lia|exact Ed].
      - intros y [<-|[]]. split; [apply Fl|]. rewrite lnot_var. split; [|exact Lvl]. intros Q. rewrite Q in Eu. discriminate.
      - intros v Hv. destruct (Hj v Hv) as [Q|Q]; [|auto]. rewrite map_app, in_app_iff in Q. cbn [map In] in Q.
        rewrite map_app, in_app_iff. cbn [map In]. rewrite lnot_var. tauto. }
    destruct D1 as (new & M1 & A1 & I1 & R1 & Hh1 & J1). destruct ok.
    { destruct (J1 eq_refl) as [V1 J1']. apply (IH K (M ++ M1)) in E; auto.
      - destruct E as (A & B & (M' & C1 & C2 & C3 & C4) & D & F & G & H). split; [exact A|].
        split; [intros v Hv; apply B, (fl_flags _ _ _ A1); auto|]. split; [exists M'; split; [exact C1|split; [exact C2|split; [congruence|exact C4]]]|].
        split; [intros z Hz; right; auto|]. split; [intros Q; inversion Q; subst; auto|].
        split; [rewrite G; apply A1|rewrite H; apply A1].
      - intros x Hx. destruct (Hl' x Hx) as (P & Q & Q'). split; [exact P|]. split; [|exact Q']. apply (fl_flags _ _ _ A1). auto. }
    set (a2 := with_unordered _ _) in E.
    assert (C2 : a_clean a2 = a_clean a).
    { cbn [a2 with_unordered with_clean a_clean]. rewrite (fl_clean _ _ _ A1). apply firstn_app_exact. }
    assert (F2 : forall v, a_flags a2 v = a_flags a v).
    { intros v. cbn [a2 with_unordered with_clean with_flags a_flags]. rewrite (fl_clean _ _ _ A1), skipn_app_exact, clear_flags.
      destruct (existsb (N.eqb v) new) eqn:Ex.
      - apply memb_in in Ex. symmetry. exact (fl_new _ _ _ A1 v Ex).
      - assert (Nn : ~ In v new) by (intros Q; apply memb_in in Q; congruence).
        destruct (a_flags a1 v) eqn:E1, (a_flags a v) eqn:E0; try reflexivity.
        + apply (fl_flags _ _ _ A1) in E1. destruct E1; [congruence|contradiction].
        + assert (a_flags a1 v = true) by (apply (fl_flags _ _ _ A1); auto). congruence. }
    assert (I2 : min_inv s a2).
    { constructor.
      - intros v. rewrite F2, C2. apply I.
      - rewrite C2. apply I.
      - intros v. rewrite C2. apply I. }
    destruct (minimize_loop (S (N.to_nat n)) hr s bits a2 lits) as [a3 r3] eqn:E3. injection E as <- <-.
    apply (IH (K ++ [l]) M) in E3; auto.
    + destruct E3 as (A & B & (M' & C1 & C2' & C3 & C4) & D & F & G & H). rewrite Assoc in C4.
      split; [exact A|]. split; [intros v Hv; apply B; rewrite F2; exact Hv|]. split; [exists M'; split; [exact C1|split; [exact C2'|split; [rewrite C3; exact Hh1|exact C4]]]|].
      destruct (Cons r3 (conj D F)) as (X & Y). split; [exact X|]. split; [exact Y|].
      split; [rewrite G; apply A1|rewrite H; apply A1].
    + intros x Hx. rewrite F2. apply Hl'. exact Hx.
    + intros v. rewrite C2, Assoc. exact (Hj v).
    + eapply visited_mono; [|exact HV]. intros v. rewrite F2. auto.
    + intros Eh. change (a_unordered a2) with (firstn (length (a_unordered a)) (a_unordered a1)). rewrite (HR Eh), (R1 Eh), map_app. apply firstn_app_exact.
Qed.

(** The dropped literals follow from the others. *)
Lemma justified_holds n L bin s a f u r : trail_ok n s -> store_ok n L bin s -> meets L bin s a ->
  (forall x, In x r -> falselit s x) ->
  (forall v, f v = true -> In v (map lit_var r) \/ justified s f v) -> clause_holds a (u :: r) = false ->
  forall p l, nth_error (s_trail s) p = Some l -> f (lit_var l) = true -> lit_holds a l = true.
Proof.
  intros K S M Hr Hj Hc.
  assert (Fr : forall x, In x (u :: r) -> lit_holds a x = false).
  { intros x Hx. destruct (lit_holds a x) eqn:E; [|reflexivity].
    assert (clause_holds a (u :: r) = true) by (apply ch_in; eauto). congruence. }
  induction p as [p IH] using lt_wf_ind. intros l Hp Hf.
  assert (Il : In l (s_trail s)) by (eapply nth_error_In; exact Hp).
  destruct (Hj _ Hf) as [Hv|[Nu Q]].
  - apply in_map_iff in Hv. destruct Hv as (x & Ex & Ix). destruct (Hr x Ix) as [Fx _].
    assert (l = lnot x). { eapply same_true; [apply (tk_true _ _ K); exact Il|exact Fx|rewrite lnot_var; auto]. }
    subst l. apply lh_false. apply Fr. right. exact Ix.
  - set (rs := s_reason s (lit_var l)) in *.
    assert (Z : forall x, In x (reason_lits s rs) -> lit_holds a x = false).
    { intros x Hx. destruct (reason_falselit _ _ _ _ _ K Hp Hx) as [Fx (q & Hq & Hn)]. destruct (Q x Hx) as [L0|Hfx].
      - eapply falselit_level0; eauto.
      - apply lh_false. apply (IH q Hq (lnot x) Hn). rewrite lnot_var. exact Hfx. }
    assert (Rc : clause_holds a (l :: reason_lits s rs) = true).
    { pose proof (tk_reason _ _ K p l Hp) as R. unfold reason_ok in R. fold rs in R. destruct M as [[SL SB] _].
      destruct rs as [|b|c] eqn:Er; [contradiction| |]; cbn [reason_lits].
      - pose proof (SB _ _ (so_rbin _ _ _ _ S l b Il Er)) as Q'. rewrite lnot_invol in Q'.
        eapply ch_incl; [|exact Q']. cbn. tauto.
      - destruct R as (_ & rest & Ec & _). pose proof (SL _ (so_rlong _ _ _ _ S l c Il Er)) as Q'.
        rewrite Ec in *. exact Q'. }
    apply ch_in in Rc. destruct Rc as (z & [<-|Hz] & Hh); [exact Hh|]. rewrite (Z z Hz) in Hh. discriminate.
Qed.

(** * The highest of the other levels *)
Lemma pick_level_spec s : forall rest l1 bt x b r, bt = s_level s (lit_var l1) -> pick_level s l1 bt rest = (x, b, r) ->
  b = s_level s (lit_var x) /\ Permutation (l1 :: rest) (x :: r) /\ (forall y, In y (l1 :: rest) -> s_level s (lit_var y) <= b).
Proof.
  induction rest as [|l rest IH]; intros l1 bt x b r Eb E; cbn [pick_level] in E.
  - injection E as <- <- <-. split; [exact Eb|]. split; [reflexivity|]. intros y [<-|[]]. lia.
  - destruct (Nat.ltb_spec bt (s_level s (lit_var l))) as [Hl|Hl].
    + destruct (pick_level s l (s_level s (lit_var l)) rest) as [[x1 b1] r1] eqn:E1. injection E as <- <- <-.
      destruct (IH l _ _ _ _ eq_refl E1) as (A & B & C). split; [exact A|]. split.
      * etransitivity; [apply perm_skip; exact B|apply perm_swap].
      * intros y [<-|Hy]; [|auto]. pose proof (C l (or_introl eq_refl)). lia.
    + destruct (pick_level s l1 bt rest) as [[x1 b1] r1] eqn:E1. injection E as <- <- <-.
      destruct (IH l1 _ _ _ _ Eb E1) as (A & B & C). split; [exact A|]. split.
      * etransitivity; [apply perm_swap|]. etransitivity; [apply perm_skip; exact B|apply perm_swap].
      * intros y [<-|[<-|Hy]]; [apply C; left; reflexivity| |apply C; right; exact Hy].
        pose proof (C l1 (or_introl eq_refl)). lia.
Qed.

(** * Order of the hints *)
Lemma insert_depth_spec x : forall l, Permutation (x :: l) (insert_depth x l) /\
  (Sorted (fun a b : nat * N => fst b <= fst a) l -> Sorted (fun a b => fst b <= fst a) (insert_depth x l)).
Proof.
  induction l as [|y l [IP IS]]; cbn [insert_depth]; [split; [reflexivity|intros; repeat constructor]|].
  destruct (Nat.leb_spec (fst y) (fst x)) as [H|H].
  - split; [reflexivity|]. intros Q. constructor; [exact Q|constructor; exact H].
  - split; [etransitivity; [apply perm_swap|apply perm_skip; exact IP]|]. intros Q. apply Sorted_inv in Q. destruct Q as [Q Hd]. constructor; [auto|].
    destruct l as [|z l]; cbn [insert_depth]; [constructor; lia|]. apply HdRel_inv in Hd. destruct (Nat.leb (fst z) (fst x)); constructor; [lia|exact Hd].
Qed.
Lemma sort_depth_spec : forall l, Permutation l (sort_depth l) /\ Sorted (fun a b : nat * N => fst b <= fst a) (sort_depth l).
Proof.
  induction l as [|x l [IP IS]]; [split; constructor|]. cbn [sort_depth fold_right]. change (fold_right insert_depth [] l) with (sort_depth l).
  destruct (insert_depth_spec x (sort_depth l)) as [A B]. split; [etransitivity; [apply perm_skip; exact IP|exact A]|auto].
Qed.
Lemma ent_at n s p l : trail_ok n s -> nth_error (s_trail s) p = Some l -> fst (ent s l) = S p.
Proof. intros K H. cbn [ent fst]. rewrite (tk_depth _ _ K p l H). reflexivity. Qed.
Lemma dedup_depth_spec n s : trail_ok n s -> forall M, (forall m, In m M -> In m (s_trail s)) ->
  Sorted (fun a b : nat * N => fst b <= fst a) (map (ent s) M) ->
  exists M', dedup_depth (map (ent s) M) = map (ent s) M' /\ (forall m, In m M <-> In m M') /\
    StronglySorted (fun a b => earlier s b a) M' /\ (forall m r, M = m :: r -> exists r', M' = m :: r').
Proof.
  intros K. induction M as [|x M IH]; intros Ht Q; cbn [map dedup_depth].
  - exists []. split; [reflexivity|]. split; [tauto|]. split; [constructor|discriminate].
  - cbn [map] in Q. apply Sorted_inv in Q. destruct Q as [Q Hd].
    destruct (IH (fun m Hm => Ht m (or_intror Hm)) Q) as (M' & E & Hi & SS & Hh). rewrite E.
    destruct (In_nth_error _ _ (Ht x (or_introl eq_refl))) as (p & Hp).
    destruct M' as [|y M']; cbn [map].
    + exists [x]. split; [reflexivity|]. split; [intros m; rewrite <- (Hi m) || (cbn; specialize (Hi m); cbn in Hi; tauto); cbn; tauto|]. split; [repeat constructor|].
      intros m r Em. injection Em as <- <-. eauto.
    + assert (Iy : In y (s_trail s)) by (apply Ht; right; apply Hi; left; reflexivity). destruct (In_nth_error _ _ Iy) as (q & Hq).
      assert (Le : q <= p).
      { destruct M as [|z M]; [destruct (proj2 (Hi y) (or_introl eq_refl))|]. destruct (Hh z M eq_refl) as (r' & Er). injection Er as -> ->.
        cbn [map] in Hd. apply HdRel_inv in Hd. rewrite (ent_at _ _ _ _ K Hp), (ent_at _ _ _ _ K Hq) in Hd. lia. }
      rewrite (ent_at _ _ _ _ K Hp), (ent_at _ _ _ _ K Hq). destruct (Nat.eqb_spec (S p) (S q)) as [Eq|Nq].
      * injection Eq as <-. assert (x = y) by congruence. subst y. exists (x :: M'). split; [reflexivity|].
        split; [intros m; cbn [In]; rewrite (Hi m); cbn [In]; tauto|]. split; [exact SS|]. intros m r Em. injection Em as <- <-. eauto.
      * exists (x :: y :: M'). split; [reflexivity|]. split; [intros m; cbn [In]; rewrite (Hi m); cbn [In]; tauto|]. split.
        -- constructor; [exact SS|]. assert (Eyx : earlier s y x) by (exists q, p; split; [lia|auto]).
           constructor; [exact Eyx|]. apply StronglySorted_inv in SS. destruct SS as [_ FA]. eapply Forall_impl; [|exact FA].
           intros z (i & j & Hij & Hzi & Hyj). exists i, p. split; [|auto]. assert (j = q); [|lia].
           pose proof (tk_depth _ _ K j y Hyj). pose proof (tk_depth _ _ K q y Hq). congruence.
        -- intros m r Em. injection Em as <- <-. eauto.
Qed.
Lemma sorted_hints n s M : trail_ok n s -> (forall m, In m M -> In m (s_trail s)) ->
  exists M', dedup_depth (sort_depth (map (ent s) M)) = map (ent s) M' /\ (forall m, In m M <-> In m M') /\ ordered s (rev M').
Proof.
  intros K Ht. destruct (sort_depth_spec (map (ent s) M)) as [A B].
  destruct (Permutation_map_inv _ _ (Permutation_sym A)) as (M1 & E & P). rewrite E in *.
  destruct (dedup_depth_spec n s K M1) as (M' & E' & Hi & SS & _); [intros m Hm; apply Ht; eapply Permutation_in; [symmetry; exact P|exact Hm]|exact B|].
  exists M'. split; [exact E'|]. split.
  - intros m. rewrite <- Hi. split; apply Permutation_in; [exact P|symmetry; exact P].
  - clear -SS. unfold ordered. induction SS as [|x l SS IH FA]; cbn [rev]; [constructor|].
    assert (G : forall l1 : list N, StronglySorted (earlier s) l1 -> Forall (fun y => earlier s y x) l1 -> StronglySorted (earlier s) (l1 ++ [x])).
    { induction l1 as [|z l1 IH1]; intros S1 F1; cbn [app]; [repeat constructor|]. apply StronglySorted_inv in S1. destruct S1 as [S1 S2]. inversion F1; subst.
      constructor; [auto|]. apply Forall_app. split; [exact S2|]. repeat constructor. assumption. }
    apply G; [exact IH|]. apply Forall_forall. intros y Hy. apply in_rev in Hy. rewrite Forall_forall in FA. exact (FA y Hy).
Qed.
Lemma ordered_app s A B : ordered s A -> ordered s B -> (forall x y, In x A -> In y B -> earlier s x y) -> ordered s (A ++ B).
Proof.
  intros HA HB H. unfold ordered in *. induction HA as [|x A HA IH FA]; cbn [app]; [exact HB|]. constructor.
  - apply IH. intros u v Hu Hv. apply H; [right; exact Hu|exact Hv].
  - apply Forall_app. split; [exact FA|]. apply Forall_forall. intros y Hy. apply H; [left; reflexivity|exact Hy].
Qed.
(** What the recorded hashes belong to *)
Record hinted (s : search) (D cl hashes V : list N) : Prop := {
  ht_hashes : hashes = map (rhash s) V ++ [clause_hash D];
  ht_ordered : ordered s V;
  ht_in : forall v, In v V -> In v (s_trail s) /\ s_reason s (lit_var v) <> RUnit;
  ht_closed : forall x, In x D \/ (exists v, In v V /\ In x (reason_lits s (s_reason s (lit_var v)))) ->
     s_level s (lit_var x) = 0 \/ In x cl \/ In (lnot x) V }.

(** * The whole *)
Record learned (L : list N) (bin : N -> list N) (s : search) (cl : list N) (bt : nat) : Prop := {
  le_clause : exists u rest, cl = u :: rest /\ falselit s u /\ s_level s (lit_var u) = clevel s /\
      (forall x, In x rest -> falselit s x /\ 0 < s_level s (lit_var x) <= bt) /\
      match rest with [] => bt = 0 | x :: _ => s_level s (lit_var x) = bt end;
  le_bt : bt < clevel s;
  le_nodup : NoDup (map lit_var cl);
  le_implied : forall a, meets L bin s a -> clause_holds a cl = true }.

Lemma analyze_conflict_full n L bin hr s vs a c vs' a' bt :
  trail_ok n s -> store_ok n L bin s -> 0 < clevel s -> conflict_at L bin s c ->
  (forall v, a_flags a v = false) -> a_clean a = [] ->
  analyze_conflict n hr s vs a c = (vs', a', bt) ->
  (learned L bin s (a_clause a') bt /\ (forall v, a_flags a' v = false) /\ a_clean a' = [] /\
  a_fuel a' = a_fuel a /\ (forall d, In d (a_involved a') -> In d L)) /\
  (hr = true -> exists V, hinted s (conflict_lits s c) (a_clause a') (a_hashes a') V).
Proof.
  intros K S Lv (Cs & Cf & x0 & Ix0 & Lx0) Fl Cl E. unfold analyze_conflict in E.
  set (lits := conflict_lits s c) in *.
  set (a0 := Analyze [] 0 (a_flags a) (a_clean a) [] [] [] (a_fuel a)) in *.
  set (a1 := if hr then with_hashes a0 [clause_hash lits] else a0) in *.
  destruct (Nat.eqb_spec (clevel s) 0) as [Z|_]; [lia|].
  assert (I1 : res_inv s a1 []).
  { unfold a1. destruct hr; constructor; cbn; try (intros ? []; fail); try constructor; auto;
      try (rewrite Fl; discriminate); try (intros [[]|[]]). }
  assert (H1 : a_clause a1 = [] /\ a_involved a1 = [] /\ a_fuel a1 = a_fuel a /\ a_unordered a1 = []) by (unfold a1; destruct hr; auto).
  assert (H1h : hr = true -> a_hashes a1 = [clause_hash lits]) by (unfold a1; intros ->; reflexivity).
  destruct H1 as (H1a & H1b & H1c & H1d). clearbody a1.
  assert (Hf : forall x, In x lits -> falselit s x).
  { intros x Hx. split; [exact (Cf x Hx)|]. eapply on_trail_true; [exact K|exact (Cf x Hx)|]. unfold on_trail. rewrite lnot_var.
    unfold lits in Hx. destruct c as [p q|cr]; cbn [conflict_lits] in Hx.
    - destruct (so_bin _ _ _ _ S _ _ Cs) as (_ & _ & _ & Cs').
      destruct Hx as [<-|[<-|[]]].
      + apply (so_on_bin _ _ _ _ S _ _ Cs). apply isfalse_assigned. apply (Cf p). left. reflexivity.
      + rewrite lnot_invol in Cs'. apply (so_on_bin _ _ _ _ S _ _ Cs'). apply isfalse_assigned. apply (Cf q). right. left. reflexivity.
    - apply (so_on_long _ _ _ _ S cr x Cs Hx). apply isfalse_assigned. apply (Cf x Hx). }
  destruct (add_literals s (vs, a1) lits) as [vs2 a2] eqn:E2.
  destruct (add_literals_spec n s (rev (s_trail s)) K Lv lits vs a1 [] vs2 a2 I1) as (C2 & I2 & Ct2 & _ & _ & Pl & P1 & P2 & P3 & P4).
  { intros ? []. }
  { intros x Hx. split; [exact (Hf x Hx)|]. split; [apply in_rev; rewrite rev_involutive; apply (Hf x Hx)|].
    rewrite <- lnot_var. eapply trail_level; [exact K|]. apply (Hf x Hx). }
  { exact E2. }
  set (a3 := match c with CLong cref => with_involved a2 [cref] | _ => a2 end) in *.
  assert (I3 : res_inv s a3 C2) by (unfold a3; destruct c; [exact I2|constructor; apply I2]).
  assert (H3 : a_clause a3 = a_clause a2 /\ a_fuel a3 = a_fuel a2 /\ a_unordered a3 = a_unordered a2 /\ a_hashes a3 = a_hashes a2) by (unfold a3; destruct c; auto).
  destruct H3 as (H3a & H3b & H3c & H3d).
  assert (Hi3 : hint_inv hr s lits a3 C2 [] []).
  { constructor.
    - intros Eh. rewrite H3d, P4. exact (H1h Eh).
    - constructor.
    - intros ? [].
    - intros x [Hx|(y & [] & _)]. rewrite H3a. destruct (Pl x Hx) as [Q|[Q|Q]]; auto. }
  assert (Iv3 : forall d, In d (a_involved a3) -> In d L).
  { unfold a3. destruct c as [p q|cr]; [rewrite P1, H1b; intros ? []|]. cbn. intros d [<-|[]]. exact Cs. }
  assert (NeC : C2 <> []).
  { destruct (Pl x0 Ix0) as [Q|[Q|Q]]; [lia| |intros ->; destruct Q].
    destruct (ri_clause _ _ _ I2 x0 Q) as [_ Q']. lia. }
  assert (R3 : resolvent L bin s (a_clause a3) C2).
  { rewrite H3a. eapply add_resolvent with (lits := lits) (C := []) (cl := []); eauto.
    - intros ? [].
    - intros ? [].
    - intros asg [[SL SB] _]. right. unfold lits. destruct c as [p q|cr]; cbn [conflict_lits]; [|exact (SL cr Cs)].
      pose proof (SB _ _ Cs) as Q. rewrite lnot_invol in Q. eapply ch_incl; [|exact Q]. cbn. tauto. }
  destruct (resolve_loop hr s (vs2, a3) (rev (s_trail s))) as [vs4 a4] eqn:E4.
  destruct (resolve_loop_spec n L bin hr s K S Lv lits (rev (s_trail s)) [] vs2 a3 C2 [] vs4 a4) as (Rs & Iv4 & Fu4 & Un4 & Rr & Hi4); auto.
  { rewrite rev_involutive, app_nil_r. reflexivity. }
  destruct (rs_uip _ _ _ _ Rs) as (u & rest & Eu & Fu & Lu & Hr & NDr & Hfl & Hcl & NDc & Imp).
  (* minimisation *)
  assert (I4 : min_inv s a4).
  { constructor; [|exact NDc|].
    - intros v. rewrite Hfl, Hcl. reflexivity.
    - intros v. rewrite Hcl. intros Hv. apply in_map_iff in Hv. destruct Hv as (y & <- & Iy).
      unfold trail_var. rewrite <- lnot_var. apply in_map. apply (Hr y Iy). }
  unfold minimize_clause in E. rewrite Eu in E.
  destruct (minimize_loop (Datatypes.S (N.to_nat n)) hr s _ a4 rest) as [a5 r5] eqn:E5.
  apply (minimize_loop_spec n hr s _ K rest [] []) in E5; auto.
  2:{ intros x Hx. split; [apply (Hr x Hx)|]. split; [apply Hfl; apply in_map; exact Hx|]. apply (Hr x Hx). }
  2:{ intros v Hv. left. apply Hcl. exact Hv. }
  2:{ intros ? []. }
  2:{ intros _. rewrite Un4, H3c, P3. exact H1d. }
  destruct E5 as (I5 & Mono & (M5 & V5 & R5 & Hh5 & JM) & Inc & ND5 & Iv5 & Fu5). cbn [app] in JM.
  assert (J5 : forall v, In v (a_clean a5) -> In v (map lit_var r5) \/ justified s (a_flags a5) v).
  { intros v Hv. destruct (JM v Hv) as [Q|Q]; [auto|right]. apply in_map_iff in Q. destruct Q as (m & <- & Hm). apply (V5 m Hm). }
  assert (Hint : hr = true -> exists V, hinted s lits (u :: r5) (rev (a_hashes a5 ++ map snd (dedup_depth (sort_depth (a_unordered a5))))) V).
  { intros Eh. destruct (sorted_hints n s M5 K) as (M' & Es & Hm & Om); [intros m Hm; apply (V5 m Hm)|].
    exists (rev M' ++ rev Rr).
    assert (Cls : forall x, falselit s x -> a_flags a5 (lit_var x) = true -> In x (u :: r5) \/ In (lnot x) M5).
    { intros x Fx Hfx. apply (mi_flags _ _ I5) in Hfx. destruct (JM _ Hfx) as [Q|Q]; apply in_map_iff in Q; destruct Q as (y & Ey & Iy).
      - left. right. assert (lnot y = lnot x); [|rewrite <- (lnot_invol x), <- H, lnot_invol; exact Iy].
        eapply same_true; [apply (Hr y (Inc y Iy))|exact (proj1 Fx)|rewrite !lnot_var; exact Ey].
      - right. assert (y = lnot x); [|subst y; exact Iy]. eapply same_true; [apply (tk_true _ _ K); apply (V5 y Iy)|exact (proj1 Fx)|rewrite lnot_var; exact Ey]. }
    constructor.
    - rewrite (R5 Eh), Es, Hh5, (hi_hashes _ _ _ _ _ _ _ Hi4 Eh), map_map. cbn [ent snd]. rewrite rev_app_distr. cbn [rev]. rewrite map_app, !map_rev, <- app_assoc. reflexivity.
    - apply ordered_app; [exact Om|apply Hi4|]. intros x y Hx Hy. apply in_rev in Hx. apply in_rev in Hy. apply Hm in Hx.
      destruct (V5 x Hx) as (Tx & Lx & _). destruct (hi_in _ _ _ _ _ _ _ Hi4 y Hy) as (_ & Ty & Ly & _).
      destruct (In_nth_error _ _ Tx) as (i & Hi). destruct (In_nth_error _ _ Ty) as (j & Hj). exists i, j. split; [|auto].
      rewrite (tk_level _ _ K i x Hi) in Lx. rewrite (tk_level _ _ K j y Hj) in Ly. pose proof (lvl_mono (s_decs s) j i). lia.
    - intros v Hv. apply in_app_or in Hv. destruct Hv as [Hv|Hv]; apply in_rev in Hv.
      + apply Hm in Hv. destruct (V5 v Hv) as (A & _ & B & _). auto.
      + destruct (hi_in _ _ _ _ _ _ _ Hi4 v Hv) as (_ & A & _ & B). auto.
    - intros x Hx. rewrite in_app_iff, <- !in_rev, <- (Hm (lnot x)).
      assert (Old : In x lits \/ (exists r, In r Rr /\ In x (reason_lits s (s_reason s (lit_var r)))) -> s_level s (lit_var x) = 0 \/ In x (u :: r5) \/ In (lnot x) M5 \/ In (lnot x) Rr).
      { intros Q. destruct (hi_closed _ _ _ _ _ _ _ Hi4 x Q) as [A|[A|[[]|A]]]; auto. rewrite Eu in A. destruct A as [<-|A]; [right; left; left; reflexivity|].
        destruct (Cls x) as [B|B]; auto; [apply (Hr x A)|]. apply Mono, Hfl, in_map. exact A. }
      destruct Hx as [Hx|(v & Hv & Hx)]; [apply Old; auto|]. apply in_app_or in Hv. destruct Hv as [Hv|Hv]; apply in_rev in Hv; [|apply Old; right; eauto].
      apply Hm in Hv. destruct (V5 v Hv) as (A & _ & _ & B). destruct (B x Hx) as [C|C]; [auto|]. destruct (In_nth_error _ _ A) as (p & Hp).
      destruct (Cls x (proj1 (reason_falselit _ _ _ _ _ K Hp Hx)) C) as [D|D]; auto. }
  set (a6 := with_clause a5 (u :: r5)) in *.
  set (a7 := if hr then _ else a6) in E.
  assert (H7 : a_clause a7 = u :: r5 /\ a_flags a7 = a_flags a5 /\ a_clean a7 = a_clean a5 /\ a_fuel a7 = a_fuel a5 /\ a_involved a7 = a_involved a5).
  { unfold a7, a6. destruct hr; repeat split; reflexivity. }
  assert (H7h : hr = true -> a_hashes a7 = rev (a_hashes a5 ++ map snd (dedup_depth (sort_depth (a_unordered a5))))).
  { unfold a7, a6. intros ->. reflexivity. }
  destruct H7 as (H7a & H7b & H7c & H7d & H7e). clearbody a7.
  set (a8 := with_clean _ _) in E.
  assert (H8 : forall v, a_flags a8 v = false).
  { intros v. cbn [a8 with_clean with_flags a_flags]. rewrite clear_flags, H7b, H7c.
    destruct (existsb (N.eqb v) (a_clean a5)) eqn:Ex; [reflexivity|].
    destruct (a_flags a5 v) eqn:Ef; [|reflexivity]. apply (mi_flags _ _ I5), memb_in in Ef. congruence. }
  change (a_clause a8) with (a_clause a7) in E. rewrite H7a in E.
  assert (Nu : ~ In (lit_var u) (map lit_var r5)).
  { intros H. apply in_map_iff in H. destruct H as (y & Ey & Iy). destruct (Hr y (Inc y Iy)) as [_ Q]. rewrite Ey in Q. lia. }
  assert (Imp5 : forall asg, meets L bin s asg -> clause_holds asg (u :: r5) = true).
  { intros asg M. destruct (clause_holds asg (u :: r5)) eqn:Ec; [reflexivity|exfalso].
    specialize (Imp asg M). apply ch_in in Imp. destruct Imp as (y & Hy & Hh).
    destruct Hy as [<-|Hy].
    - assert (clause_holds asg (u :: r5) = true) by (apply ch_in; exists u; split; [left; reflexivity|exact Hh]). congruence.
    - destruct (Hr y Hy) as [[Fy Ty] _]. destruct (In_nth_error _ _ Ty) as (p & Hp).
      assert (Hn : lit_holds asg (lnot y) = true).
      { eapply justified_holds with (f := a_flags a5) (u := u) (r := r5) (p := p); eauto.
        - intros z Hz. apply (Hr z (Inc z Hz)).
        - intros v Hv. apply J5. apply (mi_flags _ _ I5). exact Hv.
        - rewrite lnot_var. apply Mono. apply Hfl. apply in_map. exact Hy. }
      rewrite lit_holds_lnot, Hh in Hn. discriminate. }
  assert (Fin : forall cl b, (cl, b) = (match u :: r5 with
       | l0 :: l1 :: rest0 => let '(x, b, r) := pick_level s l1 (s_level s (lit_var l1)) rest0 in (l0 :: x :: r, b)
       | c => (c, 0) end) -> learned L bin s cl b).
  { intros cl b Ecl. destruct r5 as [|l1 rest5].
    - injection Ecl as -> ->. constructor.
      + exists u, []. split; [reflexivity|]. split; [exact Fu|]. split; [exact Lu|]. split; [intros ? []|reflexivity].
      + exact Lv.
      + constructor; [intros []|constructor].
      + exact Imp5.
    - destruct (pick_level s l1 (s_level s (lit_var l1)) rest5) as [[x b1] r1] eqn:Ep. injection Ecl as -> ->.
      destruct (pick_level_spec s rest5 l1 _ x b1 r1 eq_refl Ep) as (A & B & C).
      assert (Ix : forall y, In y (x :: r1) -> In y (l1 :: rest5)) by (intros y Hy; eapply Permutation_in; [symmetry; exact B|exact Hy]).
      constructor.
      + exists u, (x :: r1). split; [reflexivity|]. split; [exact Fu|]. split; [exact Lu|]. split.
        * intros y Hy. apply Ix in Hy. destruct (Hr y (Inc y Hy)) as [P Q]. split; [exact P|]. split; [lia|]. apply C. exact Hy.
        * symmetry. exact A.
      + rewrite A. apply (Hr x). apply Inc. apply Ix. left. reflexivity.
      + cbn [map]. constructor.
        * intros H. apply Nu. eapply Permutation_in; [|exact H]. symmetry. exact (Permutation_map lit_var B).
        * eapply Permutation_NoDup; [exact (Permutation_map lit_var B)|]. apply ND5. exact NDr.
      + intros asg M. specialize (Imp5 asg M). eapply ch_incl; [|exact Imp5]. intros y [<-|Hy]; [left; reflexivity|right].
        eapply Permutation_in; [exact B|exact Hy]. }
  destruct (match u :: r5 with
       | l0 :: l1 :: rest0 => let '(x, b, r) := pick_level s l1 (s_level s (lit_var l1)) rest0 in (l0 :: x :: r, b)
       | c => (c, 0) end) as [cl b] eqn:Ecl.
  specialize (Fin cl b eq_refl).
  assert (Icl : forall x, In x (u :: r5) -> In x cl).
  { destruct r5 as [|l1 rest5]; [injection Ecl as <- <-; auto|].
    destruct (pick_level s l1 (s_level s (lit_var l1)) rest5) as [[x b1] r1] eqn:Ep. injection Ecl as <- <-.
    destruct (pick_level_spec s rest5 l1 _ x b1 r1 eq_refl Ep) as (_ & B & _). intros y [<-|Hy]; [left; reflexivity|right]. eapply Permutation_in; [exact B|exact Hy]. }
  assert (E' : (vsids_decay vs4, with_clause a8 cl, b) = (vs', a', bt)).
  { rewrite <- E. destruct r5 as [|l1 rest5].
    - injection Ecl as <- <-. reflexivity.
    - destruct (pick_level s l1 (s_level s (lit_var l1)) rest5) as [[x b1] r1]. injection Ecl as <- <-. reflexivity. }
  injection E' as _ <- <-. cbn [with_clause a_clause a_flags a_clean a_fuel a_involved].
  split.
  2:{ intros Eh. destruct (Hint Eh) as (V & HV). exists V. cbn [a_hashes with_clause a8 with_clean with_flags]. rewrite (H7h Eh). constructor; [apply HV..|].
      intros x Hx. destruct (ht_closed _ _ _ _ _ HV x Hx) as [Q|[Q|Q]]; auto. }
  split; [exact Fin|]. split; [exact H8|]. split; [reflexivity|]. split.
  - cbn [a8 with_clean with_flags a_fuel]. congruence.
  - intros d. cbn [a8 with_clean with_flags a_involved]. rewrite H7e. cbn. rewrite Iv5. apply Iv4.
Qed.

Lemma analyze_conflict_spec n L bin hr s vs a c vs' a' bt :
  trail_ok n s -> store_ok n L bin s -> 0 < clevel s -> conflict_at L bin s c ->
  (forall v, a_flags a v = false) -> a_clean a = [] ->
  analyze_conflict n hr s vs a c = (vs', a', bt) ->
  learned L bin s (a_clause a') bt /\ (forall v, a_flags a' v = false) /\ a_clean a' = [] /\
  a_fuel a' = a_fuel a /\ (forall d, In d (a_involved a') -> In d L).
Proof. intros. eapply analyze_conflict_full; eassumption. Qed.
