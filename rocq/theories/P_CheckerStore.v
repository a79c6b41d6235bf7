(** Property C14: the clause store is a multiset of clauses. *)
From Coq Require Import ZArith Permutation Sorted.
From Verif Require Import Spec Lit LitProofs Vec SortedLits SortedLitsProofs Hash Vli BinFormat Checker CheckerStore CheckerInv CheckerOps CheckerRup CheckerSteps CheckerRun CheckerCount P_Checker.

(** A stored clause with at least two literals, its identifier and its numbers of
    irredundant and redundant copies. *)
Definition stored_copies (c : ctx) (id : N) (lits : list N) (irr red : N) : Prop := In (AC id irr red lits) (aclauses (c_clauses c)).

Lemma sum_zero l : (forall x, In x l -> x = 0) -> sumN l = 0.
Proof. induction l as [|x l IH]; intros H; [reflexivity|]. cbn [sumN fold_right]. fold (sumN l). rewrite IH; [|intros; apply H; right; assumption]. rewrite (H x); [reflexivity|left; reflexivity]. Qed.

Lemma copies_unique A x red : NoDup (map a_lits A) -> In x A -> copies_in A (a_lits x) red = acopies red x.
Proof.
  induction A as [|y A IH]; intros ND H; [destruct H|]. cbn [map] in ND. inversion ND as [|? ? NI ND']; subst. rewrite copies_cons.
  destruct H as [->|H].
  - rewrite lits_eqb_refl. unfold copies_in. rewrite sum_zero; [lia|]. intros z Hz. apply in_map_iff in Hz as (w&<-&Hw).
    destruct (lits_eqb (a_lits w) (a_lits x)) eqn:E; [|reflexivity]. apply lits_eqb_iff in E. exfalso. apply NI. rewrite <- E. apply in_map. exact Hw.
  - destruct (lits_eqb (a_lits y) (a_lits x)) eqn:E; [|rewrite IH by assumption; lia].
    apply lits_eqb_iff in E. exfalso. apply NI. rewrite E. apply in_map. exact H.
Qed.
Lemma copies_absent A lits red : (forall x, In x A -> a_lits x <> lits) -> copies_in A lits red = 0.
Proof.
  intros H. apply sum_zero. intros z Hz. apply in_map_iff in Hz as (w&<-&Hw).
  destruct (lits_eqb (a_lits w) lits) eqn:E; [|reflexivity]. apply lits_eqb_iff in E. exfalso. apply (H w Hw E).
Qed.

Lemma nodup_app_l {A} (a b : list A) : NoDup (a ++ b) -> NoDup a.
Proof. induction a as [|x a IH]; intros H; [constructor|]. inversion H; subst. constructor; [|auto]. intros X. apply H2. apply in_or_app. left. exact X. Qed.
Lemma nodup_app_r {A} (a b : list A) : NoDup (a ++ b) -> NoDup b.
Proof. induction a as [|x a IH]; intros H; [exact H|]. inversion H; subst. auto. Qed.

(** [lits] is sorted, has two literals or more and no complementary ones *)
Definition long_clause (lits : list N) : Prop :=
  StronglySorted N.lt lits /\ (2 <= length lits)%nat /\ forall l, In l lits -> ~ In (opp l) lits.
Lemma long_strict lits : long_clause lits <-> strict lits.
Proof.
  unfold long_clause, strict, ssorted. assert (E : forall l, opp l = lnot l) by (intros l; rewrite lnot_val2; reflexivity).
  split; intros (A&B&C); (split; [exact A|]; split; [exact B|]); intros l Hl; [rewrite <- E|rewrite E]; auto.
Qed.

(** While the formula has not been refuted, the store holds exactly the clauses
    added or derived and not deleted, with the right multiplicities.  Every
    deletion was of a clause that was there, so no count is negative. *)
Theorem C14_store_is_multiset : forall es c lits, reaches es c -> ~ reports_unsat c -> long_clause lits ->
  (0 <= copy_count lits false es)%Z /\ (0 <= copy_count lits true es)%Z /\
  (forall id irr red, stored_copies c id lits irr red ->
     Z.of_N irr = copy_count lits false es /\ Z.of_N red = copy_count lits true es /\ (irr <> 0 \/ red <> 0)) /\
  ((copy_count lits false es > 0 \/ copy_count lits true es > 0)%Z -> exists id irr red, stored_copies c id lits irr red).
Proof.
  intros es c lits R NU L. apply long_strict in L. pose proof (reaches_inv _ _ R) as I.
  assert (US : s_unsat (c_state c) = false).
  { destruct (s_unsat (c_state c)) eqn:E; [|reflexivity]. exfalso. apply NU. right. right. right. exact E. }
  assert (CNT : forall red, Z.of_N (copies_in (aclauses (c_clauses c)) lits red) = copy_count lits red es).
  { intros red. destruct R as (p&t&pf&tf&sh&S&F&R). destruct (count_run lits red L es _ _ _ (new_inv p t pf tf sh S) F R US) as [_ X].
    rewrite X. reflexivity. }
  split; [rewrite <- CNT; apply N2Z.is_nonneg|]. split; [rewrite <- CNT; apply N2Z.is_nonneg|]. split.
  - intros id irr red H. pose proof (copies_unique _ _ false (wf_lits _ _ _ (inv_wf _ I)) H) as A.
    pose proof (copies_unique _ _ true (wf_lits _ _ _ (inv_wf _ I)) H) as B. cbn [a_lits acopies a_irr a_red] in A, B.
    rewrite <- !CNT, A, B. split; [reflexivity|]. split; [reflexivity|]. apply (gc_refs _ _ _ (wf_clause _ _ _ (inv_wf _ I) _ H)).
  - rewrite <- !CNT. intros H. destruct (in_dec (list_eq_dec N.eq_dec) lits (map a_lits (aclauses (c_clauses c)))) as [X|X].
    + apply in_map_iff in X as ([i ir rd ls]&E&X). cbn in E. subst ls. exists i, ir, rd. exact X.
    + exfalso. rewrite !copies_absent in H by (intros x Hx E; apply X; rewrite <- E; apply in_map; exact Hx). cbn in H. lia.
Qed.
Print Assumptions C14_store_is_multiset.

(** The same for unit clauses, which are never deleted except with their variable. *)
Theorem C14_units_kept : forall es c l, reaches es c -> ~ reports_unsat c ->
  (exists id, stored (c_clauses c) id [l]) <-> In l (known_units es).
Proof.
  intros es c l R NU. pose proof (reaches_inv _ _ R) as I.
  assert (US : s_unsat (c_state c) = false).
  { destruct (s_unsat (c_state c)) eqn:E; [|reflexivity]. exfalso. apply NU. right. right. right. exact E. }
  destruct R as (p&t&pf&tf&sh&S&F&R). rewrite <- (units_run _ (new_inv p t pf tf sh S)) with (c := c) (u := tt); auto.
  2:{ intros x (u&H&_). unfold unit_of in H. cbn in H. rewrite vget_nil in H. discriminate. }
  assert (DEC : l = 2 * lit_var l + (if is_positive l then 0 else 1)).
  { change (lit_var l) with (N.div2 l). rewrite is_pos_neg, is_negative_odd. pose proof (N.div2_odd l). destruct (N.odd l); cbn [negb N.b2n] in *; lia. }
  split.
  - intros (id&[(x&X1&X2&X3)|(v&b&X1&X2)]).
    + pose proof (gc_len _ _ _ (wf_clause _ _ _ (inv_wf _ I) x X1)) as LL. rewrite X3 in LL. cbn in LL. lia.
    + assert (E : l = 2 * v + (if b then 0 else 1)) by congruence. assert (EV : lit_var l = v /\ is_positive l = b).
      { rewrite E. change (lit_var (2 * v + (if b then 0 else 1))) with (N.div2 (2 * v + if b then 0 else 1)). rewrite is_pos_neg, is_negative_odd.
        rewrite N.div2_div. split.
        - symmetry. apply (N.div_unique _ 2 v (if b then 0 else 1)); destruct b; lia.
        - destruct b; [rewrite N.add_0_r, N.odd_mul; reflexivity|rewrite N.odd_add, N.odd_mul; reflexivity]. }
      destruct EV as [<- <-]. eexists. split; [exact X1|reflexivity].
  - intros (u&H1&H2). destruct (wf_units _ _ _ (inv_wf _ I) _ _ H1) as (_&id&E&_). destruct u as [i b]. cbn [uc_id uc_value] in *. subst. exists id. right.
    exists (lit_var l), (is_positive l). split; [exact H1|]. f_equal. exact DEC.
Qed.
Print Assumptions C14_units_kept.

(** No two stored clauses share an identifier or a literal set. *)
Theorem C14_identifiers_unique : forall es c i1 i2 l1 l2, reaches es c -> stored (c_clauses c) i1 l1 -> stored (c_clauses c) i2 l2 ->
  (i1 = i2 <-> l1 = l2).
Proof.
  intros es c i1 i2 l1 l2 R S1 S2. pose proof (inv_wf _ (reaches_inv _ _ R)) as W.
  pose proof (wf_ids _ _ _ W) as ND. pose proof (wf_lits _ _ _ W) as NL.
  assert (LEN : forall x, In x (aclauses (c_clauses c)) -> (2 <= length (a_lits x))%nat) by (intros x Hx; apply (gc_len _ _ _ (wf_clause _ _ _ W x Hx))).
  assert (VAR : forall v1 v2 b1 b2, 2 * v1 + (if b1 : bool then 0 else 1) = 2 * v2 + (if b2 : bool then 0 else 1) -> v1 = v2 /\ b1 = b2).
  { intros v1 v2 b1 b2 E. destruct b1, b2; split; try lia; reflexivity. }
  destruct S1 as [(x&X1&X2&X3)|(v&b&X1&X2)], S2 as [(y&Y1&Y2&Y3)|(w&d&Y1&Y2)]; subst.
  - split; intros E.
    + f_equal. apply (nodup_map_inj a_id (aclauses (c_clauses c))); auto. apply nodup_app_l in ND. exact ND.
    + f_equal. apply (nodup_map_inj a_lits (aclauses (c_clauses c))); auto.
  - split; intros E; exfalso.
    + apply (in_map a_id) in X1. rewrite E in X1. assert (In i2 (unit_ids (unit_clauses (c_clauses c)))) by (apply unit_of_ids; eauto).
      clear - ND X1 H. induction (map a_id (aclauses (c_clauses c))) as [|z l IH]; [destruct X1|]. cbn in ND. inversion ND; subst.
      destruct X1 as [->|X1]; [apply H2; apply in_or_app; right; exact H|auto].
    + specialize (LEN x X1). rewrite E in LEN. cbn in LEN. lia.
  - split; intros E; exfalso.
    + apply (in_map a_id) in Y1. rewrite <- E in Y1. assert (In i1 (unit_ids (unit_clauses (c_clauses c)))) by (apply unit_of_ids; eauto).
      clear - ND Y1 H. induction (map a_id (aclauses (c_clauses c))) as [|z l IH]; [destruct Y1|]. cbn in ND. inversion ND; subst.
      destruct Y1 as [->|Y1]; [apply H2; apply in_or_app; right; exact H|auto].
    + specialize (LEN y Y1). rewrite <- E in LEN. cbn in LEN. lia.
  - split; intros E.
    + assert (VW : v = w).
      { apply nodup_app_r in ND. subst i2. unfold unit_of in X1, Y1.
        destruct (vget (unit_clauses (c_clauses c)) v) as [[u1|]|] eqn:E1; try discriminate.
        destruct (vget (unit_clauses (c_clauses c)) w) as [[u2|]|] eqn:E2; try discriminate. inversion X1; inversion Y1; subst. clear X1 Y1.
        unfold vget in *. apply N2Nat.inj. revert E1 E2 ND. generalize (N.to_nat v) (N.to_nat w). generalize (unit_clauses (c_clauses c)). clear.
        induction l as [|o l IH]; intros n m H1 H2 ND; [destruct n; discriminate|].
        assert (IN : forall k z, nth_error l k = Some (Some (UC (Global i1) z)) -> In i1 (unit_ids l)).
        { intros k z Hk. apply in_flat_map. exists (Some (UC (Global i1) z)). split; [eapply nth_error_In; exact Hk|left; reflexivity]. }
        cbn [unit_ids flat_map] in ND. destruct n as [|n], m as [|m]; cbn [nth_error] in *; [reflexivity| | |].
        - inversion H1; subst. cbn in ND. inversion ND; subst. exfalso. eauto.
        - inversion H2; subst. cbn in ND. inversion ND; subst. exfalso. eauto.
        - f_equal. apply (IH n m H1 H2). destruct o as [[[] ?]|]; cbn in ND; try exact ND. inversion ND; assumption. }
      subst w. rewrite X1 in Y1. inversion Y1; subst. reflexivity.
    + assert (E1 : 2 * v + (if b then 0 else 1) = 2 * w + (if d then 0 else 1)) by congruence. apply VAR in E1 as [-> ->]. rewrite X1 in Y1. inversion Y1. reflexivity.
Qed.
Print Assumptions C14_identifiers_unique.

(** The identifiers introduced by the steps given to the processors strictly
    increase, so none is ever re-used; stored clauses use introduced identifiers only. *)
Theorem C14_identifiers_increase : forall es c, reaches es c ->
  StronglySorted N.lt (flat_map new_id (proc_log (c_proc c))).
Proof.
  intros es c (p&t&pf&tf&sh&S&F&R).
  assert (O : ids_ok c) by (eapply ids_run; [apply (new_inv p t pf tf sh S)|exact F|exact R|split; constructor]). apply O.
Qed.
Print Assumptions C14_identifiers_increase.
Theorem C14_identifiers_increase_delayed : forall es c c', reaches es c -> self_check_delayed_steps c = ROk tt c' ->
  StronglySorted N.lt (flat_map new_id (proc_log (c_proc c'))).
Proof.
  intros es c c' (p&t&pf&tf&sh&S&F&R) H.
  assert (O : ids_ok c) by (eapply ids_run; [apply (new_inv p t pf tf sh S)|exact F|exact R|split; constructor]).
  unfold self_check_delayed_steps, process_unit_conflicts in H. destruct (unit_conflict _) as [[a b]|]; [|inversion H; subst; apply O].
  destruct (process_step_spec _ _ _ _ H) as [_ [EM _ _ _]]. rewrite EM, flat_map_app. cbn. apply ssorted_snoc; apply O.
Qed.
Print Assumptions C14_identifiers_increase_delayed.

(** A clause of which no copy of the requested kind is there cannot be deleted. *)
Theorem C14_delete_absent_fails : forall es c clause proof c', reaches es c -> lits_u32 clause -> ~ reports_unsat c ->
  (forall lits, long_clause lits -> same_lits clause lits = true ->
     copy_count lits (match proof with DRedundant => true | _ => false end) es = 0%Z) ->
  self_check_step c (DeleteClause clause proof) <> ROk tt c'.
Proof.
  intros es c clause proof c' R U NU Z H. pose proof (reaches_inv _ _ R) as I.
  destruct (exec_spec c (Step (DeleteClause clause proof)) c' tt I U H) as [I' T]. cbn [tr step_eff] in T.
  destruct T as [id r T DE _ _ _ _ _]. fold (is_red proof) in Z. change (c_clauses (next_step c)) with (c_clauses c) in DE.
  assert (EX : exists a, In a (aclauses (c_clauses c)) /\ a_lits a = canon clause /\ acopies (is_red proof) a <> 0).
  { inversion DE; subst; exists a; (split; [match goal with P : Permutation _ (_ :: _) |- _ => apply (perm_in _ _ _ (Permutation_sym P)) end; left; reflexivity|]); (split; [assumption|]); lia. }
  destruct EX as (a&A1&A2&A3). pose proof (wf_clause _ _ _ (inv_wf _ I) a A1) as GC.
  assert (L : long_clause (canon clause)).
  { apply long_strict. rewrite <- A2. destruct (gc_lits _ _ _ GC) as (G1&G2&_). split; [exact G1|]. split; [apply (gc_len _ _ _ GC)|exact G2]. }
  assert (E : same_lits clause (canon clause) = true) by (apply same_lits_iff; intros x; symmetry; apply canonical_in).
  specialize (Z _ L E). destruct (C14_store_is_multiset es c _ R NU L) as (_&_&X&_). destruct a as [i ir rd ls]. cbn in A2. subst ls.
  destruct (X _ _ _ A1) as (X1&X2&_). destruct (is_red proof); cbn in A3; lia.
Qed.
Print Assumptions C14_delete_absent_fails.

(** Compaction keeps every stored clause with its identifier and counts. *)
Theorem C14_compaction_keeps_content : forall es c cl', reaches es c -> collect_garbage (c_clauses c) = Some cl' ->
  forall id lits irr red, stored_copies (with_clauses c cl') id lits irr red <-> stored_copies c id lits irr red.
Proof.
  intros es c cl' R H id lits irr red. destruct (collect_garbage_spec _ _ _ _ (inv_wf _ (reaches_inv _ _ R)) H) as (_&A&_).
  unfold stored_copies. cbn [with_clauses c_clauses]. rewrite A. reflexivity.
Qed.
Print Assumptions C14_compaction_keeps_content.

(** Examples: duplicates, a redundant copy, a tautology, units, a deletion. *)
Definition C14_run : list event :=
  [Load [4;0;2;2]; Load [2;0;4]; Load [0;1]; Step (AtClause true [2;4;0] (hs [[0;2;4]])); Load [6;6]; Load [0;2;6;9];
   Step (DeleteClause [0;2;4] DRedundant)].
Example C14_ex : exists c, reaches C14_run c /\ ~ reports_unsat c /\ long_clause [0;2;4] /\
  stored_copies c 0 [0;2;4] 2 0 /\ copy_count [0;2;4] false C14_run = 2%Z /\ known_units C14_run = [6] /\
  flat_map new_id (proc_log (c_proc c)) = [0;1;2;3;4].
Proof.
  assert (X : exists c, run chk0 C14_run = ROk tt c) by (vm_compute; eexists; reflexivity). destruct X as [c X].
  exists c. assert (R : reaches C14_run c) by reach c X. split; [exact R|].
  assert (F : s_unsat (c_state c) = false /\ stored_copies c 0 [0;2;4] 2 0 /\ flat_map new_id (proc_log (c_proc c)) = [0;1;2;3;4]).
  { vm_compute in X. inversion X. split; [reflexivity|]. split; [vm_compute; tauto|reflexivity]. }
  destruct F as (F1&F2&F3). split; [intros N; rewrite (reaches_flag _ _ R N) in F1; discriminate|].
  split. { split; [repeat constructor|]. split; [cbn; lia|]. intros l [<-|[<-|[<-|[]]]] [E|[E|[E|[]]]]; discriminate. }
  split; [exact F2|]. split; [reflexivity|]. split; [reflexivity|exact F3].
Qed.
(** compaction does happen: the first clause is long enough to be stored in the buffer *)
Example C14_compaction_ex :
  match run chk0 [Load [0;2;4;6;8;10]; Step (AtClause false [0;2;4;6;8;10] (hs [[0;2;4;6;8;10]])); Load [0;2;4;6;8];
                  Step (AtClause false [0;2;4;6;8] (hs [[0;2;4;6;8]])); Step (DeleteClause [0;2;4;6;8;10] DSimplified);
                  Step (AtClause false [0;2;4;6;8] (hs [[0;2;4;6;8]])); Step (DeleteClause [0;2;4;6;8;10] DSimplified)] with
  | ROk _ c => literal_buffer (c_clauses c) = [0;2;4;6;8] /\ garbage_size (c_clauses c) = 0 /\ stored_copies c 1 [0;2;4;6;8] 3 0
  | _ => False
  end.
Proof. vm_compute. tauto. Qed.
