From Coq Require Import Arith ZArith ZifyBool ZifyNat ZifyN Sorted Permutation.
From Verif Require Import Spec Lit LitProofs SortedLits.

Definition ssorted (l : list N) : Prop := StronglySorted N.lt l.

Lemma ssorted_cons x l : ssorted (x :: l) <-> ssorted l /\ Forall (N.lt x) l.
Proof. split; [intros H; inversion H; auto|intros [A B]; constructor; auto]. Qed.

Lemma ssorted_nodup l : ssorted l -> NoDup l.
Proof.
  induction l as [|x l IH]; intros H; constructor; apply ssorted_cons in H; destruct H as [A B].
  - intros I. rewrite Forall_forall in B. specialize (B x I). lia.
  - auto.
Qed.

Lemma insert_perm x l : Permutation (x :: l) (insert_lit x l).
Proof.
  induction l as [|y l IH]; cbn [insert_lit]; [reflexivity|]. destruct (x <=? y); [reflexivity|].
  rewrite perm_swap. constructor. exact IH.
Qed.

Lemma sort_perm l : Permutation l (sort_lits l).
Proof. induction l as [|x l IH]; cbn; [constructor|]. rewrite <- insert_perm. constructor. exact IH. Qed.

Definition lsorted (l : list N) : Prop := StronglySorted N.le l.

Lemma insert_sorted x l : lsorted l -> lsorted (insert_lit x l).
Proof.
  unfold lsorted. induction l as [|y l IH]; intros H; cbn [insert_lit]; [repeat constructor|].
  inversion H; subst. destruct (N.leb_spec x y).
  - constructor; [exact H|]. constructor; [assumption|]. eapply Forall_impl; [|eassumption]. cbn. intros; lia.
  - constructor; [auto|]. apply (Permutation_Forall (insert_perm x l)). constructor; [lia|assumption].
Qed.

Lemma sort_sorted l : lsorted (sort_lits l).
Proof. induction l; cbn; [constructor|]. apply insert_sorted. assumption. Qed.

Lemma dedup_from_in l : forall x y, In y (dedup_from x l) <-> y = x \/ In y l.
Proof.
  induction l as [|z l IH]; intros x y; cbn [dedup_from]; [cbn; intuition|].
  destruct (N.eqb_spec x z) as [->|E]; cbn [In]; rewrite IH; intuition.
Qed.

Lemma dedup_in l y : In y (dedup l) <-> In y l.
Proof. destruct l as [|x l]; cbn [dedup]; [reflexivity|]. rewrite dedup_from_in. cbn. intuition. Qed.

Lemma dedup_from_sorted l : forall x, lsorted (x :: l) -> ssorted (dedup_from x l).
Proof.
  induction l as [|z l IH]; intros x H; cbn [dedup_from]; [repeat constructor|].
  inversion H as [|? ? H1 H2]; subst. inversion H1 as [|? ? H3 H4]; subst. inversion H2; subst.
  destruct (N.eqb_spec x z) as [->|E].
  - apply IH. exact H1.
  - apply ssorted_cons. split; [apply IH; exact H1|]. apply Forall_forall. intros y Hy. apply dedup_from_in in Hy.
    rewrite Forall_forall in H4. destruct Hy as [->|Hy]; [lia|]. specialize (H4 y Hy). lia.
Qed.

Lemma dedup_sorted l : lsorted l -> ssorted (dedup l).
Proof. destruct l; [constructor|]. apply dedup_from_sorted. Qed.

Lemma canonical_in src y : In y (fst (copy_canonical src)) <-> In y src.
Proof.
  cbn. rewrite dedup_in. split; intros H; [apply (Permutation_in _ (Permutation_sym (sort_perm src)) H)|apply (Permutation_in _ (sort_perm src) H)].
Qed.

Lemma canonical_sorted src : ssorted (fst (copy_canonical src)).
Proof. cbn. apply dedup_sorted, sort_sorted. Qed.

(** a sorted list has only one canonical form *)
Lemma ssorted_ext a : forall b, ssorted a -> ssorted b -> (forall x, In x a <-> In x b) -> a = b.
Proof.
  induction a as [|x a IH]; intros [|y b] HA HB H; auto.
  - exfalso. apply (H y). left. reflexivity.
  - exfalso. apply (H x). left. reflexivity.
  - apply ssorted_cons in HA, HB. destruct HA as [A1 A2], HB as [B1 B2]. rewrite Forall_forall in A2, B2.
    assert (x = y).
    { destruct (proj1 (H x) (or_introl eq_refl)) as [E|E]; [congruence|].
      destruct (proj2 (H y) (or_introl eq_refl)) as [E'|E']; [congruence|].
      specialize (A2 y E'). specialize (B2 x E). lia. }
    subst y. f_equal. apply IH; auto. intros z. specialize (H z). cbn in H.
    assert (forall w, In w a -> w <> x) by (intros w Hw ->; specialize (A2 x Hw); lia).
    assert (forall w, In w b -> w <> x) by (intros w Hw ->; specialize (B2 x Hw); lia).
    split; intros Hz; [destruct (proj1 H (or_intror Hz))|destruct (proj2 H (or_intror Hz))]; auto; subst; exfalso; [eapply H0|eapply H1]; eauto.
Qed.

Lemma canonical_id c : ssorted c -> fst (copy_canonical c) = c.
Proof. intros H. apply ssorted_ext; [apply canonical_sorted|exact H|]. intros x. apply canonical_in. Qed.

Lemma lnot_val2 l : lnot l = (if N.odd l then l - 1 else l + 1).
Proof. rewrite lnot_opp. reflexivity. Qed.

(** In a strictly sorted list, the two literals of a variable are adjacent. *)
Lemma taut_from_spec l : forall last, ssorted l -> (forall y, last = Some y -> Forall (N.lt y) l) ->
  taut_from last l = true <->
  (exists y, last = Some y /\ exists x, In x l /\ y = lnot x) \/ exists x, In x l /\ In (lnot x) l.
Proof.
  induction l as [|x l IH]; intros last S HL; cbn [taut_from].
  - split; [discriminate|]. intros [(y&_&x&[]&_)|(x&[]&_)].
  - apply ssorted_cons in S. destruct S as [S F].
    assert (R : taut_from (Some x) l = true <-> (exists z, In z (x :: l) /\ In (lnot z) (x :: l))).
    { rewrite (IH (Some x) S) by (intros y E; inversion E; subst; exact F). split.
      - intros [(y&E&z&Hz&Y)|(z&Hz&Hn)].
        + inversion E; subst y. exists z. cbn. split; [right; exact Hz|left; congruence].
        + exists z. cbn. auto.
      - intros (z&[Hz|Hz]&[Hn|Hn]).
        + subst z. exfalso. apply (lnot_neq x). congruence.
        + left. exists x. split; [reflexivity|]. exists (lnot x). subst z. split; [exact Hn|]. rewrite lnot_invol. reflexivity.
        + left. exists x. split; [reflexivity|]. exists z. split; [exact Hz|exact Hn].
        + right. exists z. auto. }
    destruct last as [y|].
    + specialize (HL y eq_refl). rewrite orb_true_iff, R, N.eqb_eq. split.
      * intros [E|H]; [left; exists y; split; [reflexivity|]; exists x; cbn; auto|right; exact H].
      * intros [(y'&E&z&[Hz|Hz]&Y)|H]; [inversion E; subst; left; reflexivity| |right; exact H].
        inversion E; subst y'. exfalso. inversion HL as [|? ? HY HL']; subst.
        rewrite Forall_forall in F. specialize (F z Hz). rewrite lnot_val2 in HY. clear - F HY.
        destruct (N.odd z) eqn:O; [|lia]. lia.
    + rewrite R. split; [intros H; right; exact H|]. intros [(y&E&_)|H]; [discriminate|exact H].
Qed.

Lemma canonical_taut src : snd (copy_canonical src) = true <-> exists x, In x src /\ In (lnot x) src.
Proof.
  pose proof (canonical_in src) as I. cbn [fst snd copy_canonical] in *.
  rewrite (taut_from_spec _ None (canonical_sorted src)) by discriminate.
  split.
  - intros [(y&E&_)|(x&A&B)]; [discriminate|]. exists x. rewrite <- !I. auto.
  - intros (x&A&B). right. exists x. rewrite !I. auto.
Qed.

Lemma is_subset_loop_spec sup : forall sub s, ssorted sub -> ssorted sup ->
  is_subset_loop sub s sup = true <-> (incl sub sup /\ (s = true \/ exists y, In y sup /\ ~ In y sub)).
Proof.
  induction sup as [|y sup IH]; intros sub s A B; cbn [is_subset_loop].
  - destruct sub as [|x sub].
    + split; [intros ->; split; [intros z []|auto]|]. intros [_ [H|(z&[]&_)]]. exact H.
    + split; [discriminate|]. intros [H _]. destruct (H x (or_introl eq_refl)).
  - destruct sub as [|x sub].
    + split; [|reflexivity]. intros _. split; [intros z []|]. right. exists y. cbn. auto.
    + pose proof A as A'. apply ssorted_cons in A, B. destruct A as [A1 A2], B as [B1 B2].
      rewrite Forall_forall in A2, B2.
      destruct (N.compare_spec x y) as [E|L|L].
      * subst y. rewrite IH by assumption. split.
        -- intros [I S]. split; [intros z [->|Hz]; [left; reflexivity|right; apply I; exact Hz]|].
           destruct S as [->|(z&Hz&Hn)]; [auto|]. right. exists z. split; [right; exact Hz|].
           intros [->|Hz']; [|auto]. specialize (B2 z Hz). lia.
        -- intros [I S]. split.
           ++ intros z Hz. destruct (I z (or_intror Hz)) as [->|Hz']; [|exact Hz']. specialize (A2 z Hz). lia.
           ++ destruct S as [->|(z&Hz&Hn)]; [auto|]. right. destruct Hz as [->|Hz]; [exfalso; apply Hn; left; reflexivity|].
              exists z. split; [exact Hz|]. intros Hz'. apply Hn. right. exact Hz'.
      * split; [discriminate|]. intros [I _]. destruct (I x (or_introl eq_refl)) as [->|Hx]; [lia|]. specialize (B2 x Hx). lia.
      * rewrite IH by assumption. split.
        -- intros [I _]. split; [intros z Hz; right; apply I; exact Hz|]. right. exists y. split; [left; reflexivity|].
           intros [->|Hy]; [lia|]. specialize (A2 y Hy). lia.
        -- intros [I _]. split; [|auto]. intros z Hz. destruct (I z Hz) as [->|Hz']; [|exact Hz'].
           exfalso. destruct Hz as [->|Hz]; [lia|]. specialize (A2 z Hz). lia.
Qed.

Lemma is_subset_spec sub sup strict : ssorted sub -> ssorted sup ->
  is_subset sub sup strict = true <->
  (incl sub sup /\ (strict = true -> exists y, In y sup /\ ~ In y sub)).
Proof.
  intros A B. unfold is_subset. rewrite is_subset_loop_spec by assumption.
  destruct strict; cbn; intuition congruence.
Qed.
