(** A valid history of a proof without incremental steps gives a valid DRAT proof. *)
From Coq Require Import Arith ZArith ZifyBool ZifyNat ZifyN Permutation.
From Verif Require Import Spec Lit LitProofs SortedLits SortedLitsProofs Hash Vli BinFormat Checker CheckerStore CheckerInv CheckerOps CheckerRup CheckerSteps CheckerRun CheckerCount CheckerSafe CheckerNames CheckerUsers Rup CheckerAccept CheckerValid
  Lrat LratSpec LratProofs LratReplay P_Lrat DratSpec.
Local Open Scope N_scope.

Definition zcl (c : list N) : list Z := map zlit c.
Lemma zlit_lnot l : zlit (lnot l) = (- zlit l)%Z.
Proof. rewrite <- zlit_opp. f_equal. apply lnot_opp. Qed.
Lemma zmem_iff z l : zmem z l = true <-> In z l.
Proof. unfold zmem. rewrite existsb_exists. split; [intros (x&I&E); apply Z.eqb_eq in E; congruence|]. intros I. exists z. split; [exact I|apply Z.eqb_refl]. Qed.
Lemma same_iff a b : same_clause a b = true <-> forall z, In z a <-> In z b.
Proof.
  unfold same_clause. rewrite andb_true_iff, !forallb_forall. split.
  - intros [H1 H2] z. split; intros I; apply zmem_iff; auto.
  - intros H. split; intros z I; apply zmem_iff, H, I.
Qed.
Lemma same_refl' a : same_clause a a = true.
Proof. apply same_iff. reflexivity. Qed.
Lemma same_trans' a b c : same_clause a b = true -> same_clause b c = same_clause a c.
Proof. intros H. apply eq_true_iff_eq. rewrite !same_iff in *. split; intros K z; [rewrite H; apply K|rewrite <- H; apply K]. Qed.
Lemma same_sym' a b : same_clause a b = same_clause b a.
Proof. apply eq_true_iff_eq. rewrite !same_iff. split; intros H z; symmetry; apply H. Qed.
Lemma same_canon c : same_clause (zcl (canon c)) (zcl c) = true.
Proof. apply same_iff. intros z. unfold zcl. rewrite !in_map_iff. split; intros (x&E&I); exists x; (split; [exact E|]); apply canonical_in; exact I. Qed.
Lemma canon_same a b : ssorted a -> same_clause (zcl a) (zcl b) = true -> canon b = a.
Proof.
  intros S H. rewrite same_iff in H. apply ssorted_ext; [apply canonical_sorted|exact S|]. intros x. unfold canon. rewrite canonical_in.
  specialize (H (zlit x)). unfold zcl in H. rewrite !in_map_iff in H. split; intros I.
  - destruct (proj2 H (ex_intro _ x (conj eq_refl I))) as (y&E&J). apply zlit_inj in E. subst y. exact J.
  - destruct (proj1 H (ex_intro _ x (conj eq_refl I))) as (y&E&J). apply zlit_inj in E. subst y. exact J.
Qed.
Definition copies (c : list Z) (F : list (list Z)) : nat := length (filter (same_clause c) F).
Lemma copies_pos c F : (0 < copies c F)%nat <-> existsb (same_clause c) F = true.
Proof.
  unfold copies. induction F as [|D F IH]; [split; [cbn; lia|discriminate]|]. cbn [filter existsb]. destruct (same_clause c D); [cbn [length orb]; split; [auto|lia]|]. exact IH.
Qed.
Lemma copies_delete c d F : (copies d (delete_clause c F) + (if same_clause d c then 1 else 0) >= copies d F)%nat.
Proof.
  unfold copies. induction F as [|D F IH]; [cbn; lia|]. cbn [delete_clause filter]. destruct (same_clause c D) eqn:E.
  - assert (X : same_clause d D = same_clause d c) by (rewrite (same_sym' d D), (same_sym' d c); apply (same_trans' c D d E)).
    rewrite X. destruct (same_clause d c); cbn [length]; lia.
  - cbn [filter]. destruct (same_clause d D); cbn [length]; lia.
Qed.
Lemma perm_copies c F F' : Permutation F F' -> copies c F = copies c F'.
Proof.
  unfold copies. induction 1 as [|x l l' _ IH|x y l|l l1 l2 _ IH1 _ IH2]; cbn [filter]; [reflexivity| | |congruence].
  - destruct (same_clause c x); cbn [length]; lia.
  - destruct (same_clause c x), (same_clause c y); cbn [length]; lia.
Qed.
Lemma delete_keeps c D F : In D F -> same_clause c D = false -> In D (delete_clause c F).
Proof.
  induction F as [|E F IH]; intros I S; [destruct I|]. cbn [delete_clause]. destruct (same_clause c E) eqn:X; destruct I as [->|I]; [congruence|exact I|left; reflexivity|right; auto].
Qed.

(** * The clauses of a DRAT proof cover those of the history. *)
Definition stored (D : list N) (l : list (list N * bool)) : nat := length (filter (fun e => if list_eq_dec N.eq_dec (fst e) D then true else false) l).
Definition has_unit (F : list (list Z)) (l : N) : Prop := exists C, In C F /\ same_clause [zlit l] C = true.
Record covers (F : list (list Z)) (d : db) : Prop := {
  co_cls : forall D, (stored D (db_cls d) <= copies (zcl D) F)%nat;
  co_len : forall D red, In (D, red) (db_cls d) -> (2 <= length D)%nat /\ ssorted D;
  co_units : forall l, In l (db_units d) -> has_unit F l;
  co_unsat : db_unsat d = true -> In [] F \/ exists l, has_unit F l /\ has_unit F (lnot l) }.
Lemma covers_perm F F' d : Permutation F F' -> covers F d -> covers F' d.
Proof.
  intros P [A B C D]. assert (U : forall l, has_unit F l -> has_unit F' l) by (intros l (c&I&S); exists c; split; [eapply Permutation_in; eassumption|exact S]).
  constructor; auto.
  - intros X. rewrite <- (perm_copies _ _ _ P). apply A.
  - intros X. destruct (D X) as [I|(l&H1&H2)]; [left; eapply Permutation_in; eassumption|right; exists l; auto].
Qed.
Lemma covers_more F c d : covers F d -> covers (c :: F) d.
Proof.
  intros [A B C D]. assert (U : forall l, has_unit F l -> has_unit (c :: F) l) by (intros l (x&I&S); exists x; split; [right; exact I|exact S]).
  constructor; auto.
  - intros X. specialize (A X). unfold copies in *. cbn [filter]. destruct (same_clause (zcl X) c); cbn [length]; lia.
  - intros X. destruct (D X) as [I|(l&H1&H2)]; [left; right; exact I|right; exists l; auto].
Qed.
Lemma ssorted_canon c : ssorted (canon c).
Proof. apply canonical_sorted. Qed.
Lemma covers_store F c d lits red : covers F d -> ssorted lits -> same_clause (zcl lits) c = true -> covers (c :: F) (db_store d lits red).
Proof.
  intros H So Sm. pose proof (covers_more F c d H) as [A B C D]. unfold db_store. destruct lits as [|a [|b t]].
  - constructor; cbn [db_cls db_units db_unsat]; auto. intros _. left. left. rewrite same_iff in Sm. destruct c as [|z c]; [reflexivity|]. destruct (proj2 (Sm z) (or_introl eq_refl)).
  - assert (U : has_unit (c :: F) a) by (exists c; split; [left; reflexivity|exact Sm]).
    destruct (mem a (db_units d)); [constructor; auto|]. destruct (mem (lnot a) (db_units d)) eqn:M.
    + constructor; cbn [db_cls db_units db_unsat]; auto. intros _. right. exists a. split; [exact U|]. apply C. apply mem_iff. exact M.
    + constructor; cbn [db_cls db_units db_unsat]; auto. intros l [<-|I]; auto.
  - set (L := a :: b :: t) in *. destruct H as [A' _ _ _]. constructor; cbn [db_cls db_units db_unsat]; auto.
    + intros X. specialize (A' X). unfold stored, copies in *. cbn [filter fst]. destruct (list_eq_dec N.eq_dec L X) as [<-|NE]; [rewrite Sm; cbn [length]; lia|].
      destruct (same_clause (zcl X) c); cbn [length]; lia.
    + intros X r [E|I]; [|eapply B; exact I]. injection E as <- <-. split; [cbn [length L]; lia|exact So].
Qed.
Lemma two_lits D : (2 <= length D)%nat -> ssorted D -> exists x y, In x D /\ In y D /\ x <> y.
Proof.
  intros L S. destruct D as [|x [|y D]]; cbn [length] in L; try lia. exists x, y. split; [left; reflexivity|]. split; [right; left; reflexivity|]. intros ->. inversion S as [|? ? _ F]; subst. inversion F; subst. lia.
Qed.
Lemma covers_delete F c d D red : covers F d -> In (D, red) (db_cls d) -> same_clause (zcl D) c = true ->
  covers (delete_clause c F) (DB (remove_one (D, red) (db_cls d)) (db_units d) (db_unsat d)).
Proof.
  intros [A B C U] I S. destruct (B D red I) as [L So].
  assert (NU : forall l X, same_clause [zlit l] X = true -> same_clause c X = false).
  { intros l X Y. apply not_true_is_false. intros Z. destruct (two_lits D L So) as (x&y&Ix&Iy&NE). rewrite same_iff in *.
    assert (K : forall x, In x D -> x = l). { intros w Iw. assert (J : In (zlit w) [zlit l]) by (apply Y, Z, S, in_map, Iw). destruct J as [J|[]]. apply zlit_inj in J. congruence. }
    apply NE. rewrite (K x Ix), (K y Iy). reflexivity. }
  assert (KU : forall l, has_unit F l -> has_unit (delete_clause c F) l).
  { intros l (X&IX&SX). exists X. split; [|exact SX]. apply delete_keeps; [exact IX|eapply NU; exact SX]. }
  assert (St : forall X, stored X (db_cls d) = (stored X (remove_one (D, red) (db_cls d)) + if list_eq_dec N.eq_dec D X then 1 else 0)%nat).
  { intros X. clear - I. induction (db_cls d) as [|e l IH]; [destruct I|]. cbn [remove_one]. destruct (entry_eq e (D, red)) as [->|NE].
    - unfold stored. cbn [filter fst]. destruct (list_eq_dec N.eq_dec D X); cbn [length]; lia.
    - destruct I as [->|I]; [congruence|]. specialize (IH I). unfold stored in *. cbn [filter]. destruct (list_eq_dec N.eq_dec (fst e) X); cbn [length]; lia. }
  constructor; cbn [db_cls db_units db_unsat].
  - intros X. specialize (A X). rewrite (St X) in A. pose proof (copies_delete c (zcl X) F) as K. destruct (list_eq_dec N.eq_dec D X) as [<-|NE]; [rewrite S in K; lia|].
    destruct (same_clause (zcl X) c) eqn:E; [|lia]. destruct (Nat.eq_dec (stored X (remove_one (D, red) (db_cls d))) 0) as [Z|NZ]; [lia|]. exfalso. apply NE.
    assert (IX : exists r, In (X, r) (db_cls d)).
    { assert (St0 : stored X (db_cls d) <> 0%nat) by (rewrite (St X); lia). unfold stored in St0. destruct (filter _ _) as [|[w r] l] eqn:Fi; [cbn in St0; lia|]. assert (J : In (w, r) (filter (fun e => if list_eq_dec N.eq_dec (fst e) X then true else false) (db_cls d))) by (rewrite Fi; left; reflexivity).
      apply filter_In in J as [J1 J2]. cbn [fst] in J2. destruct (list_eq_dec N.eq_dec w X) as [->|]; [|discriminate]. exists r. exact J1. }
    destruct IX as [r IX]. destruct (B X r IX) as [_ SX]. rewrite <- (canon_same X D SX); [symmetry; apply (canon_same D D So), same_refl'|]. rewrite <- (same_trans' (zcl X) c (zcl D) E), same_sym'. exact S.
  - intros X r J. apply (B X r). eapply remove_incl. exact J.
  - auto.
  - intros X. destruct (U X) as [J|(l&H1&H2)]; [|right; exists l; auto]. left. apply delete_keeps; [exact J|]. apply not_true_is_false. intros Z. destruct (two_lits D L So) as (x&_&Ix&_). rewrite same_iff in *.
    destruct (proj1 (Z (zlit x)) (proj1 (S (zlit x)) (in_map zlit _ _ Ix))).
Qed.

(** * Derivations *)
Lemma rup_conflicts F A : forall K cs, rup K cs -> (forall x, In x K -> implied F A (zlit x)) -> (forall D, In D cs -> exists C, In C F /\ same_clause (zcl D) C = true) -> conflicts F A.
Proof.
  induction 1 as [K D rest H|K D l rest Il H R IH]; intros HK HC.
  - destruct (HC D (or_introl eq_refl)) as (C&IC&S). exists C. split; [exact IC|]. intros z Iz. rewrite same_iff in S. apply S in Iz. apply in_map_iff in Iz as (x&<-&Ix). rewrite <- zlit_lnot. apply HK, H, Ix.
  - destruct (HC D (or_introl eq_refl)) as (C&IC&S). apply IH; [|intros E IE; apply HC; right; exact IE]. intros x [<-|Ix]; [|auto]. rewrite same_iff in S.
    apply (im_unit F A C); [exact IC|apply S, in_map, Il|]. intros z Iz NE. apply S in Iz. apply in_map_iff in Iz as (y&<-&Iy). destruct (H y Iy) as [->|Hy]; [congruence|]. rewrite <- zlit_lnot. apply HK, Hy.
Qed.
Lemma unit_implied F A l : has_unit F l -> implied F A (zlit l).
Proof.
  intros (C&IC&S). rewrite same_iff in S. apply (im_unit F A C); [exact IC|apply S; left; reflexivity|]. intros x Ix NE. apply S in Ix. destruct Ix as [<-|[]]. congruence.
Qed.
Lemma derivable_rup es F d lits hs c : covers F d -> derivable es d lits hs -> same_clause (zcl lits) c = true -> has_rup F c.
Proof.
  intros V H S. unfold has_rup. assert (As : forall x, In x lits -> In (- zlit x)%Z (map Z.opp c)) by (intros x I; apply in_map; rewrite same_iff in S; apply S, in_map, I).
  destruct H as [(l&I1&I2)|(cs&K&_&H1&H2&H3)].
  - destruct (co_units _ _ V l I2) as (C&IC&SC). exists C. split; [exact IC|]. intros x Ix. rewrite same_iff in SC. apply SC in Ix. destruct Ix as [<-|[]]. apply im_assumed, As, I1.
  - apply (rup_conflicts F _ K cs H3).
    + intros x Ix. destruct (H2 x Ix) as [J|J]; [|apply unit_implied, (co_units _ _ V), J]. apply im_assumed. apply As in J. rewrite zlit_lnot, Z.opp_involutive in J. exact J.
    + intros D ID. destruct (proj1 (H1 D ID)) as [red J]. assert (P : (0 < copies (zcl D) F)%nat).
      { eapply Nat.lt_le_trans; [|apply (co_cls _ _ V D)]. unfold stored. destruct (filter _ _) eqn:Fi; [|cbn; lia]. exfalso. assert (Q : In (D, red) (filter (fun e => if list_eq_dec N.eq_dec (fst e) D then true else false) (db_cls d))).
        { apply filter_In. split; [exact J|]. cbn [fst]. destruct (list_eq_dec N.eq_dec D D); congruence. } rewrite Fi in Q. destruct Q. }
      apply copies_pos in P. apply existsb_exists in P as (C&IC&SC). exists C. auto.
Qed.
Lemma contradiction_conflicts F d : covers F d -> db_unsat d = true -> conflicts F [].
Proof.
  intros V U. destruct (co_unsat _ _ V U) as [I|(l&H1&(C&IC&SC))]; [exists []; split; [exact I|intros x []]|]. exists C. split; [exact IC|]. intros x Ix. rewrite same_iff in SC. apply SC in Ix. destruct Ix as [<-|[]].
  rewrite zlit_lnot, Z.opp_involutive. apply unit_implied, H1.
Qed.

(** * Histories *)
Lemma loads_cover f : covers (map zcl f) (db_after (map Load f)).
Proof.
  induction f as [|c f IH] using rev_ind.
  - constructor; cbn; [intros; lia|intros ? ? []|intros ? []|discriminate].
  - rewrite !map_app. unfold db_after. rewrite fold_left_app. cbn [map fold_left]. change (fold_left db_event (map Load f) db_empty) with (db_after (map Load f)).
    apply (covers_perm (zcl c :: map zcl f)); [apply Permutation_cons_append|]. cbn [db_event]. destruct (_ || _); [apply covers_more, IH|]. apply covers_store; [exact IH|apply ssorted_canon|apply same_canon].
Qed.
Lemma drat_app ignore a : forall F b, drat_valid ignore F (a ++ b) <-> drat_valid ignore F a /\ drat_valid ignore (drat_final ignore F a) b.
Proof. induction a as [|[[] c] a IH]; intros F b; cbn [app drat_valid drat_final]; [tauto| |]; rewrite IH; tauto. Qed.
Lemma final_app ignore a : forall F b, drat_final ignore F (a ++ b) = drat_final ignore (drat_final ignore F a) b.
Proof. induction a as [|[[] c] a IH]; intros F b; cbn [app drat_final]; auto. Qed.
Lemma step_cover ignore F es s : covers F (db_after es) -> valid es (Step s) -> incremental s = false ->
  drat_valid ignore F (drat_entries s) /\ covers (drat_final ignore F (drat_entries s)) (db_after (es ++ [Step s])).
Proof.
  intros V H NI. unfold db_after. rewrite fold_left_app. cbn [fold_left]. change (fold_left db_event es db_empty) with (db_after es). set (d := db_after es) in *.
  destruct s as [g x|g x|v|v b|cl|red cl hs|us|cl p|b|m|l|core hs|]; try discriminate; cbn [drat_entries drat_valid drat_final db_event]; try (split; [exact Logic.I|exact V]).
  - split; [exact Logic.I|]. destruct V as [A B C D]. constructor; cbn [db_cls db_units db_unsat]; auto. intros l I. apply filter_In in I as [I _]. auto.
  - destruct H as [_ H]. change (map zlit cl) with (zcl cl). split; [split; [eapply derivable_rup; [exact V|exact H|apply same_canon]|exact Logic.I]|]. apply covers_store; [exact V|apply ssorted_canon|apply same_canon].
  - cbn [valid] in H. change (db_after es) with d in H. revert F V H. generalize d. clear d. induction us as [|[l h] us IH]; intros d F V H; [split; [exact Logic.I|exact V]|]. destruct H as [H1 H2]. cbn [map drat_valid drat_final fold_left fst].
    assert (V1 : covers ([zlit l] :: F) (db_store d [l] false)) by (apply covers_store; [exact V|repeat constructor|apply same_refl']).
    destruct (IH eq_refl _ _ V1 H2) as [I1 I2]. split; [split; [|exact I1]|exact I2]. eapply derivable_rup; [exact V|exact H1|apply same_refl'].
  - destruct H as (_&H&_). change (db_after es) with d in H. change (map zlit cl) with (zcl cl). split; [split; [|split; [|exact Logic.I]]|].
    + apply copies_pos. eapply Nat.lt_le_trans; [|].
      2: { assert (E : copies (zcl cl) F = copies (zcl (canon cl)) F).
           { unfold copies. f_equal. apply filter_ext. intros D. apply (same_trans' _ _ D (same_canon cl)). } rewrite E. apply (co_cls _ _ V). }
      unfold stored. destruct (filter _ _) eqn:Fi; [|cbn; lia]. exfalso. assert (Q : In (canon cl, is_red p) (filter (fun e => if list_eq_dec N.eq_dec (fst e) (canon cl) then true else false) (db_cls d))).
      { apply filter_In. split; [exact H|]. cbn [fst]. destruct (list_eq_dec N.eq_dec (canon cl) (canon cl)); congruence. } rewrite Fi in Q. destruct Q.
    + destruct (co_len _ _ V _ _ H) as [L So]. destruct (two_lits _ L So) as (x&y&Ix&Iy&NE). exists (zlit x), (zlit y). unfold canon in Ix, Iy. rewrite canonical_in in Ix, Iy. split; [apply in_map, Ix|]. split; [apply in_map, Iy|]. intros E. apply NE, zlit_inj, E.
    + destruct (ignore F (zcl cl)); [|apply covers_delete; [exact V|exact H|apply same_canon]].
      destruct V as [A B C D]. constructor; cbn [db_cls db_units db_unsat]; auto; [|intros X r I; apply (B X r); eapply remove_incl; exact I].
      intros X. eapply Nat.le_trans; [|apply A]. unfold stored. clear. induction (db_cls d) as [|e l IH]; [cbn; lia|]. cbn [remove_one]. destruct (entry_eq e (canon cl, is_red p)); cbn [filter]; destruct (list_eq_dec N.eq_dec (fst e) X); cbn [length]; lia.
Qed.
Theorem history_drat ignore f ss : valid_history (map Load f ++ map Step ss) -> forallb (fun s => negb (incremental s)) ss = true ->
  drat_valid ignore (map zcl f) (flat_map drat_entries ss) /\
  (db_unsat (db_after (map Load f ++ map Step ss)) = true -> conflicts (drat_final ignore (map zcl f) (flat_map drat_entries ss)) []).
Proof.
  intros V NI. enough (G : forall F pre, covers F (db_after pre) -> valid_history (pre ++ map Step ss) -> drat_valid ignore F (flat_map drat_entries ss) /\ covers (drat_final ignore F (flat_map drat_entries ss)) (db_after (pre ++ map Step ss))).
  { destruct (G (map zcl f) (map Load f) (loads_cover f) V) as [G1 G2]. split; [exact G1|]. apply contradiction_conflicts. exact G2. }
  clear V f. induction ss as [|s ss IH]; intros F pre C V; [cbn [map] in *; rewrite app_nil_r in *; split; [exact Logic.I|exact C]|]. cbn [forallb] in NI. apply andb_prop in NI as [N1 N2].
  cbn [map flat_map] in *. destruct (step_cover ignore F pre s C) as [S1 S2]; [apply (V pre (Step s) (map Step ss) eq_refl)|destruct (incremental s); [discriminate|reflexivity]|].
  replace (pre ++ Step s :: map Step ss) with ((pre ++ [Step s]) ++ map Step ss) in * by (rewrite <- app_assoc; reflexivity). destruct (IH N2 _ _ S2 V) as [I1 I2]. rewrite drat_app, final_app. auto.
Qed.
