(** The steps that the checker gives to its processors, replayed by an
    independent checker that only follows the hints (as an LRAT checker does).
    Nothing here is a model of code in /repo: it is the specification that
    property C16 is stated with. *)
From Coq Require Import Arith ZArith ZifyBool ZifyNat ZifyN Permutation Sorted.
From Verif Require Import Spec Lit LitProofs Vec SortedLits SortedLitsProofs Hash HashProofs Vli BinFormat Checker CheckerStore CheckerInv CheckerOps CheckerRup CheckerSteps CheckerRun.

(** * The independent checker *)
Definition cdb := N -> option (list N).
Definition db_empty : cdb := fun _ => None.
Definition db_put (db : cdb) (i : N) (l : list N) : cdb := fun j => if j =? i then Some l else db j.
Definition db_del (db : cdb) (i : N) : cdb := fun j => if j =? i then None else db j.
Fixpoint lits_eqb (a b : list N) : bool :=
  match a, b with [], [] => true | x :: a, y :: b => (x =? y) && lits_eqb a b | _, _ => false end.
Definition db_has (db : cdb) (i : N) (l : list N) : bool := match db i with Some l' => lits_eqb l' l | None => false end.
Definition db_free (db : cdb) (i : N) : bool := match db i with Some _ => false | None => true end.
Definition contradictory (l : list N) : bool := existsb (fun x => existsb (N.eqb (opp x)) l) l.

Section Replay.
(** whether the hint for the removal of an irredundant clause is checked (an
    LRAT checker never does that: it may always delete clauses) *)
Variable strict : bool.

Definition replay1 (db : cdb) (k : checked_step) : option cdb :=
  match k with
  | KAddClause id l => if db_free db id then Some (db_put db id l) else None
  | KAtClause id _ l hints => if db_free db id && hint_check db l hints then Some (db_put db id l) else None
  | KDeleteClause id l | KDeleteRatClause id false l _ => if db_has db id l then Some (db_del db id) else None
  | KDeleteAtClause id keep l hints =>
      if db_has db id l && (negb strict || hint_check (db_del db id) l hints) then Some (if keep then db else db_del db id) else None
  | KDeleteRatClause id true l _ | KMakeIrredundant id l => if db_has db id l then Some db else None
  | KDuplicatedClause id same l => if db_free db id && db_has db same l then Some db else None
  | KTautologicalClause id l => if db_free db id && contradictory l then Some db else None
  | KFailedAssumptions core hints =>
      if (contradictory core && match hints with [] => true | _ => false end) || hint_check db (map opp core) hints then Some db else None
  | KUserVar _ _ | KModel _ | KAssumptions _ => Some db
  end.
Fixpoint replay (db : cdb) (ks : list checked_step) : option cdb :=
  match ks with [] => Some db | k :: ks => match replay1 db k with Some db1 => replay db1 ks | None => None end end.

Lemma replay_app ks1 : forall db ks2, replay db (ks1 ++ ks2) = match replay db ks1 with Some d => replay d ks2 | None => None end.
Proof. induction ks1 as [|k ks1 IH]; intros db ks2; cbn [app replay]; [reflexivity|]. destruct (replay1 db k); auto. Qed.

Lemma lits_eqb_refl l : lits_eqb l l = true.
Proof. induction l; cbn; [reflexivity|]. rewrite N.eqb_refl. exact IHl. Qed.
Lemma lits_eqb_eq a : forall b, lits_eqb a b = true -> a = b.
Proof.
  induction a as [|x a IH]; intros [|y b] H; try discriminate; [reflexivity|]. cbn in H. apply andb_prop in H as [H1 H2].
  apply N.eqb_eq in H1. f_equal; auto.
Qed.

(** * Its soundness *)
Lemma hint_check_sound (a : asg) db : (forall i l, db i = Some l -> clause_holds a l = true) -> forall hints fal,
  hint_check db fal hints = true -> existsb (fun l => lit_holds a l) fal = true.
Proof.
  intros D. induction hints as [|i hints IH]; intros fal H; cbn [hint_check] in H; [discriminate|].
  destruct (db i) as [cl|] eqn:E; [|discriminate]. specialize (D _ _ E). apply clause_holds_in in D as (l&L1&L2).
  destruct (existsb (N.eqb l) fal) eqn:F.
  - apply existsb_exists in F as (x&X1&X2). apply N.eqb_eq in X2. subst x. apply existsb_exists. eauto.
  - assert (IN : In l (filter (fun l => negb (existsb (N.eqb l) fal)) cl)) by (apply filter_In; rewrite F; auto).
    destruct (filter _ cl) as [|x [|y U]]; [destruct IN| |discriminate]. destruct IN as [->|[]].
    apply andb_prop in H as [_ H]. apply IH in H. cbn [existsb] in H. apply orb_prop in H as [H|H]; [|exact H].
    rewrite <- lnot_opp, lit_holds_lnot, L2 in H. discriminate.
Qed.

(** what a step claims *)
Definition claim (a : asg) (k : checked_step) : Prop :=
  match k with
  | KAtClause _ _ l _ => clause_holds a l = true
  | KDeleteAtClause _ _ l _ => strict = true -> clause_holds a l = true
  | KFailedAssumptions core _ => cube_holds a core = false
  | _ => True
  end.
Definition holds_db (a : asg) (db : cdb) : Prop := forall i l, db i = Some l -> clause_holds a l = true.

Lemma holds_put a db i l : holds_db a db -> clause_holds a l = true -> holds_db a (db_put db i l).
Proof. intros H C j m. unfold db_put. destruct (j =? i); [intros E; inversion E; subst; exact C|apply H]. Qed.
Lemma holds_del a db i : holds_db a db -> holds_db a (db_del db i).
Proof. intros H j m. unfold db_del. destruct (j =? i); [discriminate|apply H]. Qed.

Lemma contradictory_cube a l : contradictory l = true -> cube_holds a l = false.
Proof.
  intros H. apply existsb_exists in H as (x&X1&X2). apply existsb_exists in X2 as (y&Y1&Y2). apply N.eqb_eq in Y2. subst y.
  destruct (cube_holds a l) eqn:C; [|reflexivity]. apply (proj1 (forallb_forall _ _)) with (x := x) in C as C1; [|exact X1].
  apply (proj1 (forallb_forall _ _)) with (x := opp x) in C as C2; [|exact Y1].
  rewrite <- lnot_opp, lit_holds_lnot, C1 in C2. discriminate.
Qed.
Lemma neg_cube a l : clause_holds a (map opp l) = true -> cube_holds a l = false.
Proof.
  intros H. apply clause_holds_in in H as (x&X1&X2). apply in_map_iff in X1 as (y&<-&Y). destruct (cube_holds a l) eqn:C; [|reflexivity].
  apply (proj1 (forallb_forall _ _)) with (x := y) in C; [|exact Y]. rewrite <- lnot_opp, lit_holds_lnot, C in X2. discriminate.
Qed.

Lemma replay1_sound a db k db' : replay1 db k = Some db' -> holds_db a db ->
  (forall id l, k = KAddClause id l -> clause_holds a l = true) -> holds_db a db' /\ claim a k.
Proof.
  intros H D A. destruct k as [v u|id l|id sm l|id l|id red l hs|id l|id keep l hs|id keep l pv|id l|m|l|core hs]; cbn [replay1 claim] in *.
  all: try (inversion H; subst; auto; fail).
  - destruct (db_free db id); [|discriminate]. inversion H; subst. split; [|exact Logic.I]. apply holds_put; eauto.
  - destruct (_ && _); [|discriminate]. inversion H; subst. auto.
  - destruct (_ && _); [|discriminate]. inversion H; subst. auto.
  - destruct (db_free db id); [|discriminate]. destruct (hint_check db l hs) eqn:E; [|discriminate]. inversion H; subst.
    pose proof (hint_check_sound a db D _ _ E) as C. split; [apply holds_put; auto|exact C].
  - destruct (db_has db id l); [|discriminate]. inversion H; subst. split; [apply holds_del; auto|exact Logic.I].
  - destruct (db_has db id l); [|discriminate]. destruct (negb strict || hint_check _ l hs) eqn:E; [|discriminate]. inversion H; subst.
    split; [destruct keep; auto using holds_del|]. intros ->. exact (hint_check_sound a _ (holds_del a db id D) _ _ E).
  - destruct keep; (destruct (db_has db id l); [|discriminate]); inversion H; subst; auto using holds_del.
  - destruct (db_has db id l); [|discriminate]. inversion H; subst. auto.
  - destruct (contradictory core) eqn:C.
    + destruct (_ || _); [|discriminate]. inversion H; subst. auto using contradictory_cube.
    + cbn [andb orb] in H. destruct (hint_check db (map opp core) hs) eqn:E; [|discriminate]. inversion H; subst. split; [exact D|].
      apply neg_cube. apply (hint_check_sound a _ D _ _ E).
Qed.

Lemma replay_sound a : forall ks db db', replay db ks = Some db' -> holds_db a db ->
  (forall id l, In (KAddClause id l) ks -> clause_holds a l = true) -> holds_db a db' /\ Forall (claim a) ks.
Proof.
  induction ks as [|k ks IH]; intros db db' H D A; cbn [replay] in H; [inversion H; subst; auto|].
  destruct (replay1 db k) as [db1|] eqn:E; [|discriminate].
  destruct (replay1_sound a _ _ _ E D) as [D1 C1]; [intros id l ->; apply (A id l); left; reflexivity|].
  destruct (IH _ _ H D1) as [D2 C2]; [intros id l X; apply (A id l); right; exact X|]. auto.
Qed.

(** * The checker's steps can be replayed *)

Record RI (db : cdb) (c : ctx) : Prop := {
  ri_db : db_ok db (c_clauses c);
  ri_keys : forall i l, db i = Some l -> i < next_clause_id (c_clauses c);
  ri_prev : strict = true -> forall s, s_prev_id (c_state c) = Some s -> db s = Some (s_prev_lits (c_state c));
}.
(** the two unit clauses in conflict *)
Definition conflict_ok (db : cdb) (cl : clauses) : Prop :=
  forall i j, unit_conflict cl = Some (i, j) -> exists l, db i = Some [opp l] /\ db j = Some [l].

Lemma stored_same cl cl' i l : Permutation (aclauses cl') (aclauses cl) -> (forall v, unit_of cl' v = unit_of cl v) ->
  stored cl' i l -> stored cl i l.
Proof.
  intros P U [(x&X1&X2)|(v&b&X1&X2)]; [left; exists x; split; [apply (perm_in _ _ _ P X1)|exact X2]|right; exists v, b; rewrite <- U; auto].
Qed.
Lemma db_ok_same db cl cl' : same_db cl cl' -> db_ok db cl -> db_ok db cl'.
Proof. intros [a b _ _] D i l H. apply D. eapply stored_same; eassumption. Qed.

Lemma db_put_same db i l : db_put db i l i = Some l.
Proof. unfold db_put. rewrite N.eqb_refl. reflexivity. Qed.
Lemma db_put_other db i l j m : db j = Some m -> db i = None -> db_put db i l j = Some m.
Proof. intros A B. unfold db_put. destruct (N.eqb_spec j i); congruence. Qed.
Lemma db_del_other db i j : j <> i -> db_del db i j = db j.
Proof. intros H. unfold db_del. destruct (N.eqb_spec j i); congruence. Qed.

Lemma free_next db c : RI db c -> db_free db (next_clause_id (c_clauses c)) = true.
Proof. intros [_ K _]. unfold db_free. destruct (db _) eqn:E; [apply K in E; lia|reflexivity]. Qed.

Lemma unit_lit_eq l : [2 * lit_var l + (if is_positive l then 0 else 1)] = [l].
Proof. change (lit_var l) with (N.div2 l). rewrite is_pos_neg, is_negative_odd. pose proof (N.div2_odd l). destruct (N.odd l); cbn [negb N.b2n] in *; f_equal; lia. Qed.
Lemma neg_lit_eq l : [2 * lit_var l + (if is_negative l then 0 else 1)] = [opp l].
Proof. change (lit_var l) with (N.div2 l). rewrite is_negative_odd, opp_val. reflexivity. Qed.

(** storing a clause *)
Lemma store_replay db st cl lits red st' cl' id r :
  db_ok db cl -> (forall i l, db i = Some l -> i < next_clause_id cl) -> store_eff st cl lits red st' cl' id r ->
  match r with
  | SNew => id = next_clause_id cl /\ next_clause_id cl' = id + 1 /\ db_ok (db_put db id lits) cl'
  | _ => next_clause_id cl' = next_clause_id cl /\ db_ok db cl' /\ db id = Some lits
  end.
Proof.
  intros D K H.
  assert (FRESH : db (next_clause_id cl) = None) by (destruct (db _) eqn:E; [apply K in E; lia|reflexivity]).
  destruct H; subst.
  - split; [reflexivity|]. split; [assumption|]. intros i l X. apply db_put_other; [|exact FRESH]. apply D. eapply stored_same; eassumption.
  - split; [assumption|]. split; [intros i x X; apply D; eapply stored_same; eassumption|]. apply D. right. exists (lit_var l), (is_positive l).
    split; [assumption|]. symmetry. apply unit_lit_eq.
  - split; [reflexivity|]. split; [assumption|]. intros i x X. apply db_put_other; [|exact FRESH]. apply D. eapply stored_same; eassumption.
  - split; [reflexivity|]. split; [assumption|]. intros i x [(y&Y1&Y2)|(v&b&Y1&Y2)].
    + apply db_put_other; [|exact FRESH]. apply D. left. exists y. split; [eapply perm_in; eassumption|exact Y2].
    + match goal with E : forall v, unit_of cl' v = _ |- _ => rewrite E in Y1 end. destruct (N.eqb_spec (lit_var l) v) as [<-|NE].
      * inversion Y1; subst. rewrite unit_lit_eq. apply db_put_same.
      * apply db_put_other; [|exact FRESH]. apply D. right. eauto.
  - match goal with P : Permutation (aclauses cl) _, Q : Permutation (aclauses cl') _ |- _ => rename P into P1; rename Q into P2 end.
    assert (X : next_clause_id cl' = next_clause_id cl /\ db_ok db cl' /\ db (a_id a) = Some (a_lits a)).
    { split; [assumption|]. split.
      - intros i x [(y&Y1&Y2)|(v&b&Y1&Y2)]; apply D; [left|right; exists v, b; match goal with E : forall v, unit_of cl' v = _ |- _ => rewrite <- E end; auto].
        apply (perm_in _ _ _ P2) in Y1 as [<-|Y1]; [exists a; split; [apply (perm_in _ _ _ (Permutation_sym P1)); left; reflexivity|]|exists y; split; [apply (perm_in _ _ _ (Permutation_sym P1)); right; exact Y1|exact Y2]].
        destruct red; exact Y2.
      - apply D. left. exists a. split; [apply (perm_in _ _ _ (Permutation_sym P1)); left; reflexivity|auto]. }
    destruct (negb red && (a_irr a =? 0)); exact X.
  - match goal with Q : Permutation (aclauses cl') _ |- _ => rename Q into P2 end.
    split; [reflexivity|]. split; [assumption|]. intros i x [(y&Y1&Y2&Y3)|(v&b&Y1&Y2)].
    + apply (perm_in _ _ _ P2) in Y1 as [<-|Y1]; [cbn in Y2, Y3; subst; apply db_put_same|].
      apply db_put_other; [|exact FRESH]. apply D. left. eauto.
    + apply db_put_other; [|exact FRESH]. apply D. right. exists v, b. match goal with E : forall v, unit_of cl' v = _ |- _ => rewrite <- E end. auto.
Qed.

Lemma store_conflict db st cl lits red st' cl' id r :
  db_ok db cl -> db (next_clause_id cl) = None -> store_eff st cl lits red st' cl' id r -> conflict_ok db cl ->
  conflict_ok (match r with SNew => db_put db id lits | _ => db end) cl'.
Proof.
  intros D F H C. assert (KEEP : forall x, unit_conflict cl' = unit_conflict cl -> conflict_ok (db_put db (next_clause_id cl) x) cl').
  { intros x E i j Hij. rewrite E in Hij. destruct (C _ _ Hij) as (l&A&B). exists l. split; apply db_put_other; auto. }
  destruct H; subst; auto.
  - intros i j Hij. apply C. congruence.
  - intros i j Hij. match goal with E : unit_conflict cl' = Some (cid, _) |- _ => rewrite E in Hij end. injection Hij as <- <-. exists l.
    split; [|apply db_put_same]. apply db_put_other; [|exact F]. apply D. right. exists (lit_var l), (is_negative l). split; [assumption|].
    symmetry. apply neg_lit_eq.
  - destruct (negb red && _); intros i j Hij; apply C; congruence.
Qed.

Lemma taut_contradictory l : taut l = true -> contradictory (canon l) = true.
Proof.
  intros T. apply canonical_taut in T as (z&Z1&Z2). apply existsb_exists. exists z. split; [apply canonical_in; exact Z1|].
  apply existsb_exists. exists (lnot z). split; [apply canonical_in; exact Z2|]. rewrite lnot_opp. apply N.eqb_refl.
Qed.

Definition deletes_var (e : event) : bool := match e with Step (DeleteVar _) => true | _ => false end.

Definition ri_post (db : cdb) (c c' : ctx) (keep : bool) : Prop :=
  exists ks db', proc_log (c_proc c') = proc_log (c_proc c) ++ ks /\ replay db ks = Some db' /\ RI db' c' /\
    (keep = true -> conflict_ok db (c_clauses c) -> conflict_ok db' (c_clauses c')).

Lemma prev_store st cl lits red st' cl' id r : store_eff st cl lits red st' cl' id r ->
  s_prev_id st' = s_prev_id st /\ s_prev_lits st' = s_prev_lits st.
Proof. intros H. destruct (store_eff_state _ _ _ _ _ _ _ _ H) as [-> | ->]; split; reflexivity. Qed.

Lemma ri_quiet db c c' b : RI db c -> same_db (c_clauses c) (c_clauses c') -> s_prev_id (c_state c') = s_prev_id (c_state c) ->
  s_prev_lits (c_state c') = s_prev_lits (c_state c) ->
  forall ks, proc_log (c_proc c') = proc_log (c_proc c) ++ ks -> replay db ks = Some db -> ri_post db c c' b.
Proof.
  intros [D K P] S E1 E2 ks L R. exists ks, db. split; [exact L|]. split; [exact R|]. split.
  - constructor; [eapply db_ok_same; eassumption|rewrite (sd_next _ _ S); exact K|rewrite E1, E2; exact P].
  - intros _ C i j H. apply C. rewrite <- (sd_conflict _ _ S). exact H.
Qed.

Lemma db_free_none db i : db_free db i = true -> db i = None.
Proof. unfold db_free. destruct (db i); congruence. Qed.
Lemma db_has_some db i l : db i = Some l -> db_has db i l = true.
Proof. unfold db_has. intros ->. apply lits_eqb_refl. Qed.

Lemma ri_add db c clause c' : RI db c -> add_eff c clause c' -> ri_post db c c' true.
Proof.
  intros R H. pose proof (free_next _ _ R) as F. destruct H as [US ->|US T S1 V1 C1 EM|cl1 id r US T SE EFF].
  - apply (ri_quiet db c c true R (same_db_refl _) eq_refl eq_refl []); [symmetry; apply app_nil_r|reflexivity].
  - destruct R as [D K P]. exists [KTautologicalClause (next_clause_id (c_clauses c)) (canon clause)], db.
    split; [apply EM|]. cbn [replay replay1]. rewrite F, (taut_contradictory _ T). split; [reflexivity|]. split.
    + constructor; rewrite ?C1, ?S1; auto. intros i l X. apply K in X. cbn [with_next_id next_clause_id]. lia.
    + intros _ C i j X. rewrite C1 in X. apply C. exact X.
  - pose proof (store_replay db _ _ _ _ _ _ _ _ (ri_db _ _ R) (ri_keys _ _ R) SE) as SR.
    pose proof (store_conflict db _ _ _ _ _ _ _ _ (ri_db _ _ R) (db_free_none _ _ F) SE) as SC.
    destruct (prev_store _ _ _ _ _ _ _ _ SE) as [P1 P2]. destruct R as [D K P]. destruct r.
    + destruct SR as (-> & N1 & D1), EFF as (<- & EM). exists [KAddClause (next_clause_id (c_clauses c)) (canon clause)], (db_put db (next_clause_id (c_clauses c)) (canon clause)).
      split; [apply EM|]. cbn [replay replay1]. rewrite F. split; [reflexivity|]. split; [|auto]. constructor; auto.
      * intros i l. unfold db_put. rewrite N1. destruct (N.eqb_spec i (next_clause_id (c_clauses c))); [lia|]. intros X. apply K in X. lia.
      * rewrite P1, P2. intros ST' s X. apply db_put_other; [auto|apply db_free_none, F].
    + destruct SR as (N1 & D1 & I1), EFF as (E1 & EM). cbn [app] in EM. exists [KDuplicatedClause (next_clause_id cl1) id (canon clause)], db.
      split; [apply EM|]. cbn [replay replay1]. rewrite N1, F, (db_has_some _ _ _ I1). split; [reflexivity|]. split.
      * constructor; rewrite ?E1; auto; [|rewrite P1, P2; exact P]. intros i l X. apply K in X. cbn [with_next_id next_clause_id]. lia.
      * rewrite E1. intros _ C. exact (SC C).
    + destruct SR as (N1 & D1 & I1), EFF as (E1 & EM). cbn [app] in EM.
      exists [KMakeIrredundant id (canon clause); KDuplicatedClause (next_clause_id cl1) id (canon clause)], db.
      split; [apply EM|]. cbn [replay replay1]. rewrite N1, (db_has_some _ _ _ I1), F, ?(db_has_some _ _ _ I1). cbn [andb]. split; [reflexivity|]. split.
      * constructor; rewrite ?E1; auto; [|rewrite P1, P2; exact P]. intros i l X. apply K in X. cbn [with_next_id next_clause_id]. lia.
      * rewrite E1. intros _ C. exact (SC C).
Qed.

Lemma ri_at db c red clause c' : has_processors (c_proc c) = true -> RI db c -> at_eff c red clause c' -> ri_post db c c' true.
Proof.
  intros HP R [st1 id r hints T _ HC SE ST EM]. pose proof (free_next _ _ R) as F.
  specialize (HC db (ri_db _ _ R) HP).
  pose proof (store_replay db _ _ _ _ _ _ _ _ (ri_db _ _ R) (ri_keys _ _ R) SE) as SR.
  pose proof (store_conflict db _ _ _ _ _ _ _ _ (ri_db _ _ R) (db_free_none _ _ F) SE) as SC.
  destruct (prev_store _ _ _ _ _ _ _ _ SE) as [P1 P2]. destruct R as [D K P]. destruct r.
  - destruct SR as (-> & N1 & D1). eexists [_], (db_put db (next_clause_id (c_clauses c)) (canon clause)).
    split; [apply EM|]. cbn [replay replay1]. rewrite F, HC. split; [reflexivity|]. split; [|auto]. constructor; auto.
    + intros i l. unfold db_put. rewrite N1. destruct (N.eqb_spec i (next_clause_id (c_clauses c))); [lia|]. intros X. apply K in X. lia.
    + rewrite ST. destruct red.
      * rewrite P1, P2. intros ST' s X. apply db_put_other; [auto|apply db_free_none, F].
      * cbn [with_prev s_prev_id s_prev_lits]. intros _ s X. inversion X; subst. apply db_put_same.
  - destruct SR as (N1 & D1 & I1). exists [], db. split; [apply EM|]. split; [reflexivity|]. split; [|auto]. constructor; auto; [rewrite N1; exact K|].
    rewrite ST. destruct red; [rewrite P1, P2; exact P|]. cbn [with_prev s_prev_id s_prev_lits]. intros _ s X. inversion X; subst. exact I1.
  - destruct SR as (N1 & D1 & I1). exists [KMakeIrredundant id (canon clause)], db. split; [apply EM|]. cbn [replay replay1].
    rewrite (db_has_some _ _ _ I1). split; [reflexivity|]. split; [|auto]. constructor; auto; [rewrite N1; exact K|].
    rewrite ST. destruct red; [rewrite P1, P2; exact P|]. cbn [with_prev s_prev_id s_prev_lits]. intros _ s X. inversion X; subst. exact I1.
Qed.

Lemma ri_post_trans db c1 c2 c3 b : ri_post db c1 c2 b -> (forall db', RI db' c2 -> ri_post db' c2 c3 b) -> ri_post db c1 c3 b.
Proof.
  intros (ks1&db1&A1&A2&A3&A4) H. destruct (H db1 A3) as (ks2&db2&B1&B2&B3&B4). exists (ks1 ++ ks2), db2.
  split; [rewrite B1, A1, app_assoc; reflexivity|]. split; [rewrite replay_app, A2; exact B2|]. split; [exact B3|auto].
Qed.

Lemma ri_units c us c' : unit_chain c us c' -> forall db, has_processors (c_proc c) = true -> RI db c -> ri_post db c c' true.
Proof.
  induction 1 as [c c' Q PR|c l hash rest c1 c' id r hints _ HC SE EM _ IH]; intros db HP R.
  - apply (ri_quiet db c c' true R (q_db _ _ Q)) with (ks := []); [rewrite (q_state _ _ Q); reflexivity|rewrite (q_state _ _ Q); reflexivity| |reflexivity].
    rewrite PR. symmetry. apply app_nil_r.
  - apply (ri_post_trans _ _ c1); [|intros db' R'; apply IH; [rewrite (em_has _ _ _ EM); exact HP|exact R']]. clear IH.
    pose proof (free_next _ _ R) as F. specialize (HC db (ri_db _ _ R) HP).
    pose proof (store_replay db _ _ _ _ _ _ _ _ (ri_db _ _ R) (ri_keys _ _ R) SE) as SR.
    pose proof (store_conflict db _ _ _ _ _ _ _ _ (ri_db _ _ R) (db_free_none _ _ F) SE) as SC.
    destruct (prev_store _ _ _ _ _ _ _ _ SE) as [P1 P2]. destruct R as [D K P]. destruct r.
    + destruct SR as (-> & N1 & D1). eexists [_], (db_put db (next_clause_id (c_clauses c)) [l]).
      split; [apply EM|]. cbn [replay replay1]. rewrite F, HC. split; [reflexivity|]. split; [|auto]. constructor; auto.
      * intros i x. unfold db_put. rewrite N1. destruct (N.eqb_spec i (next_clause_id (c_clauses c))); [lia|]. intros X. apply K in X. lia.
      * rewrite P1, P2. intros ST' s X. apply db_put_other; [auto|apply db_free_none, F].
    + destruct SR as (N1 & D1 & I1). exists [], db. split; [apply EM|]. split; [reflexivity|]. split; [|auto]. constructor; auto; rewrite ?N1, ?P1, ?P2; auto.
    + destruct SR as (N1 & D1 & I1). exists [], db. split; [apply EM|]. split; [reflexivity|]. split; [|auto]. constructor; auto; rewrite ?N1, ?P1, ?P2; auto.
Qed.

(** a long clause and its identifier *)
Lemma nodup_mid {A} (x : A) l : NoDup (x :: l) -> ~ In x l.
Proof. intros H. inversion H; assumption. Qed.

Lemma hint_subsumed db s m l : db s = Some m -> (forall x, In x m -> In x l) -> hint_check db l [s] = true.
Proof.
  intros H S. cbn [hint_check]. rewrite H. replace (filter _ m) with (@nil N); [reflexivity|]. symmetry.
  clear H. induction m as [|x m IH]; [reflexivity|]. cbn [filter].
  assert (E : existsb (N.eqb x) l = true) by (apply existsb_exists; exists x; split; [apply S; left; reflexivity|apply N.eqb_refl]).
  rewrite E. cbn [negb]. apply IH. intros y Hy. apply S. right. exact Hy.
Qed.

Lemma ri_delete db c clause proof c' : Inv c -> RI db c -> del_eff c clause proof c' -> ri_post db c c' true.
Proof.
  intros I [D K P] [id r T DE UN UC NX ST EM]. pose proof (inv_wf _ I) as W.
  assert (PREV : forall db', strict = true -> forall s, s_prev_id (c_state c') = Some s -> db' s = Some (s_prev_lits (c_state c'))) by (rewrite ST; discriminate).
  (* the clause in question *)
  assert (AB : exists a B, Permutation (aclauses (c_clauses c)) (a :: B) /\ a_lits a = canon clause /\ a_id a = id /\
      match r with DRemoved => Permutation (aclauses (c_clauses c')) B
      | _ => exists a', a_id a' = id /\ a_lits a' = canon clause /\ Permutation (aclauses (c_clauses c')) (a' :: B) end).
  { inversion DE; subst.
    - exists a, B. auto.
    - exists a, B. split; [assumption|]. split; [assumption|]. split; [reflexivity|].
      destruct (negb (is_red proof) && _); exists (adrop (is_red proof) a); (split; [destruct (is_red proof); reflexivity|split; [destruct (is_red proof); assumption|assumption]]). }
  destruct AB as (a&B&P1&L&<-&P2).
  assert (INA : In a (aclauses (c_clauses c))) by (apply (perm_in _ _ _ (Permutation_sym P1)); left; reflexivity).
  assert (HAS : db (a_id a) = Some (canon clause)) by (apply D; left; exists a; auto).
  assert (LEN : (2 <= length (canon clause))%nat) by (rewrite <- L; apply (gc_len _ _ _ (wf_clause _ _ _ W a INA))).
  pose proof (wf_ids _ _ _ W) as ND.
  assert (ND' : NoDup ((a_id a :: map a_id B) ++ unit_ids (unit_clauses (c_clauses c)))).
  { apply (Permutation_NoDup (l := map a_id (aclauses (c_clauses c)) ++ unit_ids (unit_clauses (c_clauses c)))); [|exact ND].
    apply Permutation_app_tail. exact (Permutation_map a_id P1). }
  apply nodup_mid in ND'.
  assert (DB' : forall db', (r = DRemoved -> forall i, i <> a_id a -> db' i = db i) -> (r <> DRemoved -> db' = db) -> db_ok db' (c_clauses c')).
  { intros db' H1 H2 i l [(y&Y1&Y2&Y3)|(v&b&Y1&Y2)].
    - destruct r.
      + rewrite H2 by discriminate. destruct P2 as (a'&A1&A2&P2). apply (perm_in _ _ _ P2) in Y1 as [<-|Y1].
        * rewrite <- Y2, <- Y3, A1, A2. exact HAS.
        * apply D. left. exists y. split; [apply (perm_in _ _ _ (Permutation_sym P1)); right; exact Y1|auto].
      + rewrite H2 by discriminate. destruct P2 as (a'&A1&A2&P2). apply (perm_in _ _ _ P2) in Y1 as [<-|Y1].
        * rewrite <- Y2, <- Y3, A1, A2. exact HAS.
        * apply D. left. exists y. split; [apply (perm_in _ _ _ (Permutation_sym P1)); right; exact Y1|auto].
      + apply (perm_in _ _ _ P2) in Y1. rewrite H1; [|reflexivity|].
        * apply D. left. exists y. split; [apply (perm_in _ _ _ (Permutation_sym P1)); right; exact Y1|auto].
        * rewrite <- Y2. intros E. apply ND'. rewrite <- E. apply in_or_app. left. apply in_map. exact Y1.
    - rewrite UN in Y1. assert (X : db i = Some l) by (apply D; right; eauto).
      destruct r; [rewrite H2 by discriminate; exact X|rewrite H2 by discriminate; exact X|]. rewrite H1; [exact X|reflexivity|].
      intros ->. apply ND'. apply in_or_app. right. apply unit_of_ids. eauto. }
  assert (RIK : RI db c' \/ r = DRemoved).
  { destruct r; [left|left|right; reflexivity]; constructor; auto; try (apply DB'; [discriminate|reflexivity]); rewrite NX; exact K. }
  assert (RID : r = DRemoved -> RI (db_del db (a_id a)) c').
  { intros ->. constructor; auto.
    - apply DB'; [intros _ i Hi; apply db_del_other; exact Hi|congruence].
    - rewrite NX. intros i l. unfold db_del. destruct (i =? a_id a); [discriminate|apply K]. }
  assert (CF : forall db', (forall i x, db i = Some [x] -> db' i = Some [x]) -> conflict_ok db (c_clauses c) -> conflict_ok db' (c_clauses c')).
  { intros db' H C i j X. rewrite UC in X. destruct (C _ _ X) as (x&A1&A2). eauto. }
  assert (CFD : conflict_ok db (c_clauses c) -> conflict_ok (db_del db (a_id a)) (c_clauses c')).
  { apply CF. intros i x E. rewrite db_del_other; [exact E|]. intros ->. rewrite HAS in E. inversion E as [E1]. rewrite E1 in LEN. cbn in LEN. lia. }
  destruct proof; cbn [is_red] in EM.
  - destruct r.
    + exists [], db. split; [apply EM|]. split; [reflexivity|]. split; [destruct RIK; [assumption|discriminate]|intros _; apply CF; auto].
    + exists [], db. split; [apply EM|]. split; [reflexivity|]. split; [destruct RIK; [assumption|discriminate]|intros _; apply CF; auto].
    + exists [KDeleteClause (a_id a) (canon clause)], (db_del db (a_id a)). split; [apply EM|]. cbn [replay replay1].
      rewrite (db_has_some _ _ _ HAS). auto.
  - destruct EM as (s&RO&EM). cbn [removal_ok] in RO. destruct RO as (R1&R2&R3).
    assert (HC : negb strict || hint_check (db_del db (a_id a)) (canon clause) [s] = true).
    { destruct (Bool.bool_dec strict true) as [ES|ES]; [|apply not_true_is_false in ES; rewrite ES; reflexivity].
      apply orb_true_iff. right. pose proof (P ES s R1) as DS. assert (NE : s <> a_id a) by (intros ->; congruence). apply (hint_subsumed _ _ (s_prev_lits (c_state c))); [rewrite db_del_other; assumption|exact R3]. }
    destruct r.
    + exists [], db. split; [apply EM|]. split; [reflexivity|]. split; [destruct RIK; [assumption|discriminate]|intros _; apply CF; auto].
    + eexists [_], db. split; [apply EM|]. cbn [replay replay1]. rewrite (db_has_some _ _ _ HAS), HC. split; [reflexivity|].
      split; [destruct RIK; [assumption|discriminate]|intros _; apply CF; auto].
    + eexists [_], (db_del db (a_id a)). split; [apply EM|]. cbn [replay replay1]. rewrite (db_has_some _ _ _ HAS), HC. auto.
  - destruct EM as (s&RO&EM). cbn [removal_ok] in RO. destruct RO as (l&R1&R2).
    assert (DS : db s = Some [l]). { apply D. right. exists (lit_var l), (is_positive l). split; [exact R2|]. symmetry. apply unit_lit_eq. }
    assert (NE : s <> a_id a). { intros ->. rewrite HAS in DS. inversion DS as [E1]. rewrite E1 in LEN. cbn in LEN. lia. }
    assert (HC : negb strict || hint_check (db_del db (a_id a)) (canon clause) [s] = true).
    { apply orb_true_iff. right. apply (hint_subsumed _ _ [l]); [rewrite db_del_other; assumption|]. intros x [<-|[]]. exact R1. }
    destruct r.
    + exists [], db. split; [apply EM|]. split; [reflexivity|]. split; [destruct RIK; [assumption|discriminate]|intros _; apply CF; auto].
    + eexists [_], db. split; [apply EM|]. cbn [replay replay1]. rewrite (db_has_some _ _ _ HAS), HC. split; [reflexivity|].
      split; [destruct RIK; [assumption|discriminate]|intros _; apply CF; auto].
    + eexists [_], (db_del db (a_id a)). split; [apply EM|]. cbn [replay replay1]. rewrite (db_has_some _ _ _ HAS), HC. auto.
Qed.

Lemma ri_delvar db c v c' : Inv c -> RI db c -> delvar_eff c v c' ->
  (strict = true -> s_prev_id (c_state c) <> None -> forall l, In l (s_prev_lits (c_state c)) -> lit_var l <> v) -> ri_post db c c' false.
Proof.
  intros I [D K P] [_ PE UN UC NX ST EM] G. pose proof (inv_wf _ I) as W. pose proof (wf_ids _ _ _ W) as ND.
  destruct (unit_of (c_clauses c) v) as [u|] eqn:U.
  - destruct (wf_units _ _ _ W v u U) as (_&j&J1&J2). destruct u as [ui b]. cbn in J1. subst ui.
    assert (HAS : db j = Some [2 * v + if b then 0 else 1]) by (apply D; right; eauto).
    eexists [_], (db_del db j). split; [apply EM|]. cbn [replay replay1]. rewrite (db_has_some _ _ _ HAS). split; [reflexivity|].
    split; [|discriminate]. constructor.
    + intros i l [(y&Y1&Y2&Y3)|(w&d&Y1&Y2)].
      * apply (perm_in _ _ _ PE) in Y1. rewrite db_del_other; [apply D; left; eauto|]. intros ->.
        assert (X1 : In j (map a_id (aclauses (c_clauses c)))) by (rewrite <- Y2; apply in_map; exact Y1).
        assert (X2 : In j (unit_ids (unit_clauses (c_clauses c)))) by (apply unit_of_ids; eauto).
        clear - ND X1 X2. induction (map a_id (aclauses (c_clauses c))) as [|z l IH]; [destruct X1|]. cbn in ND. inversion ND; subst.
        destruct X1 as [->|X1]; [apply H1; apply in_or_app; right; exact X2|auto].
      * rewrite UN in Y1. destruct (N.eqb_spec v w) as [|NE]; [discriminate|]. rewrite db_del_other; [apply D; right; eauto|]. intros ->.
        assert (X : db j = Some l) by (apply D; right; eauto). subst l. rewrite HAS in X. assert (E : 2 * v + (if b then 0 else 1) = 2 * w + (if d then 0 else 1)) by congruence. clear - E NE. destruct b, d; lia.
    + rewrite NX. intros i l. unfold db_del. destruct (i =? j); [discriminate|apply K].
    + rewrite ST. intros ES s X. pose proof (P ES s X) as Y. rewrite db_del_other; [exact Y|]. intros ->.
      rewrite HAS in Y. injection Y as Y. apply (G ES ltac:(congruence) (2 * v + if b then 0 else 1)); [rewrite <- Y; left; reflexivity|].
      change (lit_var ?x) with (N.div2 x). apply div2_val.
  - exists [], db. split; [apply EM|]. split; [reflexivity|]. split; [|discriminate]. constructor.
    + intros i l X. apply D. destruct X as [(y&Y1&Y2)|(w&d&Y1&Y2)]; [left; exists y; split; [apply (perm_in _ _ _ PE Y1)|exact Y2]|right].
      exists w, d. rewrite UN in Y1. destruct (v =? w); [discriminate|auto].
    + rewrite NX. exact K.
    + rewrite ST. exact P.
Qed.

Lemma ri_next db c : RI db c -> RI db (next_step c).
Proof. intros [a b d]. constructor; auto. Qed.

Lemma replay_uservars ks : forall db, Forall uservar_step ks -> replay db ks = Some db.
Proof. induction ks as [|k ks IH]; intros db H; [reflexivity|]. inversion H as [|? ? A B]; subst. destruct k; try destruct A. cbn [replay replay1]. auto. Qed.

Lemma ri_step es db c e c' : Inv c -> tr c e c' -> has_processors (c_proc c) = true -> (strict = true -> Back es c) ->
  (strict = true -> forall v cl, e = Step (DeleteVar v) -> last_irred es = Some cl -> forall l, In l cl -> N.div2 l <> v) ->
  RI db c -> ri_post db c c' (negb (deletes_var e)).
Proof.
  intros I T HP BK G R. destruct e as [cl|s]; cbn [tr deletes_var negb] in *; [eapply ri_add; eassumption|].
  apply ri_next in R. apply inv_next in I. change (has_processors (c_proc (next_step c)) = true) in HP.
  change (ri_post db (next_step c) c' (negb (match s with DeleteVar _ => true | _ => false end))).
  destruct s as [gl so|gl us|v|v sm|cl|red cl hs|us|cl pf|b|m|l|core hs| ]; cbn [step_eff negb] in *.
  - destruct T as (A&B&ks&E1&E2). apply (ri_quiet db _ c' true R A) with (ks := ks); [rewrite B; reflexivity|rewrite B; reflexivity|apply E1|apply replay_uservars; exact E2].
  - destruct T as (A&B&ks&E1&E2). apply (ri_quiet db _ c' true R A) with (ks := ks); [rewrite B; reflexivity|rewrite B; reflexivity|apply E1|apply replay_uservars; exact E2].
  - eapply ri_delvar; [exact I|exact R|exact T|]. intros ES N l Hl. change (s_prev_id (c_state c) <> None) in N. destruct (bk_some _ _ (BK ES) N) as (cl&L1&L2).
    change (In l (s_prev_lits (c_state c))) in Hl. rewrite L2 in Hl. apply (proj1 (canonical_in _ _)) in Hl. exact (G ES v cl eq_refl L1 l Hl).
  - destruct T as (A&B&ks&E1&E2). apply (ri_quiet db _ c' true R A) with (ks := ks); [rewrite B; reflexivity|rewrite B; reflexivity|apply E1|apply replay_uservars; exact E2].
  - eapply ri_add; eassumption.
  - eapply ri_at; eassumption.
  - eapply ri_units; eassumption.
  - eapply ri_delete; eassumption.
  - destruct T as (A&B&ks&E1&E2). apply (ri_quiet db _ c' true R A) with (ks := ks); [rewrite B; reflexivity|rewrite B; reflexivity|apply E1|apply replay_uservars; exact E2].
  - destruct T as (A&B&E&_). apply (ri_quiet db _ c' true R A) with (ks := [KModel m]); [rewrite B; reflexivity|rewrite B; reflexivity|apply E|reflexivity].
  - destruct T as (A&B&E). apply (ri_quiet db _ c' true R A) with (ks := [KAssumptions (canon l)]); [rewrite B; reflexivity|rewrite B; reflexivity|apply E|reflexivity].
  - destruct T as (A&B&_&_&hints&E&H). apply (ri_quiet db _ c' true R A) with (ks := [KFailedAssumptions (canon core) hints]); [rewrite B; reflexivity|rewrite B; reflexivity|apply E|].
    cbn [replay replay1]. destruct (taut core) eqn:T.
    + subst hints. rewrite (taut_contradictory _ T). reflexivity.
    + specialize (H db (ri_db _ _ R) HP). replace (map opp (canon core)) with (map lnot (canon core)) by (apply map_ext; intros; apply lnot_opp).
      rewrite H, orb_true_r. reflexivity.
  - destruct T as (A&B&E). apply (ri_quiet db _ c' true R A) with (ks := []); [rewrite B; reflexivity|rewrite B; reflexivity|apply E|reflexivity].
Qed.
End Replay.

(** * The store as a table *)
Definition unit_db (cl : clauses) (id : N) : option (list N) :=
  fold_right (fun v r => match unit_of cl v with
    | Some (UC (Global i) b) => if i =? id then Some [2 * v + if b then 0 else 1] else r
    | _ => r end) None (map N.of_nat (seq 0 (length (unit_clauses cl)))).
Definition store_db (cl : clauses) : cdb := fun id =>
  match find (fun a => a_id a =? id) (aclauses cl) with Some a => Some (a_lits a) | None => unit_db cl id end.
