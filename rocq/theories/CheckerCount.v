(** The clause store as a multiset; clause identifiers. *)
From Coq Require Import Arith ZArith ZifyBool ZifyNat ZifyN Permutation Sorted.
From Verif Require Import Spec Lit LitProofs Vec SortedLits SortedLitsProofs Hash HashProofs Vli BinFormat Checker CheckerStore CheckerInv CheckerOps CheckerRup CheckerSteps CheckerRun.

(** * What the events say *)

Definition mem (x : N) (l : list N) : bool := existsb (N.eqb x) l.
Definition same_lits (a b : list N) : bool := forallb (fun x => mem x b) a && forallb (fun x => mem x a) b.

(** by how much an event changes the number of irredundant or redundant copies of the clause [lits] *)
Definition copy_event (lits : list N) (red : bool) (e : event) : Z :=
  match e with
  | Load cl | Step (AddClause cl) => if same_lits cl lits && negb red then 1 else 0
  | Step (AtClause r cl _) => if same_lits cl lits && Bool.eqb r red then 1 else 0
  | Step (DeleteClause cl p) => if same_lits cl lits && Bool.eqb (match p with DRedundant => true | _ => false end) red then -1 else 0
  | _ => 0
  end%Z.
Fixpoint copy_count (lits : list N) (red : bool) (es : list event) : Z :=
  match es with [] => 0 | e :: r => copy_event lits red e + copy_count lits red r end%Z.

(** the unit clauses known after the events: added or derived and the variable not deleted since *)
Definition unit_event (us : list N) (e : event) : list N :=
  match e with
  | Load cl | Step (AddClause cl) | Step (AtClause _ cl _) =>
      match cl with l :: _ => if same_lits cl [l] then l :: us else us | [] => us end
  | Step (UnitClauses ls) => map fst ls ++ us
  | Step (DeleteVar v) => filter (fun l => negb (N.div2 l =? v)) us
  | _ => us
  end.
Definition known_units (es : list event) : list N := fold_left unit_event es [].

(** * The same from the store *)

Definition lits_eqb (a b : list N) : bool := if list_eq_dec N.eq_dec a b then true else false.
Definition copies_in (A : list aclause) (lits : list N) (red : bool) : N :=
  sumN (map (fun x => if lits_eqb (a_lits x) lits then acopies red x else 0) A).

Lemma mem_iff x l : mem x l = true <-> In x l.
Proof. apply lit_in_iff. Qed.
Lemma same_lits_iff a b : same_lits a b = true <-> forall x, In x a <-> In x b.
Proof.
  unfold same_lits. rewrite andb_true_iff, !forallb_forall. split.
  - intros [H1 H2] x. split; intros H; [apply mem_iff, H1, H|apply mem_iff, H2, H].
  - intros H. split; intros x Hx; apply mem_iff, H, Hx.
Qed.
Lemma lits_eqb_iff a b : lits_eqb a b = true <-> a = b.
Proof. unfold lits_eqb. destruct (list_eq_dec N.eq_dec a b); split; congruence. Qed.
Lemma lits_eqb_refl a : lits_eqb a a = true.
Proof. apply lits_eqb_iff. reflexivity. Qed.

Lemma same_lits_canon cl lits : ssorted lits -> same_lits cl lits = lits_eqb (canon cl) lits.
Proof.
  intros S. apply eq_true_iff_eq. rewrite same_lits_iff, lits_eqb_iff. split.
  - intros H. apply ssorted_ext; [apply canonical_sorted|exact S|]. intros x. rewrite <- H. apply canonical_in.
  - intros <- x. symmetry. apply canonical_in.
Qed.

Lemma copies_perm A B lits red : Permutation A B -> copies_in A lits red = copies_in B lits red.
Proof. intros P. apply sumN_perm, Permutation_map, P. Qed.
Lemma copies_cons x A lits red : copies_in (x :: A) lits red = (if lits_eqb (a_lits x) lits then acopies red x else 0) + copies_in A lits red.
Proof. reflexivity. Qed.

Lemma store_copies st cl l2 r2 st' cl' id r lits red : (2 <= length lits)%nat -> store_eff st cl l2 r2 st' cl' id r ->
  Z.of_N (copies_in (aclauses cl') lits red) = (Z.of_N (copies_in (aclauses cl) lits red) + if lits_eqb l2 lits && Bool.eqb r2 red then 1 else 0)%Z.
Proof.
  intros L H.
  assert (NE : (length l2 < 2)%nat -> lits_eqb l2 lits && Bool.eqb r2 red = false).
  { intros X. destruct (lits_eqb l2 lits) eqn:E; [|reflexivity]. apply lits_eqb_iff in E. subst. lia. }
  destruct H; subst; rewrite ?NE by (cbn; lia); try (rewrite (copies_perm _ _ _ _ H1); lia).
  - rewrite (copies_perm _ _ _ _ H1), (copies_perm _ _ _ _ H3), !copies_cons.
    replace (a_lits (abump r2 a)) with (a_lits a) by (destruct r2; reflexivity).
    destruct (lits_eqb (a_lits a) lits); cbn [andb]; [|lia]. destruct r2, red; cbn [Bool.eqb abump acopies a_irr a_red]; lia.
  - rewrite (copies_perm _ _ _ _ H2), !copies_cons. cbn [a_lits].
    destruct (lits_eqb l2 lits); cbn [andb]; [|lia]. destruct r2, red; cbn [Bool.eqb acopies a_irr a_red]; lia.
Qed.

Lemma delete_copies cl l2 r2 cl' id r lits red : delete_eff cl l2 r2 cl' (inl (id, r)) ->
  Z.of_N (copies_in (aclauses cl') lits red) = (Z.of_N (copies_in (aclauses cl) lits red) - if lits_eqb l2 lits && Bool.eqb r2 red then 1 else 0)%Z.
Proof.
  intros H. inversion H; subst;
    match goal with P : Permutation (aclauses cl) (?a :: _), P' : Permutation (aclauses cl') _ |- _ =>
      rewrite (copies_perm _ _ _ _ P), (copies_perm _ _ _ _ P') end; rewrite !copies_cons.
  - destruct (lits_eqb (a_lits a) lits); cbn [andb]; [|lia]. destruct r2, red; cbn [Bool.eqb negb acopies] in *; lia.
  - replace (a_lits (adrop r2 a)) with (a_lits a) by (destruct r2; reflexivity).
    destruct (lits_eqb (a_lits a) lits); cbn [andb]; [|lia]. destruct r2, red; cbn [Bool.eqb adrop acopies a_irr a_red] in *; lia.
Qed.

Definition strict (lits : list N) : Prop := ssorted lits /\ (2 <= length lits)%nat /\ forall l, In l lits -> ~ In (lnot l) lits.

Lemma taut_not_strict cl lits : strict lits -> taut cl = true -> lits_eqb (canon cl) lits = false.
Proof.
  intros (_&_&S) T. destruct (lits_eqb _ _) eqn:E; [|reflexivity]. apply lits_eqb_iff in E. exfalso.
  apply canonical_taut in T as (x&H1&H2). apply (S x); rewrite <- E; apply (proj2 (canonical_in _ _)); assumption.
Qed.

Lemma count_step c e c' lits red : tr c e c' -> s_unsat (c_state c') = false -> strict lits ->
  s_unsat (c_state c) = false /\
  Z.of_N (copies_in (aclauses (c_clauses c')) lits red) = (Z.of_N (copies_in (aclauses (c_clauses c)) lits red) + copy_event lits red e)%Z.
Proof.
  intros T US ST. pose proof ST as (SS&LL&_).
  assert (SAME : s_unsat (c_state c') = s_unsat (c_state c) -> Permutation (aclauses (c_clauses c')) (aclauses (c_clauses c)) -> copy_event lits red e = 0%Z ->
    s_unsat (c_state c) = false /\
    Z.of_N (copies_in (aclauses (c_clauses c')) lits red) = (Z.of_N (copies_in (aclauses (c_clauses c)) lits red) + copy_event lits red e)%Z).
  { intros A B ->. split; [congruence|]. rewrite (copies_perm _ _ _ _ B). lia. }
  assert (ADD : forall x cl, s_unsat (c_state x) = s_unsat (c_state c) -> c_clauses x = c_clauses c -> add_eff x cl c' ->
    copy_event lits red e = (if same_lits cl lits && negb red then 1 else 0)%Z ->
    s_unsat (c_state c) = false /\
    Z.of_N (copies_in (aclauses (c_clauses c')) lits red) = (Z.of_N (copies_in (aclauses (c_clauses c)) lits red) + copy_event lits red e)%Z).
  { intros x cl SX CX AE ->. rewrite (same_lits_canon _ _ SS). destruct AE as [E ->|E T' S1 V1 C1 EM|cl1 id r E T' SE R]; [congruence| |].
    - split; [congruence|]. rewrite C1, CX, (taut_not_strict _ _ ST T'). cbn [andb].
      change (aclauses (with_next_id (c_clauses c) (next_clause_id (c_clauses c) + 1))) with (aclauses (c_clauses c)). lia.
    - split; [congruence|]. replace (aclauses (c_clauses c')) with (aclauses cl1) by (destruct r; destruct R as [-> _]; reflexivity).
      rewrite (store_copies _ _ _ _ _ _ _ _ lits red LL SE), CX. destruct red; reflexivity. }
  destruct e as [cl|s]; cbn [tr] in T; [apply (ADD c cl); auto|].
  destruct s as [gl so|gl us|v|v sm|cl|rd cl hs|us|cl pf|b|m|l|core hs| ]; cbn [step_eff] in T;
    try (destruct T as (A&B&_); apply SAME; [rewrite B; reflexivity|apply A|reflexivity]).
  - destruct T as [_ P _ _ _ S _]. apply SAME; [rewrite S; reflexivity|exact P|reflexivity].
  - apply (ADD (next_step c) cl); auto.
  - destruct T as [st1 id r hints T IMP _ SE S EM].
    assert (US1 : s_unsat st1 = false) by (rewrite S in US; destruct rd; exact US).
    split; [destruct (store_eff_state _ _ _ _ _ _ _ _ SE) as [E|E]; rewrite E in US1; [exact US1|discriminate]|].
    rewrite (store_copies _ _ _ _ _ _ _ _ lits red LL SE). cbn [copy_event]. rewrite (same_lits_canon _ _ SS). reflexivity.
  - assert (G : forall x x', unit_chain x us x' -> s_unsat (c_state x') = false -> s_unsat (c_state x) = false /\
      Z.of_N (copies_in (aclauses (c_clauses x')) lits red) = Z.of_N (copies_in (aclauses (c_clauses x)) lits red)).
    { clear - LL. intros x x' T. induction T as [x x' Q P|x l h rest x1 x' id r hints _ _ SE EM _ IH]; intros US.
      - destruct Q as [q1 q2 _ _]. split; [congruence|]. rewrite (copies_perm _ _ _ _ (sd_clauses _ _ q1)). reflexivity.
      - destruct (IH US) as [A B]. split; [destruct (store_eff_state _ _ _ _ _ _ _ _ SE) as [E|E]; rewrite E in A; [exact A|discriminate]|].
        rewrite B, (store_copies _ _ _ _ _ _ _ _ lits red LL SE).
        destruct (lits_eqb [l] lits) eqn:E; [apply lits_eqb_iff in E; subst lits; cbn in LL; lia|]. cbn [andb]. lia. }
    destruct (G _ _ T US) as [A B]. split; [exact A|]. rewrite B. cbn [copy_event]. change (c_clauses (next_step c)) with (c_clauses c). lia.
  - destruct T as [id r T DE UN UC NX S R]. split; [rewrite S in US; exact US|].
    rewrite (delete_copies _ _ _ _ _ _ lits red DE). cbn [copy_event]. rewrite (same_lits_canon _ _ SS).
    change (c_clauses (next_step c)) with (c_clauses c). unfold is_red. destruct (_ && _); lia.
Qed.

Lemma count_run lits red : strict lits -> forall es c c' u, Inv c -> Forall event_u32 es -> run c es = ROk u c' ->
  s_unsat (c_state c') = false ->
  s_unsat (c_state c) = false /\
  Z.of_N (copies_in (aclauses (c_clauses c')) lits red) = (Z.of_N (copies_in (aclauses (c_clauses c)) lits red) + copy_count lits red es)%Z.
Proof.
  intros ST. apply (run_ind (fun c es c' => s_unsat (c_state c') = false ->
    s_unsat (c_state c) = false /\ Z.of_N (copies_in (aclauses (c_clauses c')) lits red) = (Z.of_N (copies_in (aclauses (c_clauses c)) lits red) + copy_count lits red es)%Z)).
  - intros c I US. cbn [copy_count]. split; [exact US|lia].
  - intros c e c1 es c' I U I1 T IH US. destruct (IH US) as [A B]. destruct (count_step _ _ _ lits red T A ST) as [C D].
    split; [exact C|]. cbn [copy_count]. lia.
Qed.

(** * Units *)
Definition holds_unit (cl : clauses) (l : N) : Prop := exists u, unit_of cl (lit_var l) = Some u /\ uc_value u = is_positive l.

Lemma lit_same a b : lit_var a = lit_var b -> is_positive a = is_positive b -> a = b.
Proof.
  change (lit_var a) with (N.div2 a). change (lit_var b) with (N.div2 b). rewrite !is_pos_neg, !is_negative_odd. intros H1 H2.
  rewrite (N.div2_odd a), (N.div2_odd b). rewrite H1. destruct (N.odd a), (N.odd b); cbn in *; congruence.
Qed.

Lemma store_units st cl lits red st' cl' id r : store_eff st cl lits red st' cl' id r -> s_unsat st' = false ->
  forall l, holds_unit cl' l <-> holds_unit cl l \/ lits = [l].
Proof.
  intros H US l. unfold holds_unit. destruct H; subst; try discriminate.
  - split; [intros (u&HA&HB); left; exists u; rewrite <- H2; auto|]. intros [(u&HA&HB)|E]; [exists u; rewrite H2; auto|].
    inversion E; subst. exists (UC (Global id) (is_positive l)). rewrite H2. auto.
  - split.
    + intros (u&HA&HB). rewrite H3 in HA. destruct (N.eqb_spec (lit_var l0) (lit_var l)) as [E|NE]; [right|left; eauto].
      inversion HA; subst. cbn in HB. f_equal. apply lit_same; auto.
    + intros [(u&HA&HB)|E].
      * exists u. rewrite H3. destruct (N.eqb_spec (lit_var l0) (lit_var l)) as [E|NE]; [rewrite E in H2; congruence|auto].
      * inversion E; subst. eexists. rewrite H3, N.eqb_refl. split; reflexivity.
  - split; [intros (u&HA&HB); left; exists u; rewrite <- H4; auto|]. intros [(u&HA&HB)|E]; [exists u; rewrite H4; auto|].
    rewrite E in H. cbn in H. lia.
  - split; [intros (u&HA&HB); left; exists u; rewrite <- H3; auto|]. intros [(u&HA&HB)|E]; [exists u; rewrite H3; auto|].
    rewrite E in H. cbn in H. lia.
Qed.

Lemma canon_unit cl l : canon cl = [l] <-> exists r, cl = l :: r /\ same_lits cl [l] = true.
Proof.
  split.
  - intros H. destruct cl as [|x r]; [discriminate|].
    assert (X : forall y, In y (x :: r) <-> In y [l]) by (intros y; rewrite <- H; symmetry; apply canonical_in).
    assert (x = l) by (destruct (proj1 (X x) (or_introl eq_refl)) as [E|[]]; auto). subst x.
    exists r. split; [reflexivity|]. apply same_lits_iff. exact X.
  - intros (r&->&H). rewrite (same_lits_canon _ [l]) in H; [apply lits_eqb_iff; exact H|]. repeat constructor.
Qed.

Lemma unit_event_clause us cl l : In l (match cl with x :: _ => if same_lits cl [x] then x :: us else us | [] => us end) <-> In l us \/ canon cl = [l].
Proof.
  rewrite canon_unit. destruct cl as [|x r]; [split; [auto|intros [H|(r&E&_)]; [exact H|discriminate]]|].
  destruct (same_lits (x :: r) [x]) eqn:E; cbn [In].
  - split; [intros [<-|H]; [right; exists r; auto|auto]|]. intros [H|(r'&X&Y)]; [auto|]. inversion X; auto.
  - split; [auto|]. intros [H|(r'&X&Y)]; [exact H|]. inversion X; subst. congruence.
Qed.

Lemma units_step c e c' us : tr c e c' -> Inv c -> event_u32 e -> s_unsat (c_state c') = false ->
  (forall l, holds_unit (c_clauses c) l <-> In l us) ->
  forall l, holds_unit (c_clauses c') l <-> In l (unit_event us e).
Proof.
  intros T I EU US H.
  assert (SAME : (forall v, unit_of (c_clauses c') v = unit_of (c_clauses c) v) -> forall l, holds_unit (c_clauses c') l <-> In l us).
  { intros U l. rewrite <- H. unfold holds_unit. rewrite U. reflexivity. }
  assert (ADD : forall x cl, s_unsat (c_state x) = s_unsat (c_state c) -> c_clauses x = c_clauses c -> add_eff x cl c' ->
    forall l, holds_unit (c_clauses c') l <-> In l us \/ canon cl = [l]).
  { intros x cl SX CX AE l. destruct AE as [E ->|E T' S1 V1 C1 EM|cl1 id r E T' SE R]; [congruence| |].
    - rewrite C1, CX. change (holds_unit (with_next_id (c_clauses c) (next_clause_id (c_clauses c) + 1)) l) with (holds_unit (c_clauses c) l).
      rewrite H. split; [auto|]. intros [X|X]; [exact X|]. exfalso. apply canonical_taut in T' as (y&Y1&Y2).
      apply (proj2 (canonical_in _ _)) in Y1. apply (proj2 (canonical_in _ _)) in Y2. fold (canon cl) in Y1, Y2. rewrite X in *.
      destruct Y1 as [<-|[]]. destruct Y2 as [Y2|[]]. rewrite lnot_val2 in Y2. destruct (N.odd l) eqn:O; [|lia].
      destruct l; [discriminate|lia].
    - replace (holds_unit (c_clauses c') l) with (holds_unit cl1 l) by (destruct r; destruct R as [-> _]; reflexivity).
      rewrite (store_units _ _ _ _ _ _ _ _ SE US), CX, H. reflexivity. }
  destruct e as [cl|s]; cbn [tr] in T.
  { intros l. rewrite (ADD c cl eq_refl eq_refl T). cbn [unit_event]. symmetry. apply unit_event_clause. }
  destruct s as [gl so|gl ns|v|v sm|cl|rd cl hs|uc|cl pf|b|m|l|core hs| ]; cbn [step_eff] in T; cbn [unit_event];
    try (destruct T as (A&B&_); apply SAME; apply A).
  - destruct T as [_ P U _ _ S _]. intros l. rewrite filter_In, <- H. unfold holds_unit. rewrite U.
    change (N.div2 l) with (lit_var l). rewrite N.eqb_sym. change (c_clauses (next_step c)) with (c_clauses c).
    destruct (N.eqb_spec (lit_var l) v); cbn [negb]; [split; [intros (u&X&_); discriminate|intros [_ X]; discriminate]|].
    split; [intros X; auto|intros [X _]; exact X].
  - intros l. rewrite (ADD (next_step c) cl eq_refl eq_refl T). symmetry. apply unit_event_clause.
  - destruct T as [st1 id r hints T IMP _ SE S EM].
    assert (US1 : s_unsat st1 = false) by (rewrite S in US; destruct rd; exact US).
    intros l. rewrite (store_units _ _ _ _ _ _ _ _ SE US1). change (c_clauses (next_step c)) with (c_clauses c). rewrite H.
    symmetry. apply unit_event_clause.
  - assert (G : forall x x', unit_chain x uc x' -> s_unsat (c_state x') = false ->
      s_unsat (c_state x) = false /\ forall l, holds_unit (c_clauses x') l <-> In l (map fst uc) \/ holds_unit (c_clauses x) l).
    { clear. intros x x' T. induction T as [x x' Q P|x l h rest x1 x' id r hints _ _ SE EM _ IH]; intros US.
      - destruct Q as [q1 q2 _ _]. split; [congruence|]. intros l. unfold holds_unit. rewrite (sd_units _ _ q1). cbn. tauto.
      - destruct (IH US) as [A B]. split; [destruct (store_eff_state _ _ _ _ _ _ _ _ SE) as [E|E]; rewrite E in A; [exact A|discriminate]|].
        intros l'. rewrite B, (store_units _ _ _ _ _ _ _ _ SE A). cbn [map fst In].
        assert (X : [l] = [l'] <-> l = l') by (split; congruence). rewrite X. tauto. }
    destruct (G _ _ T US) as [_ B]. intros l. rewrite B, in_app_iff. change (c_clauses (next_step c)) with (c_clauses c). rewrite H. tauto.
  - destruct T as [id r T DE UN UC NX S R]. apply SAME. exact UN.
Qed.

Lemma unsat_back c e c' : tr c e c' -> s_unsat (c_state c') = false -> s_unsat (c_state c) = false.
Proof.
  intros T US. destruct (count_step c e c' [0;2] true T US) as [A _]; [|exact A]. split; [repeat constructor|]. split; [cbn; lia|].
  intros l [<-|[<-|[]]] [E|[E|[]]]; discriminate.
Qed.

Lemma units_run c0 : Inv c0 -> (forall l, ~ holds_unit (c_clauses c0) l) -> forall es c u, Forall event_u32 es -> run c0 es = ROk u c ->
  s_unsat (c_state c) = false -> forall l, holds_unit (c_clauses c) l <-> In l (known_units es).
Proof.
  intros I0 E0 es c u F R.
  refine (run_ind_r (fun es c => s_unsat (c_state c) = false -> forall l, holds_unit (c_clauses c) l <-> In l (known_units es)) c0 I0 _ _ es c u F R).
  - intros _ l. split; [intros H; exfalso; apply (E0 l H)|intros []].
  - intros es1 c1 e c2 I U I1 T IH US. unfold known_units. rewrite fold_left_app. cbn [fold_left].
    apply (units_step _ _ _ _ T I U US). apply IH. eapply unsat_back; eassumption.
Qed.

(** * Identifiers *)
(** the identifier a step introduces *)
Definition new_id (k : checked_step) : list N :=
  match k with KAddClause i _ | KDuplicatedClause i _ _ | KTautologicalClause i _ | KAtClause i _ _ _ => [i] | _ => [] end.

Definition ids_ok (c : ctx) : Prop :=
  let ids := flat_map new_id (proc_log (c_proc c)) in ssorted ids /\ Forall (fun i => i < next_clause_id (c_clauses c)) ids.

Lemma ssorted_snoc l x : ssorted l -> Forall (fun i => i < x) l -> ssorted (l ++ [x]).
Proof.
  intros S F. induction l as [|y l IH]; [repeat constructor|]. cbn [app]. apply ssorted_cons in S as [S1 S2]. inversion F; subst.
  apply ssorted_cons. split; [auto|]. apply Forall_app. split; [exact S2|repeat constructor; assumption].
Qed.

Lemma ids_grow c c' ks : proc_log (c_proc c') = proc_log (c_proc c) ++ ks -> ids_ok c ->
  (flat_map new_id ks = [] /\ next_clause_id (c_clauses c) <= next_clause_id (c_clauses c') \/
   flat_map new_id ks = [next_clause_id (c_clauses c)] /\ next_clause_id (c_clauses c) < next_clause_id (c_clauses c')) -> ids_ok c'.
Proof.
  intros E [S F] [[K N]|[K N]]; unfold ids_ok; rewrite E, flat_map_app, K.
  - rewrite app_nil_r. split; [exact S|]. eapply Forall_impl; [|exact F]. cbn. intros. lia.
  - split; [apply ssorted_snoc; assumption|]. apply Forall_app. split; [|repeat constructor; exact N].
    eapply Forall_impl; [|exact F]. cbn. intros. lia.
Qed.

Lemma store_next st cl lits red st' cl' id r : store_eff st cl lits red st' cl' id r ->
  (r = SNew /\ id = next_clause_id cl /\ next_clause_id cl' = next_clause_id cl + 1) \/ (r <> SNew /\ next_clause_id cl' = next_clause_id cl).
Proof. intros H. destruct H; subst; auto; right; split; auto; try discriminate. destruct (_ && _); discriminate. Qed.

Lemma ids_step c e c' : tr c e c' -> ids_ok c -> ids_ok c'.
Proof.
  intros T OK.
  assert (ADD : forall x cl, c_clauses x = c_clauses c -> c_proc x = c_proc c -> add_eff x cl c' -> ids_ok c').
  { intros x cl CX PX AE. destruct AE as [E ->|E T' S1 V1 C1 [EM _ _ _]|cl1 id r E T' SE R].
    - unfold ids_ok. rewrite CX, PX. exact OK.
    - rewrite PX, CX in EM. apply (ids_grow _ _ _ EM OK). right. rewrite C1, CX. cbn [flat_map new_id app with_next_id next_clause_id]. split; [reflexivity|lia].
    - destruct (store_next _ _ _ _ _ _ _ _ SE) as [(->&->&N)|(NR&N)]; rewrite CX in *.
      + destruct R as [R [EM _ _ _]]. rewrite PX in EM. apply (ids_grow _ _ _ EM OK). right. rewrite R. split; [reflexivity|lia].
      + destruct r; [congruence| |]; destruct R as [R [EM _ _ _]]; rewrite PX in EM; apply (ids_grow _ _ _ EM OK); right;
          rewrite R, N; cbn [app flat_map new_id with_next_id next_clause_id]; (split; [reflexivity|lia]). }
  assert (QUIET : forall ks, proc_log (c_proc c') = proc_log (c_proc c) ++ ks -> flat_map new_id ks = [] ->
     next_clause_id (c_clauses c') = next_clause_id (c_clauses c) -> ids_ok c').
  { intros ks E K N. apply (ids_grow _ _ _ E OK). left. split; [exact K|lia]. }
  destruct e as [cl|s]; cbn [tr] in T; [apply (ADD c cl); auto|].
  destruct s as [gl so|gl us|v|v sm|cl|red cl hs|us|cl pf|b|m|l|core hs| ]; cbn [step_eff] in T.
  1,2,4,9: destruct T as (A&B&ks&[EM _ _ _]&KS); apply (QUIET ks EM); [|apply A];
    clear - KS; induction KS as [|k ks HK _ IH]; [reflexivity|]; destruct k; try contradiction; exact IH.
  - destruct T as [_ _ _ _ NX _ [EM _ _ _]]. apply (QUIET _ EM); [|exact NX]. destruct (unit_of _ v) as [[[] ?]|]; reflexivity.
  - apply (ADD (next_step c) cl); auto.
  - destruct T as [st1 id r hints T IMP _ SE S [EM _ _ _]]. destruct (store_next _ _ _ _ _ _ _ _ SE) as [(->&->&N)|(NR&N)].
    + apply (ids_grow _ _ _ EM OK). right. split; [reflexivity|]. rewrite N. change (c_clauses (next_step c)) with (c_clauses c). lia.
    + apply (QUIET _ EM); [destruct r; [congruence|reflexivity|reflexivity]|exact N].
  - assert (G : forall x x', unit_chain x us x' -> ids_ok x -> ids_ok x').
    { clear. intros x x' T. induction T as [x x' Q P|x l h rest x1 x' id r hints _ _ SE [EM _ _ _] _ IH]; intros OK.
      - destruct Q as [q1 q2 _ _]. unfold ids_ok. rewrite P, (sd_next _ _ q1). exact OK.
      - apply IH. destruct (store_next _ _ _ _ _ _ _ _ SE) as [(->&->&N)|(NR&N)]; apply (ids_grow _ _ _ EM OK).
        + right. split; [reflexivity|lia].
        + left. destruct r; [congruence| |]; (split; [reflexivity|lia]). }
    apply (G _ _ T OK).
  - destruct T as [id r T DE UN UC NX ST R]. destruct (is_red pf); [destruct R as [EM _ _ _]|destruct R as (s&_&[EM _ _ _])];
      apply (QUIET _ EM); try exact NX; destruct r; reflexivity.
  - destruct T as (A&B&[EM _ _ _]&_). apply (QUIET _ EM); [reflexivity|apply A].
  - destruct T as (A&B&[EM _ _ _]). apply (QUIET _ EM); [reflexivity|apply A].
  - destruct T as (A&B&_&_&hints&[EM _ _ _]&_). apply (QUIET _ EM); [reflexivity|apply A].
  - destruct T as (A&B&[EM _ _ _]). apply (QUIET _ EM); [reflexivity|apply A].
Qed.

Lemma ids_run : forall es c c' u, Inv c -> Forall event_u32 es -> run c es = ROk u c' -> ids_ok c -> ids_ok c'.
Proof.
  apply (run_ind (fun c es c' => ids_ok c -> ids_ok c')); auto.
  intros c e c1 es c' I U I1 T IH O. apply IH. eapply ids_step; eassumption.
Qed.
