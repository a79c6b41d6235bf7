(** Proofs that are valid: which steps a correct proof may contain next, stated with the history
    of the proof only.  The checker accepts them all. *)
From Coq Require Import Arith ZArith ZifyBool ZifyNat ZifyN Permutation Sorted.
From Verif Require Import Spec Lit LitProofs Vec SortedLits SortedLitsProofs Hash HashProofs Vli BinFormat Checker CheckerStore CheckerInv CheckerOps CheckerRup CheckerSteps CheckerRun CheckerCount CheckerSafe CheckerNames CheckerUsers Rup CheckerAccept.

(** * What a history leaves behind *)

(** The clauses with at least two literals, sorted and with repetitions, each with a flag telling
    whether that copy is redundant; the literals known to be true; whether the empty clause was
    added or derived. *)
Record db := DB { db_cls : list (list N * bool); db_units : list N; db_unsat : bool }.
Definition entry_eq : forall a b : list N * bool, {a = b} + {a <> b}.
Proof. decide equality; [apply Bool.bool_dec|apply (list_eq_dec N.eq_dec)]. Defined.
Fixpoint remove_one (x : list N * bool) (l : list (list N * bool)) : list (list N * bool) :=
  match l with [] => [] | y :: r => if entry_eq y x then r else y :: remove_one x r end.
Definition db_store (d : db) (lits : list N) (red : bool) : db :=
  match lits with
  | [] => DB (db_cls d) (db_units d) true
  | [l] => if mem l (db_units d) then d
           else if mem (lnot l) (db_units d) then DB (db_cls d) (db_units d) true
           else DB (db_cls d) (l :: db_units d) (db_unsat d)
  | _ => DB ((lits, red) :: db_cls d) (db_units d) (db_unsat d)
  end.
Definition db_event (d : db) (e : event) : db :=
  match e with
  | Load cl | Step (AddClause cl) => if db_unsat d || taut cl then d else db_store d (canon cl) false
  | Step (AtClause red cl _) => db_store d (canon cl) red
  | Step (UnitClauses us) => fold_left (fun d u => db_store d [fst u] false) us d
  | Step (DeleteClause cl p) => DB (remove_one (canon cl, is_red p) (db_cls d)) (db_units d) (db_unsat d)
  | Step (DeleteVar v) => DB (db_cls d) (filter (fun l => negb (lit_var l =? v)) (db_units d)) (db_unsat d)
  | _ => d
  end.
Definition db_empty : db := DB [] [] false.
Definition db_after (es : list event) : db := fold_left db_event es db_empty.

(** * Valid steps *)

(** A clause follows from a literal known to be true or from the clauses with the given hashes by
    unit propagation.  The variables of the clauses used have a name for hashing or never had one. *)
Definition derivable (es : list event) (d : db) (lits hashes : list N) : Prop :=
  (exists l, In l lits /\ In l (db_units d)) \/
  exists cs K, hashes = map (clause_key (current_names es) (current_bits es)) cs /\
    (forall D, In D cs -> (exists red, In (D, red) (db_cls d)) /\ forall l, In l D -> current_names es (lit_var l) <> None \/ never_named es (lit_var l)) /\
    (forall x, In x K -> In (lnot x) lits \/ In x (db_units d)) /\ rup K cs.
Fixpoint derivable_units (es : list event) (d : db) (us : list (N * N)) : Prop :=
  match us with
  | [] => True
  | (l, h) :: r => derivable es d [l] [h] /\ derivable_units es (db_store d [l] false) r
  end.
(** A variable that is at most one that has been announced *)
Definition announced (es : list event) (v : N) : Prop := exists w x, In (Step (UserVarName w x)) es /\ v <= w.

Definition valid (es : list event) (e : event) : Prop :=
  let d := db_after es in
  match e with
  | Load cl | Step (AddClause cl) =>
      db_unsat d = true \/ taut cl = true \/ Forall (fun l => var_modes es (lit_var l) = Sample) cl
  | Step (AtClause _ cl hashes) => taut cl = false /\ derivable es d (canon cl) hashes
  | Step (UnitClauses us) => derivable_units es d us
  | Step (DeleteClause cl p) =>
      taut cl = false /\ In (canon cl, is_red p) (db_cls d) /\
      match p with
      | DRedundant => True
      | DSatisfied => exists l, In l cl /\ In l (db_units d)
      | DSimplified => exists prev, last_irred es = Some prev /\ incl prev cl /\ ~ incl cl prev
      end
  | Step (SolverVarName _ _) | Step End => True
  | Step (UserVarName v (Some u)) =>
      user_names es v = None /\ var_modes es v <> Hide /\ (forall w, user_names es w <> Some u) /\ (u <= v \/ announced es u)
  | Step (UserVarName v None) => user_names es v <> None
  | Step (DeleteVar v) =>
      v < 2^31 /\ user_names es v = None /\ forall D red, In (D, red) (db_cls d) -> forall l, In l D -> lit_var l <> v
  | Step (ChangeSamplingMode v b) => b = false \/ var_modes es v = Sample \/ user_names es v <> None
  | Step (ChangeHashBits b) => 1 <= b /\ b <= 64
  | Step (Model m) =>
      Forall (fun l => announced es (lit_var l)) m /\ (forall l, In l m -> ~ In (lnot l) m) /\
      (forall l, In l m -> ~ In (lnot l) (db_units d)) /\ incl (assumed es) m /\
      forall D red, In (D, red) (db_cls d) -> exists l, In l D /\ In l m
  | Step (Assumptions l) => Forall (fun x => var_modes es (lit_var x) = Sample) l
  | Step (FailedAssumptions core hashes) =>
      incl core (assumed es) /\
      (taut core = true \/ derivable es d (map lnot (canon core)) hashes)
  end.

(** * The checker's clauses *)

Record sync (d : db) (unsat : bool) (cl : clauses) : Prop := {
  sy_cls : forall lits red, (2 <= length lits)%nat -> copies_in (aclauses cl) lits red = N.of_nat (count_occ entry_eq (db_cls d) (lits, red));
  sy_len : forall D red, In (D, red) (db_cls d) -> (2 <= length D)%nat;
  sy_units : forall l, holds_unit cl l <-> In l (db_units d);
  sy_unsat : unsat = db_unsat d }.

Lemma count_remove x y l : count_occ entry_eq (remove_one x l) y = (count_occ entry_eq l y - if entry_eq x y then 1 else 0)%nat.
Proof.
  induction l as [|z l IH]; [cbn; lia|]. cbn [remove_one]. destruct (entry_eq z x) as [->|NE].
  - cbn [count_occ]. destruct (entry_eq x y); lia.
  - cbn [count_occ]. rewrite IH. destruct (entry_eq z y) as [->|]; [|reflexivity]. destruct (entry_eq x y); [congruence|lia].
Qed.
Lemma remove_incl x l : incl (remove_one x l) l.
Proof. induction l as [|z l IH]; intros y H; [destruct H|]. cbn [remove_one] in H. destruct (entry_eq z x); [right; exact H|]. destruct H as [<-|H]; [left; reflexivity|right; auto]. Qed.

Lemma sync_same d u cl cl' : sync d u cl -> Permutation (aclauses cl') (aclauses cl) -> (forall v, unit_of cl' v = unit_of cl v) -> sync d u cl'.
Proof.
  intros [A B C D] P U. split; [|exact B| |exact D].
  - intros lits red L. rewrite (copies_perm _ _ _ _ P). auto.
  - intros l. rewrite <- C. unfold holds_unit. rewrite U. reflexivity.
Qed.
Lemma holds_conflict cl l : holds_unit cl l -> ~ holds_unit cl (lnot l).
Proof. intros (u&A&B) (u'&A'&B'). rewrite lnot_var in A'. rewrite A in A'. inversion A'; subst u'. rewrite B, !is_pos_neg, lnot_sign in B'. destruct (is_negative l); discriminate. Qed.
Lemma sync_store d st cl lits red st' cl' id r : sync d (s_unsat st) cl -> store_eff st cl lits red st' cl' id r ->
  sync (db_store d lits red) (s_unsat st') cl'.
Proof.
  intros S E. pose proof S as [A B C D].
  assert (M : forall l, mem l (db_units d) = true <-> holds_unit cl l) by (intros; rewrite mem_iff; symmetry; apply C).
  assert (CP : (2 <= length lits)%nat -> forall x rd, (2 <= length x)%nat ->
     copies_in (aclauses cl') x rd = N.of_nat (count_occ entry_eq ((lits, red) :: db_cls d) (x, rd))).
  { intros L x rd LX. pose proof (store_copies _ _ _ _ _ _ _ _ x rd LX E) as Q. rewrite (A x rd LX) in Q. cbn [count_occ].
    destruct (entry_eq (lits, red) (x, rd)) as [EQ|NE].
    - inversion EQ; subst. rewrite lits_eqb_refl, eqb_reflx in Q. cbn [andb] in Q. lia.
    - destruct (lits_eqb lits x) eqn:E1; cbn [andb] in Q; [|lia]. apply lits_eqb_iff in E1. subst. destruct (Bool.eqb red rd) eqn:E2; [|lia].
      apply eqb_prop in E2. subst. congruence. }
  assert (UN : (2 <= length lits)%nat -> (forall v, unit_of cl' v = unit_of cl v) -> s_unsat st' = s_unsat st -> sync (db_store d lits red) (s_unsat st') cl').
  { intros L U SU. destruct lits as [|a [|b t]]; cbn in L; try lia. cbn [db_store]. split; cbn [db_cls db_units db_unsat].
    - apply CP. exact L.
    - intros D0 rd [EQ|IN]; [inversion EQ; subst; exact L|eauto].
    - intros l. rewrite <- C. unfold holds_unit. rewrite U. reflexivity.
    - congruence. }
  destruct E; subst.
  - destruct (sync_same _ _ _ cl' S H1 H2) as [A' B' C' D']. cbn [db_store]. split; auto. 
  - assert (HU : holds_unit cl l) by (exists (UC (Global id) (is_positive l)); auto). cbn [db_store]. rewrite (proj2 (M l) HU).
    apply (sync_same _ _ _ cl' S H1 H2).
  - assert (HU : holds_unit cl (lnot l)). { exists (UC (Global cid) (is_negative l)). rewrite lnot_var. split; [assumption|]. cbn [uc_value]. rewrite is_pos_neg, lnot_sign, negb_involutive. reflexivity. }
    cbn [db_store]. destruct (mem l (db_units d)) eqn:ML; [apply M in ML; destruct (holds_conflict _ _ ML HU)|]. rewrite (proj2 (M _) HU).
    destruct (sync_same _ _ _ cl' S H1 H2) as [A' B' C' D']. split; auto.
  - assert (NU : forall x, holds_unit cl x -> lit_var x <> lit_var l) by (intros x (u&X&_) EQ; rewrite EQ in X; congruence).
    cbn [db_store]. destruct (mem l (db_units d)) eqn:ML; [apply M in ML; destruct (NU _ ML eq_refl)|].
    destruct (mem (lnot l) (db_units d)) eqn:MN; [apply M in MN; destruct (NU _ MN (lnot_var l))|].
    split; cbn [db_cls db_units db_unsat]; [intros; rewrite (copies_perm _ _ _ _ H1); auto|exact B| |exact D].
    intros x. cbn [In]. rewrite <- C. unfold holds_unit. rewrite H3. destruct (N.eqb_spec (lit_var l) (lit_var x)) as [EQ|NE].
    + split; [intros (u&X&Y); inversion X; subst; left; apply lit_same; [exact EQ|exact Y]|].
      intros [->|X]; [eexists; split; reflexivity|]. destruct (NU x X). congruence.
    + split; [auto|]. intros [->|X]; [congruence|exact X].
  - apply UN; auto.
  - apply UN; auto.
Qed.
Lemma sync_delete d u cl lits red cl' id r : sync d u cl -> delete_eff cl lits red cl' (inl (id, r)) ->
  (forall v, unit_of cl' v = unit_of cl v) -> sync (DB (remove_one (lits, red) (db_cls d)) (db_units d) (db_unsat d)) u cl'.
Proof.
  intros [A B C D] E U. split; cbn [db_cls db_units db_unsat]; [| | |exact D].
  - intros x rd L. pose proof (delete_copies _ _ _ _ _ _ x rd E) as Q. rewrite (A x rd L) in Q. rewrite count_remove.
    destruct (entry_eq (lits, red) (x, rd)) as [EQ|NE].
    + inversion EQ; subst. rewrite lits_eqb_refl, eqb_reflx in Q. cbn [andb] in Q. lia.
    + destruct (lits_eqb lits x) eqn:E1; cbn [andb] in Q; [|lia]. apply lits_eqb_iff in E1. subst. destruct (Bool.eqb red rd) eqn:E2; [|lia].
      apply eqb_prop in E2. subst. congruence.
  - intros D0 rd IN. apply remove_incl in IN. eauto.
  - intros l. rewrite <- C. unfold holds_unit. rewrite U. reflexivity.
Qed.
Lemma sync_chain us : forall d c c', unit_chain c us c' -> sync d (s_unsat (c_state c)) (c_clauses c) ->
  sync (fold_left (fun d u => db_store d [fst u] false) us d) (s_unsat (c_state c')) (c_clauses c').
Proof.
  intros d c c' T. revert d. induction T as [x x' Q P|x l h rest x1 x' id r hints _ _ SE EM _ IH]; intros d S.
  - destruct Q as [[q1 q2 _ _] q3 _ _]. rewrite q3. cbn [fold_left]. apply (sync_same _ _ _ _ S q1 q2).
  - cbn [fold_left fst]. apply IH. apply (sync_store _ _ _ _ _ _ _ _ _ S SE).
Qed.
Lemma sync_step d c e c' : tr c e c' -> sync d (s_unsat (c_state c)) (c_clauses c) -> sync (db_event d e) (s_unsat (c_state c')) (c_clauses c').
Proof.
  intros T S.
  assert (ADD : forall x cl, s_unsat (c_state x) = s_unsat (c_state c) -> c_clauses x = c_clauses c -> c_state x = c_state x -> add_eff x cl c' ->
    sync (if db_unsat d || taut cl then d else db_store d (canon cl) false) (s_unsat (c_state c')) (c_clauses c')).
  { intros x cl SX CX _ AE. rewrite <- (sy_unsat _ _ _ S), <- SX. destruct AE as [E ->|E T' S1 V1 C1 EM|cl1 id r E T' SE R].
    - rewrite E. cbn [orb]. rewrite CX, <- E, SX. exact S.
    - rewrite E, T'. cbn [orb]. rewrite S1, SX, C1, CX. apply (sync_same _ _ _ _ S); [apply Permutation_refl|reflexivity].
    - rewrite E, T'. cbn [orb]. rewrite CX in SE. assert (S0 : sync d (s_unsat (c_state x)) (c_clauses c)) by (rewrite SX; exact S).
      pose proof (sync_store _ _ _ _ _ _ _ _ _ S0 SE) as Q.
      apply (sync_same _ _ _ _ Q); destruct r; destruct R as [-> _]; try reflexivity; apply Permutation_refl. }
  assert (SAME : same_db (c_clauses c) (c_clauses c') -> s_unsat (c_state c') = s_unsat (c_state c) -> sync d (s_unsat (c_state c')) (c_clauses c')).
  { intros A ->. apply (sync_same _ _ _ _ S); apply A. }
  destruct e as [cl|s]; cbn [tr] in T; [apply (ADD c cl); auto|].
  destruct s as [gl so|gl us|v|v sm|cl|rd cl hs|us|cl pf|b|m|l|core hs| ]; cbn [step_eff] in T; cbn [db_event];
    try (destruct T as (A&B&_); apply SAME; [exact A|rewrite B; reflexivity]).
  - destruct T as [_ P U _ _ S' _]. rewrite S'. destruct S as [A B C D]. split; cbn [db_cls db_units db_unsat]; [|exact B| |exact D].
    + intros lits red L. rewrite (copies_perm _ _ _ _ P). apply A. exact L.
    + intros l. rewrite filter_In, <- C. unfold holds_unit. rewrite U, N.eqb_sym. change (c_clauses (next_step c)) with (c_clauses c).
      destruct (N.eqb_spec (lit_var l) v); cbn [negb]; [split; [intros (u&X&_); discriminate|intros [_ X]; discriminate]|].
      split; [intros X; auto|intros [X _]; exact X].
  - apply (ADD (next_step c) cl); auto.
  - destruct T as [st1 id r hints T IMP _ SE S' EM].
    replace (s_unsat (c_state c')) with (s_unsat st1) by (rewrite S'; destruct rd; reflexivity).
    apply (sync_store d (c_state (next_step c)) (c_clauses (next_step c)) _ _ _ _ _ _ S SE).
  - apply (sync_chain us d _ _ T). exact S.
  - destruct T as [id r T DE UN UC NX S' R]. rewrite S'. apply (sync_delete d _ (c_clauses (next_step c)) _ _ _ _ _ S DE UN).
Qed.
Lemma sync_new p t pf tf sh : sync db_empty false (c_clauses (checker_new p t pf tf sh)).
Proof. split; cbn; [reflexivity|intros ? ? []| |reflexivity]. intros l. split; [|intros []]. intros (u&X&_). unfold unit_of in X. cbn in X. rewrite vget_nil in X. discriminate. Qed.

(** * Acceptance *)

Definition ok {A} (r : res A) (Q : A -> ctx -> Prop) : Prop := exists x c, r = ROk x c /\ Q x c.
Lemma ok_bind {A B} (r : res A) (k : A -> ctx -> res B) Q : ok r (fun x c => ok (k x c) Q) -> ok (bind r k) Q.
Proof. intros (x&c&->&H). exact H. Qed.
Lemma ok_ret {A} (x : A) c (Q : A -> ctx -> Prop) : Q x c -> ok (ROk x c) Q.
Proof. intros H. exists x, c. auto. Qed.
Lemma ok_weaken {A} (r : res A) (Q R : A -> ctx -> Prop) : (forall x c, Q x c -> R x c) -> ok r Q -> ok r R.
Proof. intros H (x&c&E&q). exists x, c. auto. Qed.

(** No processor fails and there is no transcript. *)
Definition calm (c : ctx) : Prop := (forall n, proc_fail (c_proc c) n = false) /\ has_transcripts (c_proc c) = false.
Definition calmer (c c' : ctx) : Prop := calm c' /\ nvars (c_vars c) <= nvars (c_vars c').
Lemma calm_proc c c' : calm c -> c_proc c' = c_proc c -> calm c'.
Proof. unfold calm. intros H ->. exact H. Qed.
Lemma calmer_eq c c' : calm c -> c_proc c' = c_proc c -> c_vars c' = c_vars c -> calmer c c'.
Proof. intros H E V. split; [eapply calm_proc; eassumption|rewrite V; lia]. Qed.
Lemma calmer_trans a b c : calmer a b -> calmer b c -> calmer a c.
Proof. intros [_ A] [B C]. split; [exact B|lia]. Qed.
Lemma calmer_vext c c' : calm c -> c_proc c' = c_proc c -> vext (c_vars c) (c_vars c') -> calmer c c'.
Proof. intros H E V. split; [eapply calm_proc; eassumption|apply V]. Qed.
Lemma ok_process c k (Q : unit -> ctx -> Prop) : calm c -> (forall p, calm (with_proc c p) -> Q tt (with_proc c p)) -> ok (process_step c k) Q.
Proof.
  intros [F T] H. unfold process_step. rewrite F, andb_false_r, T. apply ok_ret, H. split; [exact F|reflexivity].
Qed.
Lemma ok_process' c0 c k : calmer c0 c -> ok (process_step c k) (fun _ c' => calmer c0 c').
Proof. intros [K G]. apply ok_process; [exact K|]. intros p KP. split; [exact KP|exact G]. Qed.

(** What is known about the checker after a history *)
Record RI (es : list event) (c : ctx) : Prop := {
  ri_si : SI (history_size es) c;
  ri_hash : hash_inv es (c_hasher c);
  ri_names : names_inv es c;
  ri_sync : sync (db_after es) (s_unsat (c_state c)) (c_clauses c);
  ri_as : s_assumptions (c_state c) = canon (assumed es);
  ri_prev : forall cl, last_irred es = Some cl -> s_prev_id (c_state c) <> None /\ s_prev_lits (c_state c) = canon cl;
  ri_calm : calm c;
  ri_nv : forall w x, In (Step (UserVarName w x)) es -> w < nvars (c_vars c) }.

Lemma announced_lt es c v : RI es c -> announced es v -> v < nvars (c_vars c).
Proof. intros R (w&x&A&B). pose proof (ri_nv _ _ R w x A). lia. Qed.
Lemma stored_entry d u cl D red : sync d u cl -> In (D, red) (db_cls d) -> In D (map a_lits (aclauses cl)).
Proof.
  intros S H. pose proof (sy_cls _ _ _ S D red (sy_len _ _ _ S _ _ H)) as Q. apply (count_occ_In entry_eq) in H.
  destruct (in_dec (list_eq_dec N.eq_dec) D (map a_lits (aclauses cl))) as [I|NI]; [exact I|]. exfalso.
  assert (Z : copies_in (aclauses cl) D red = 0); [|lia]. clear - NI. induction (aclauses cl) as [|x A IH]; [reflexivity|].
  rewrite copies_cons, IH by (intros X; apply NI; right; exact X). destruct (lits_eqb (a_lits x) D) eqn:E; [|reflexivity].
  apply lits_eqb_iff in E. destruct NI. left. exact E.
Qed.
Lemma entry_stored d u h cl vs a : sync d u cl -> wf h cl vs -> In a (aclauses cl) -> exists red, In (a_lits a, red) (db_cls d).
Proof.
  intros S W H. destruct (wf_clause _ _ _ W _ H) as [_ L _ RF _].
  assert (Q : forall red, acopies red a <> 0 -> In (a_lits a, red) (db_cls d)).
  { intros red NZ. pose proof (sy_cls _ _ _ S (a_lits a) red L) as Q. apply (count_occ_In entry_eq).
    assert (Z : copies_in (aclauses cl) (a_lits a) red <> 0); [|lia]. clear - H NZ. induction (aclauses cl) as [|x A IH]; [destruct H|].
    rewrite copies_cons. destruct H as [->|H]; [rewrite lits_eqb_refl; lia|]. specialize (IH H). lia. }
  destruct RF as [RF|RF]; [exists false|exists true]; apply Q; exact RF.
Qed.

Lemma check_derivable m c es d lits hashes : SI m c -> hash_inv es (c_hasher c) ->
  sync d (s_unsat (c_state c)) (c_clauses c) -> (forall l, In l lits -> ~ In (lnot l) lits) -> derivable es d lits hashes ->
  exists c', check_clause_with_hashes c lits hashes = ROk tt c' /\ SI m c' /\ rup_ok c lits c' /\ hash_inv es (c_hasher c').
Proof.
  intros S (HB&EN&FO&NN) SY NT DV.
  assert (X : exists c', check_clause_with_hashes c lits hashes = ROk tt c').
  { destruct DV as [(l&L1&L2)|(cs&K&E&ST&HK&R)].
    - apply (check_unit_complete m c lits hashes l S L1). apply (sy_units _ _ _ SY). exact L2.
    - assert (E' : hashes = map (clause_key (eff (c_hasher c)) (hash_bits (c_hasher c))) cs).
      { rewrite E, HB. apply map_ext. intros D. unfold clause_key. f_equal. generalize 0. induction D as [|x D IH]; intros k; [reflexivity|].
        cbn [fold_left]. rewrite IH. f_equal. f_equal. unfold lit_key. rewrite EN. reflexivity. }
      rewrite E'. apply (check_complete m c lits cs K S FO NT); [| |exact R].
      + intros D HD. destruct (ST D HD) as [(red&I1) NM]. split; [eapply stored_entry; eassumption|]. intros l Hl. unfold settled. rewrite EN. destruct (NM l Hl) as [X|X]; [left; exact X|right; apply NN; exact X].
      + intros x Hx. destruct (HK x Hx) as [L|L]; [left; exact L|right; apply (sy_units _ _ _ SY); exact L]. }
  destruct X as [c' E]. exists c'. split; [exact E|]. pose proof (check_clause_wp m c lits hashes S) as WP. rewrite E in WP. destruct WP as (A&B&_).
  split; [exact A|]. split; [exact B|]. pose proof (keeps_check c lits hashes) as KP. rewrite E in KP.
  destruct KP as (P1&P2&P3&P4). split; [congruence|]. split; [intros v; rewrite P2; apply EN|]. auto.
Qed.

Lemma ok_store m c lits red : SI m c -> calm c -> good_lits lits -> m + 1 < 2^32 ->
  ok (ctx_store_clause c lits red) (fun x c' => calmer c c' /\ SI (m + 1 + N.of_nat (length lits)) c' /\
     store_eff (c_state c) (c_clauses c) lits red (c_state c') (c_clauses c') (fst x) (snd x)).
Proof.
  intros S K G M. pose proof (ctx_store_wp m c lits red S G M) as WP. destruct (ctx_store_clause c lits red) as [[id r] c'|e c'|] eqn:E.
  - destruct WP as [S' _]. destruct (ctx_store_spec _ _ _ _ _ _ (si_inv _ _ S) G E) as (_&SE&P&_&_&V). apply ok_ret. split; [apply calmer_vext; assumption|]. split; [exact S'|exact SE].
  - exfalso. unfold ctx_store_clause in E. destruct (store_clause _ _ _ _ _ _) as [[[[? ?] ?] ?]|]; discriminate.
  - destruct WP.
Qed.
Lemma ok_sampling m lits : forall c, SI m c -> calm c -> Forall (fun l => vd_mode (vd (c_vars c) (lit_var l)) = Sample) lits ->
  ok (ensure_sampling_vars c lits) (fun _ c' => calmer c c' /\ SI m c' /\ c_state c' = c_state c /\ c_clauses c' = c_clauses c' /\ c_proc c' = c_proc c).
Proof.
  induction lits as [|l lits IH]; intros c S K H; cbn [ensure_sampling_vars].
  { apply ok_ret. split; [apply calmer_eq; auto|]. auto. }
  inversion H as [|? ? H1 H2]; subst. apply ok_bind. unfold ensure_sampling_var.
  destruct (ctx_ensure_var_spec c (lit_var l) (si_inv _ _ S)) as (A1&A2&A3&A4&A5&A6&A7&A8).
  destruct (exist_vd c (lit_var l)) as (d&V&D&_). pose proof (si_ensure m c (lit_var l) S) as S1.
  destruct (vs_keep _ _ (ctx_ensure_vsame c (lit_var l))) as [KV _].
  set (c1 := ctx_ensure_var c (lit_var l)) in *. clearbody c1. rewrite V. rewrite D in H1. rewrite H1. cbn [mode_eqb]. apply ok_ret.
  assert (K1 : calm c1) by (eapply calm_proc; eassumption).
  refine (ok_weaken _ _ _ _ (IH c1 S1 K1 _)).
  - intros _ c' (B1&B2&B3&_&B4). split; [eapply calmer_trans; [apply calmer_vext; eassumption|exact B1]|]. split; [exact B2|]. split; [congruence|]. split; [reflexivity|congruence].
  - eapply Forall_impl; [|exact H2]. intros x Hx. cbn beta in *. rewrite KV. exact Hx.
Qed.
Lemma ok_add es c clause : RI es c -> lits_u32 clause -> history_size es + clause_size clause < 2^32 ->
  db_unsat (db_after es) = true \/ taut clause = true \/ Forall (fun l => var_modes es (lit_var l) = Sample) clause ->
  ok (add_clause c clause) (fun _ c' => calmer c c').
Proof.
  intros R U M V. unfold add_clause. pose proof (ri_calm _ _ R) as K. unfold clause_size in M.
  destruct (s_unsat (c_state c)) eqn:US; [apply ok_ret, calmer_eq; auto|]. rewrite canon_eq.
  destruct (taut clause) eqn:T.
  { apply ok_bind, ok_process; [exact K|]. intros p KP. apply ok_ret. split; [exact KP|]. cbn. lia. }
  destruct V as [V|[V|V]]; [rewrite <- (sy_unsat _ _ _ (ri_sync _ _ R)) in V; congruence|discriminate|].
  apply ok_bind. eapply ok_weaken; [|apply (ok_sampling (history_size es)); [apply (ri_si _ _ R)|exact K|]].
  2:{ rewrite Forall_forall in *. intros l Hl. rewrite (ni_data _ _ (ri_names _ _ R)). cbn [vd_mode]. apply V. apply (proj1 (canonical_in _ _)). exact Hl. }
  intros _ c1 (A1&A2&A3&_&A4). apply ok_bind.
  eapply ok_weaken; [|apply (ok_store (history_size es) c1 (canon clause) false A2 (proj1 A1) (canon_good _ U T)); lia].
  intros [id added] c2 (B1&B2&_). assert (CC : calmer c c2) by (eapply calmer_trans; eassumption).
  assert (FIN : forall c3, calmer c c3 -> ok (bind (process_step c3 (KDuplicatedClause (next_clause_id (c_clauses c3)) id (canon clause))) (fun _ c => ROk tt (skip_id c))) (fun _ c' => calmer c c')).
  { intros c3 C3. apply ok_bind, ok_process; [apply C3|]. intros p KP. apply ok_ret. split; [exact KP|apply C3]. }
  destruct added; [apply ok_process'; exact CC| |].
  - apply ok_bind, ok_ret, FIN, CC.
  - apply ok_bind. eapply ok_weaken; [|apply ok_process'; exact CC]. intros ? c3 C3. apply FIN, C3.
Qed.

Lemma ok_at es c red clause hashes : RI es c -> lits_u32 clause -> history_size es + clause_size clause < 2^32 ->
  taut clause = false -> derivable es (db_after es) (canon clause) hashes ->
  ok (check_at_clause_step c red clause hashes) (fun _ c' => calmer c c').
Proof.
  intros R U M T DV. unfold clause_size in M. unfold check_at_clause_step. rewrite canon_eq, T.
  destruct (check_derivable _ c es (db_after es) (canon clause) hashes (ri_si _ _ R) (ri_hash _ _ R) (ri_sync _ _ R) (good_nt _ (canon_good _ U T)) DV) as (c1&E&S1&RO&_).
  apply ok_bind. exists tt, c1. split; [exact E|].
  assert (C1 : calmer c c1) by (apply calmer_vext; [apply (ri_calm _ _ R)|apply RO|apply RO]).
  apply ok_bind. eapply ok_weaken; [|apply (ok_store _ c1 (canon clause) red S1 (proj1 C1) (canon_good _ U T)); lia].
  intros [id added] c2 (B1&B2&_). set (c3 := if red then c2 else _).
  assert (C3 : calmer c c3) by (eapply calmer_trans; [exact C1|]; eapply calmer_trans; [exact B1|]; unfold c3; destruct red; apply calmer_eq; try reflexivity; apply B1).
  destruct added; [apply ok_process'; exact C3|apply ok_ret; exact C3|apply ok_process'; exact C3].
Qed.

Lemma single_good l : l < 2^32 -> good_lits [l].
Proof.
  intros H. split; [repeat constructor|]. split; [|constructor; [exact H|constructor]]. intros x [<-|[]] [X|[]]. symmetry in X. exact (lnot_neq _ X).
Qed.
Lemma ok_units m es units : forall c d, SI m c -> calm c -> hash_inv es (c_hasher c) ->
  sync d (s_unsat (c_state c)) (c_clauses c) -> lits_u32 (map fst units) -> derivable_units es d units ->
  ok (check_unit_clauses_step c units) (fun _ c' => calmer c c').
Proof.
  induction units as [|[l h] rest IH]; intros c d S K HI SY U DV; cbn [check_unit_clauses_step]; [apply ok_ret, calmer_eq; auto|].
  cbn [map fst] in U. inversion U as [|? ? U1 U2]; subst. destruct DV as [DV1 DV2].
  destruct (ctx_ensure_var_spec c (lit_var l) (si_inv _ _ S)) as (A1&A2&A3&A4&A5&A6&A7&A8). pose proof (si_ensure m c (lit_var l) S) as S1.
  set (c1 := ctx_ensure_var c (lit_var l)) in *. clearbody c1.
  assert (C1 : calmer c c1) by (apply calmer_vext; assumption).
  assert (SY1 : sync d (s_unsat (c_state c1)) (c_clauses c1)) by (rewrite A5; apply (sync_same _ _ _ _ SY); apply A2).
  destruct (check_derivable m c1 es d [l] [h] S1) as (c2&E&S2&RO&HS); try rewrite A8; auto.
  { apply good_nt, single_good, U1. }
  apply ok_bind. exists tt, c2. split; [exact E|].
  assert (C2 : calmer c c2) by (eapply calmer_trans; [exact C1|]; apply calmer_vext; [apply C1|apply RO|apply RO]).
  assert (LT : lit_var l < nvars (c_vars c2)) by (pose proof (vx_nv _ _ (ro_vars _ _ _ RO)); lia).
  destruct (store_unit_ok (c_hasher c2) (c_state c2) (c_clauses c2) (c_vars c2) l (inv_wf _ (si_inv _ _ S2)) LT) as [[[st cl] [id added]] ES].
  rewrite ES. cbn [obind].
  destruct (store_unit_spec _ _ _ _ _ _ _ _ _ (inv_wf _ (si_inv _ _ S2)) LT U1 ES) as (W3&SE&BF).
  set (c3 := with_clauses (with_state c2 st) cl).
  assert (S3 : SI m c3).
  { destruct S2 as [I2 B2 [Z1 Z2]]. constructor.
    - destruct I2 as [W T SH AS PV]. constructor; auto; cbn [c3 with_clauses with_state c_state]; destruct (store_eff_state _ _ _ _ _ _ _ _ SE) as [->| ->]; assumption.
    - exact B2.
    - split; cbn [c3 with_clauses c_clauses]; [rewrite BF; exact Z1|]. intros a Ha. apply Z2.
      destruct SE as [X|x X ? P|x ? X ? P|x X ? P|? ? X|X]; try discriminate X; try (apply (perm_in _ _ _ P); exact Ha); cbn in X; lia. }
  assert (C3 : calmer c c3) by (eapply calmer_trans; [exact C2|]; apply calmer_eq; [apply C2|reflexivity|reflexivity]).
  assert (SY3 : sync (db_store d [l] false) (s_unsat (c_state c3)) (c_clauses c3)).
  { refine (sync_store d (c_state c2) (c_clauses c2) [l] false st cl id added _ SE). rewrite (ro_state _ _ _ RO). apply (sync_same _ _ _ _ SY1); apply (ro_db _ _ _ RO). }
  assert (GO : forall c4, calmer c c4 -> SI m c4 -> c_hasher c4 = c_hasher c2 -> c_clauses c4 = c_clauses c3 -> c_state c4 = c_state c3 ->
    ok (check_unit_clauses_step c4 rest) (fun _ c' => calmer c c')).
  { intros c4 C4 S4 HH CL ST. eapply ok_weaken; [|apply (IH c4 (db_store d [l] false) S4 (proj1 C4))].
    - intros ? c' X. eapply calmer_trans; eassumption.
    - rewrite HH. exact HS.
    - rewrite CL, ST. exact SY3.
    - exact U2.
    - exact DV2. }
  apply ok_bind. assert (NI : added <> SNewlyIrredundant).
  { destruct SE as [X|x X|x ? X|x X|? ? X|X]; try discriminate X; subst; try discriminate; cbn in X; lia. }
  destruct added; [| |congruence].
  - apply ok_process; [apply C3|]. intros p KP. apply GO; try reflexivity; [split; [exact KP|apply C3]|apply si_proc; exact S3].
  - apply ok_ret. apply GO; try reflexivity; assumption.
Qed.

Lemma ok_satisfied cl lits : (forall l, In l lits -> lit_var l < vlen (unit_clauses cl)) -> (forall v u, unit_of cl v = Some u -> exists id, uc_id u = Global id) ->
  (exists l, In l lits /\ holds_unit cl l) -> exists id, satisfied_by (unit_clauses cl) lits = Some (Some id).
Proof.
  intros F G. induction lits as [|x r IH]; intros (l&L1&L2); [destruct L1|]. cbn [satisfied_by].
  rewrite (lit_value_spec cl x (F x (or_introl eq_refl))).
  assert (GO : x <> l -> exists id, satisfied_by (unit_clauses cl) r = Some (Some id)).
  { intros NE. apply IH; [intros y Hy; apply F; right; exact Hy|]. exists l. split; [|exact L2]. destruct L1; [congruence|assumption]. }
  destruct (unit_of cl (lit_var x)) as [u|] eqn:E.
  - destruct (G _ _ E) as [id GI]. destruct u as [i b]. cbn [uc_id uc_value] in *. subst i. destruct (xorb b (is_negative x)) eqn:X; [eauto|].
    apply GO. intros ->. destruct L2 as (u'&E'&V). rewrite E in E'. inversion E'; subst u'. cbn [uc_value] in V. rewrite V, is_pos_neg in X. destruct (is_negative l); discriminate.
  - apply GO. intros ->. destruct L2 as (u'&E'&_). congruence.
Qed.

Lemma wf_global h cl vs : wf h cl vs -> forall v u, unit_of cl v = Some u -> exists id, uc_id u = Global id.
Proof. intros W v u H. destruct (wf_units _ _ _ W v u H) as (_&id&E&_). eauto. Qed.

Lemma ok_delete es c clause p : RI es c -> lits_u32 clause -> history_size es < 2^32 -> valid es (Step (DeleteClause clause p)) ->
  ok (check_delete_clause_step c clause p) (fun _ c' => calmer c c').
Proof.
  intros R U M (T&IN&V). unfold check_delete_clause_step. rewrite canon_eq, T. pose proof (ri_si _ _ R) as S. pose proof (inv_wf _ (si_inv _ _ S)) as W.
  assert (CI : forall x, In x (canon clause) <-> In x clause) by (intros x; apply canonical_in).
  pose proof (stored_entry _ _ _ _ _ (ri_sync _ _ R) IN) as ST. apply in_map_iff in ST. destruct ST as (a&EA&HA).
  pose proof (gc_vars _ _ _ (wf_clause _ _ _ W a HA)) as FV. rewrite EA in FV. rewrite Forall_forall in FV.
  apply ok_bind.
  assert (X : ok (match p with
      | DRedundant => ROk None c
      | DSatisfied => obind (satisfied_by (unit_clauses (c_clauses c)) (canon clause)) (fun s => match s with Some id => ROk (Some id) c | None => failed c MNotSatisfied end)
      | DSimplified => if subsumed_by_previous_irred_clause (c_state c) (canon clause) then ROk (s_prev_id (c_state c)) c else failed c MNotSubsumed
      end) (fun s c' => c' = c /\ (p <> DRedundant -> s <> None))).
  { destruct p.
    - apply ok_ret. split; [reflexivity|congruence].
    - destruct V as (prev&L&SUB&NS). destruct (ri_prev _ _ R prev L) as [P1 P2]. unfold subsumed_by_previous_irred_clause.
      destruct (s_prev_id (c_state c)) as [i|]; [|congruence]. rewrite P2.
      assert (Q : is_subset (canon prev) (canon clause) true = true).
      { apply is_subset_spec; [apply canonical_sorted|apply canonical_sorted|]. split.
        - intros x Hx. apply CI, SUB. apply (proj1 (canonical_in _ _)) in Hx. exact Hx.
        - intros _. destruct (Exists_dec (fun y => ~ In y prev) clause) as [EX|NE].
          { intros y. destruct (in_dec N.eq_dec y prev); [right; auto|left; exact n]. }
          + apply Exists_exists in EX. destruct EX as (y&Y1&Y2). exists y. split; [apply CI, Y1|]. intros X. apply Y2, (proj1 (canonical_in _ _)), X.
          + destruct NS. intros y Hy. destruct (in_dec N.eq_dec y prev) as [I|NI]; [exact I|]. destruct NE. apply Exists_exists. eauto. }
      rewrite Q. apply ok_ret. split; [reflexivity|congruence].
    - destruct V as (l&L1&L2). destruct (ok_satisfied (c_clauses c) (canon clause)) as [id E].
      + intros x Hx. rewrite (wf_len_units _ _ _ W). apply FV. exact Hx.
      + apply (wf_global _ _ _ W).
      + exists l. split; [apply CI, L1|apply (sy_units _ _ _ (ri_sync _ _ R)), L2].
      + rewrite E. cbn [obind]. apply ok_ret. split; [reflexivity|congruence]. }
  eapply ok_weaken; [|exact X]. clear X. intros s c' [-> NS].
  set (c1 := with_state c (with_prev (c_state c) None [])).
  assert (W1 : wf (c_hasher c1) (c_clauses c1) (c_vars c1)) by exact W.
  change (match p with DRedundant => true | _ => false end) with (is_red p).
  destruct (delete_ok (c_hasher c1) (c_clauses c1) (c_vars c1) (canon clause) (is_red p) W1 (si_bits _ _ S)) as [[[cl vs] r] E].
  { destruct (si_size _ _ S) as [Z _]. cbn [c1 with_state c_clauses]. lia. }
  rewrite E. cbn [obind]. destruct (delete_clause_spec _ _ _ _ _ _ _ _ W1 E) as (W'&DE&SU&VX&NV).
  assert (C2 : calmer c (with_vars (with_clauses c1 cl) vs)).
  { split; [exact (ri_calm _ _ R)|]. cbn [with_vars c_vars]. unfold nvars. rewrite VX. cbn [c1 with_state c_vars]. lia. }
  destruct r as [[id del]|msg].
  2:{ exfalso. inversion DE as [| |m P Q]; subst. pose proof (sy_len _ _ _ (ri_sync _ _ R) _ _ IN) as LN. destruct Q as [Q|Q]; [lia|].
      pose proof (sy_cls _ _ _ (ri_sync _ _ R) _ (is_red p) LN) as CO. apply (count_occ_In entry_eq) in IN.
      assert (Z : copies_in (aclauses (c_clauses c)) (canon clause) (is_red p) = 0); [|lia].
      cbn [c1 with_state c_clauses] in Q. clear - Q. induction (aclauses (c_clauses c)) as [|y A IH]; [reflexivity|].
      rewrite copies_cons, IH by (intros z Hz; apply Q; right; exact Hz). destruct (lits_eqb _ _) eqn:E; [|reflexivity].
      apply lits_eqb_iff in E. rewrite (Q y (or_introl eq_refl) E). reflexivity. }
  assert (NR : is_red p = true -> del <> DNewlyRedundant) by (intros RT; inversion DE; subst; rewrite ?RT in *; try discriminate).
  destruct p; cbn [is_red] in *.
  - destruct del; [apply ok_ret, C2|exfalso; apply NR; reflexivity|]. apply ok_process', C2.
  - destruct s as [s|]; [|exfalso; apply NS; congruence]. destruct del; [apply ok_ret, C2| |]; apply ok_process', C2.
  - destruct s as [s|]; [|exfalso; apply NS; congruence]. destruct del; [apply ok_ret, C2| |]; apply ok_process', C2.
Qed.

Lemma ok_delete_var es c v : RI es c -> valid es (Step (DeleteVar v)) -> ok (check_delete_var_step c v) (fun _ c' => calmer c c').
Proof.
  intros R (V31&UN&NO). pose proof (ri_si _ _ R) as S. unfold check_delete_var_step.
  destruct (ctx_ensure_var_spec c v (si_inv _ _ S)) as (A1&A2&A3&A4&A5&A6&A7&A8).
  destruct (exist_vd c v) as (d&V&D&_). set (c1 := ctx_ensure_var c v) in *. clearbody c1. rewrite V. cbn [obind].
  assert (C1 : calmer c c1) by (apply calmer_vext; [exact (ri_calm _ _ R)|assumption|assumption]).
  rewrite (ni_data _ _ (ri_names _ _ R)), UN in D. subst d. cbn [vd_user].
  pose proof (wf_len_counts _ _ _ (inv_wf _ A1)) as LC.
  assert (CN : forall b, vget (lit_count (c_vars c1)) (lit_from_var v b) = Some 0).
  { intros b. destruct (proj1 (vget_lt (lit_count (c_vars c1)) (lit_from_var v b))) as [n E]; [rewrite LC; apply lit_from_var_fits; exact A4|].
    rewrite E. f_equal. rewrite (wf_counts _ _ _ (inv_wf _ A1) _ _ E), (count_lit_perm _ _ _ (sd_clauses _ _ A2)).
    assert (Z : forall a, In a (aclauses (c_clauses c)) -> ~ In (lit_from_var v b) (a_lits a)).
    { intros a Ha Hl. destruct (entry_stored _ _ _ _ _ a (ri_sync _ _ R) (inv_wf _ (si_inv _ _ S)) Ha) as (red&I1). apply (NO _ _ I1 _ Hl).
      rewrite lit_from_var_31 by exact V31. change (lit_var (2 * v + (if b then 0 else 1))) with (N.div2 (2 * v + if b then 0 else 1)).
      rewrite N.div2_div. symmetry. apply (N.div_unique _ 2 v (if b then 0 else 1)); destruct b; lia. }
    clear - Z. induction (aclauses (c_clauses c)) as [|a A IH]; [reflexivity|]. rewrite count_lit_cons, IH by (intros x Hx; apply Z; right; exact Hx).
    rewrite (proj2 (lit_in_false _ _) (Z a (or_introl eq_refl))). reflexivity. }
  rewrite (CN false), (CN true). cbn [obind]. change (0 <? 0) with false. cbn iota.
  destruct (proj1 (vget_lt (unit_clauses (c_clauses c1)) v)) as [u HU]; [rewrite (wf_len_units _ _ _ (inv_wf _ A1)); exact A4|].
  rewrite HU. cbn [obind]. apply ok_bind.
  assert (FIN : forall c2, calm c2 -> nvars (c_vars c2) = nvars (c_vars c1) -> calmer c (with_vars c2 (Variables (lit_count (c_vars c2)) (vset (var_datas (c_vars c2)) v vd_default) (used_user_vars (c_vars c2))))).
  { intros c2 K2 N2. split; [exact K2|]. unfold nvars in *. cbn [with_vars c_vars var_datas]. rewrite vset_len, N2. apply C1. }
  destruct u as [u|]; [|apply ok_ret, ok_ret, FIN; [apply C1|reflexivity]].
  assert (UO : unit_of (c_clauses c1) v = Some u) by (unfold unit_of; rewrite HU; reflexivity).
  destruct (wf_units _ _ _ (inv_wf _ A1) v u UO) as (L31&id&E&LT). rewrite E. apply ok_bind, ok_process; [apply C1|].
  intros p KP. apply ok_ret, ok_ret, FIN; [exact KP|reflexivity].
Qed.

Lemma ok_model_lits cl model : forall assigned, (forall l, In l model -> lit_var l < vlen (unit_clauses cl)) ->
  (forall l, In l model -> ~ holds_unit cl (lnot l)) -> (forall l, In l model -> ~ In (lnot l) (assigned ++ model)) ->
  exists x, model_lits (unit_clauses cl) assigned model = Some (inl x) /\ forall l, In l x <-> In l assigned \/ In l model.
Proof.
  induction model as [|l r IH]; intros assigned F G H; cbn [model_lits]; [exists assigned; split; [reflexivity|intros; cbn; tauto]|].
  rewrite (lit_value_spec cl l (F l (or_introl eq_refl))).
  assert (NX : existsb (N.eqb (lnot l)) assigned = false).
  { destruct (existsb _ _) eqn:E; [|reflexivity]. apply existsb_exists in E. destruct E as (y&Y1&Y2). apply N.eqb_eq in Y2. subst y.
    destruct (H l (or_introl eq_refl)). apply in_or_app. left. exact Y1. }
  assert (REC : exists x, model_lits (unit_clauses cl) (l :: assigned) r = Some (inl x) /\ forall y, In y x <-> In y assigned \/ In y (l :: r)).
  { destruct (IH (l :: assigned)) as (x&E&Q).
    - intros y Hy. apply F. right. exact Hy.
    - intros y Hy. apply G. right. exact Hy.
    - intros y Hy HN. apply (H y (or_intror Hy)). cbn [app] in HN. apply in_or_app. destruct HN as [<-|HN]; [right; left; reflexivity|].
      apply in_app_or in HN. destruct HN; [left; assumption|right; right; assumption].
    - exists x. split; [exact E|]. intros y. rewrite Q. cbn [In]. tauto. }
  destruct (unit_of cl (lit_var l)) as [u|] eqn:E; [|rewrite NX; exact REC].
  destruct (xorb (uc_value u) (is_negative l)) eqn:X; [rewrite NX; exact REC|]. exfalso. apply (G l (or_introl eq_refl)).
  exists u. rewrite lnot_var. split; [exact E|]. rewrite is_pos_neg, lnot_sign. destruct (uc_value u), (is_negative l); try discriminate; reflexivity.
Qed.
Lemma ok_model_clauses buf assigned cs : (forall c, In c cs -> slice_ok buf c /\ exists l, In l (lits_of buf c) /\ In l assigned) -> model_clauses buf assigned cs = Some true.
Proof.
  induction cs as [|c cs IH]; intros H; cbn [model_clauses]; [reflexivity|]. destruct (H c (or_introl eq_refl)) as [[E _] (l&L1&L2)]. rewrite E.
  replace (existsb _ _) with true; [apply IH; intros x Hx; apply H; right; exact Hx|]. symmetry. apply existsb_exists. exists l. split; [exact L1|].
  apply existsb_exists. exists l. split; [exact L2|apply N.eqb_refl].
Qed.
Lemma ok_model es c m : RI es c -> valid es (Step (Model m)) -> ok (check_model_step c m) (fun _ c' => calmer c c').
Proof.
  intros R (AN&NT&NU&AS&CL). pose proof (ri_si _ _ R) as S. pose proof (inv_wf _ (si_inv _ _ S)) as W. unfold check_model_step.
  rewrite Forall_forall in AN.
  destruct (ok_model_lits (c_clauses c) m []) as (x&E&Q).
  - intros l Hl. rewrite (wf_len_units _ _ _ W). apply (announced_lt es c _ R), AN, Hl.
  - intros l Hl HU. apply (NU l Hl), (sy_units _ _ _ (ri_sync _ _ R)), HU.
  - exact NT.
  - rewrite E. cbn [obind]. replace (forallb _ _) with true.
    2:{ symmetry. apply forallb_forall. intros y Hy. rewrite (ri_as _ _ R) in Hy. apply (proj1 (canonical_in _ _)) in Hy. apply existsb_exists. exists y. split; [|apply N.eqb_refl].
        apply Q. right. apply AS, Hy. }
    cbn [negb]. rewrite ok_model_clauses; [cbn [obind]; apply ok_process', calmer_eq; auto; apply (ri_calm _ _ R)|].
    intros k Hk. split; [apply (wf_slice _ _ _ W); exact Hk|].
    destruct (entry_stored _ _ _ _ _ (abs_c (literal_buffer (c_clauses c)) k) (ri_sync _ _ R) W (in_map _ _ _ Hk)) as (red&I1).
    destruct (CL _ _ I1) as (l&L1&L2). exists l. split; [exact L1|]. apply Q. right. exact L2.
Qed.
Lemma ok_failed es c core hashes : RI es c -> lits_u32 core -> valid es (Step (FailedAssumptions core hashes)) ->
  ok (check_failed_assumptions_step c core hashes) (fun _ c' => calmer c c').
Proof.
  intros R U (SUB&DV). pose proof (ri_si _ _ R) as S. unfold check_failed_assumptions_step. rewrite canon_eq.
  replace (is_subset _ _ _) with true.
  2:{ symmetry. apply is_subset_spec; [apply canonical_sorted|apply (inv_assumptions _ (si_inv _ _ S))|]. split; [|discriminate]. rewrite (ri_as _ _ R).
      intros x Hx. apply (proj1 (canonical_in _ _)) in Hx. apply (proj2 (canonical_in _ _)). apply SUB, Hx. }
  cbn [negb]. apply ok_bind. destruct (taut core) eqn:T; [apply ok_ret, ok_process', calmer_eq; auto; apply (ri_calm _ _ R)|].
  destruct DV as [DV|DV]; [discriminate|].
  destruct (check_derivable _ c es (db_after es) (map lnot (canon core)) hashes S (ri_hash _ _ R) (ri_sync _ _ R)) with (2 := DV) as (c1&E&S1&RO&_).
  { intros l Hl HN. apply in_map_iff in Hl. destruct Hl as (a&<-&Ha). rewrite lnot_invol in HN. apply in_map_iff in HN. destruct HN as (b&<-&Hb).
    exact (good_nt _ (canon_good _ U T) b Hb Ha). }
  exists tt, c1. split; [exact E|]. apply ok_process', calmer_vext; [apply (ri_calm _ _ R)|apply RO|apply RO].
Qed.
Lemma ok_add_user es c v u : RI es c -> valid es (Step (UserVarName v (Some u))) -> ok (add_user_mapping c v u) (fun _ c' => calmer c c' /\ v < nvars (c_vars c')).
Proof.
  intros R (UN&NH&NU&LE). pose proof (ri_si _ _ R) as S. unfold add_user_mapping.
  destruct (ctx_ensure_var_spec c v (si_inv _ _ S)) as (A1&A2&A3&A4&A5&A6&A7&A8). destruct (vs_keep _ _ (ctx_ensure_vsame c v)) as [_ KU].
  destruct (exist_vd c v) as (d&V&D&_). set (c1 := ctx_ensure_var c v) in *. clearbody c1.
  assert (C1 : calmer c c1) by (apply calmer_vext; [exact (ri_calm _ _ R)|assumption|assumption]).
  assert (LU : u < nvars (c_vars c1)). { destruct LE as [LE|LE]; [lia|]. pose proof (announced_lt _ _ _ R LE). pose proof (vx_nv _ _ A3). lia. }
  replace (_ || _) with false.
  2:{ symmetry. apply orb_false_iff. split; [apply N.leb_gt; exact LU|]. destruct (existsb _ _) eqn:E; [|reflexivity]. apply existsb_exists in E. destruct E as (y&Y1&Y2).
      apply N.eqb_eq in Y2. subst y. rewrite KU in Y1. apply (ni_used _ _ (ri_names _ _ R)) in Y1. destruct Y1 as (w&Y1). destruct (NU w Y1). }
  rewrite V. rewrite (ni_data _ _ (ri_names _ _ R)) in D. subst d. cbn [vd_mode vd_user]. rewrite UN. destruct (var_modes es v) eqn:MO; try congruence; cbn [mode_eqb].
  all: apply ok_process; [apply C1|]; intros p KP; split; [split; [exact KP|]|]; unfold nvars in *; cbn [with_proc with_vars c_vars var_datas]; rewrite vset_len; [apply C1|exact A4].
Qed.
Lemma ok_remove_user es c v : RI es c -> valid es (Step (UserVarName v None)) -> ok (remove_user_mapping c v) (fun _ c' => calmer c c' /\ v < nvars (c_vars c')).
Proof.
  intros R UN. cbn [valid] in UN. pose proof (ri_si _ _ R) as S. unfold remove_user_mapping.
  destruct (ctx_ensure_var_spec c v (si_inv _ _ S)) as (A1&A2&A3&A4&A5&A6&A7&A8).
  destruct (exist_vd c v) as (d&V&D&_). set (c1 := ctx_ensure_var c v) in *. clearbody c1.
  assert (C1 : calmer c c1) by (apply calmer_vext; [exact (ri_calm _ _ R)|assumption|assumption]).
  rewrite V. rewrite (ni_data _ _ (ri_names _ _ R)) in D. subst d. cbn [vd_user]. destruct (user_names es v) as [x|]; [|congruence].
  apply ok_bind, ok_process; [apply C1|]. intros p KP. apply ok_ret. unfold nvars in *; cbn [with_proc with_vars c_vars var_datas]. split; [split; [exact KP|]|]; cbn [with_proc with_vars c_vars var_datas]; unfold nvars; cbn [var_datas]; rewrite vset_len; [apply C1|exact A4].
Qed.
Lemma ok_mode es c v b : RI es c -> valid es (Step (ChangeSamplingMode v b)) -> ok (check_change_sampling_mode c v b) (fun _ c' => calmer c c').
Proof.
  intros R VA. cbn [valid] in VA. pose proof (ri_si _ _ R) as S. unfold check_change_sampling_mode.
  destruct (ctx_ensure_var_spec c v (si_inv _ _ S)) as (A1&A2&A3&A4&A5&A6&A7&A8).
  destruct (exist_vd c v) as (d&V&D&_). set (c1 := ctx_ensure_var c v) in *. clearbody c1.
  assert (C1 : calmer c c1) by (apply calmer_vext; [exact (ri_calm _ _ R)|assumption|assumption]).
  rewrite V. cbn [obind]. rewrite (ni_data _ _ (ri_names _ _ R)) in D. subst d. cbn [vd_mode vd_user].
  destruct (mode_eqb (var_modes es v) (if b then Sample else Witness)) eqn:ME; [apply ok_ret, C1|].
  assert (C2 : forall x, calmer c (with_vars c1 (Variables (lit_count (c_vars c1)) (vset (var_datas (c_vars c1)) v x) (used_user_vars (c_vars c1))))).
  { intros x. split; [apply C1|]. unfold nvars. cbn [with_vars c_vars var_datas]. rewrite vset_len. apply C1. }
  destruct (user_names es v) as [x|]; [apply ok_process', C2|]. destruct b; [|apply ok_ret, C2].
  destruct VA as [VA|[VA|VA]]; try congruence. rewrite VA in ME. discriminate.
Qed.

(** * Runs *)

Lemma ri_next es c : RI es c -> RI es (next_step c).
Proof. intros [A B C D E F G H]. constructor; auto; [|destruct C; constructor; assumption]. apply si_state; [exact A|apply (si_inv _ _ A)|apply (si_inv _ _ A)]. Qed.

Definition keeps_names (e : event) (c : ctx) : Prop := forall w x, e = Step (UserVarName w x) -> w < nvars (c_vars c).

Lemma exec_accepts es c e : RI es c -> event_u32 e -> history_size es + event_size e < 2^32 -> valid es e ->
  ok (exec c e) (fun _ c' => calmer c c' /\ keeps_names e c').
Proof.
  intros R U M V.
  assert (KN : forall r, match e with Step (UserVarName _ _) => False | _ => True end -> ok r (fun (_ : unit) c' => calmer c c') -> ok r (fun _ c' => calmer c c' /\ keeps_names e c')).
  { intros r N. apply ok_weaken. intros _ c' H. split; [exact H|]. intros w x ->. destruct N. }
  destruct e as [cl|s]; cbn [exec].
  - apply KN; [exact Logic.I|]. apply (ok_add es c cl R U M V).
  - unfold self_check_step. fold (next_step c). apply ri_next in R. change (calmer c) with (calmer (next_step c)) in *.
    assert (C0 : calmer (next_step c) (next_step c)) by (apply calmer_eq; auto; apply (ri_calm _ _ R)).
    set (c1 := next_step c) in *. clearbody c1.
    destruct s as [gl so|gl us|v|v sm|cl|rd cl hs|us|cl pf|b|m|l|core hs| ]; cbn [check_step]; cbn [event_u32 step_u32 event_size] in *;
      try (apply KN; [exact Logic.I|]).
    + apply ok_ret. exact C0.
    + destruct us as [u|].
      * refine (ok_weaken _ _ _ _ (ok_add_user es c1 gl u R V)). intros _ c' [A B]. split; [exact A|]. intros w x X. inversion X; subst. exact B.
      * refine (ok_weaken _ _ _ _ (ok_remove_user es c1 gl R V)). intros _ c' [A B]. split; [exact A|]. intros w x X. inversion X; subst. exact B.
    + apply (ok_delete_var es); assumption.
    + apply (ok_mode es); assumption.
    + apply (ok_add es); assumption.
    + destruct V as [T DV]. apply (ok_at es); assumption.
    + apply (ok_units (history_size es) es us c1 (db_after es)); auto; [apply (ri_si _ _ R)|apply (ri_calm _ _ R)|apply (ri_hash _ _ R)|apply (ri_sync _ _ R)].
    + apply (ok_delete es); auto. lia.
    + pose proof (ri_si _ _ R) as S. destruct (rehash_ok (Hasher b (buffered_names (c_hasher c1)) (rename_flag (c_hasher c1)) (solver_names (c_hasher c1)) (shuffle (c_hasher c1)) (rehashes (c_hasher c1)))
        (c_hasher c1) (c_clauses c1) (c_vars c1) (inv_wf _ (si_inv _ _ S)) (inv_shuffle _ (si_inv _ _ S)) V) as (h'&cl'&E).
      rewrite E. cbn [obind]. apply ok_ret, calmer_eq; auto. apply (ri_calm _ _ R).
    + apply (ok_model es); assumption.
    + apply ok_bind. refine (ok_weaken _ _ _ _ (ok_sampling (history_size es) l c1 (ri_si _ _ R) (ri_calm _ _ R) _)).
      * intros _ c2 (A&_). apply ok_process'. exact A.
      * cbn [valid] in V. rewrite Forall_forall in *. intros x Hx. rewrite (ni_data _ _ (ri_names _ _ R)). cbn [vd_mode]. apply V, Hx.
    + apply (ok_failed es); assumption.
    + apply ok_ret. exact C0.
Qed.

Lemma prev_step c e c' last : tr c e c' ->
  (forall cl, last = Some cl -> s_prev_id (c_state c) <> None /\ s_prev_lits (c_state c) = canon cl) ->
  forall cl, irred_event last e = Some cl -> s_prev_id (c_state c') <> None /\ s_prev_lits (c_state c') = canon cl.
Proof.
  assert (SE : forall st cl lits red st' cl' id r, store_eff st cl lits red st' cl' id r -> s_prev_id st' = s_prev_id st /\ s_prev_lits st' = s_prev_lits st).
  { intros st cl lits red st' cl' id r H. destruct (store_eff_state _ _ _ _ _ _ _ _ H) as [-> | ->]; split; reflexivity. }
  assert (AD : forall x cl, add_eff x cl c' -> s_prev_id (c_state c') = s_prev_id (c_state x) /\ s_prev_lits (c_state c') = s_prev_lits (c_state x)).
  { intros x cl T. destruct T as [E ->|E T' S1 V1 C1 EM|cl1 id r E T' S R]; [auto|rewrite S1; auto|]. apply (SE _ _ _ _ _ _ _ _ S). }
  intros T H. destruct e as [cl|s]; cbn [tr irred_event] in *.
  { destruct (AD _ _ T) as [-> ->]. exact H. }
  destruct s as [gl so|gl us|v|v sm|cl|red cl hs|us|cl pf|b|m|l|core hs| ]; cbn [step_eff] in T;
    try (destruct T as (A&B&_); rewrite B; exact H).
  - destruct T as [_ _ _ UC _ ST _]. rewrite ST. exact H.
  - destruct (AD _ _ T) as [-> ->]. exact H.
  - destruct T as [st1 id r hints T IMP _ S ST EM]. rewrite ST. destruct red.
    + destruct (SE _ _ _ _ _ _ _ _ S) as [-> ->]. exact H.
    + intros k X. inversion X; subst k. cbn. split; [discriminate|reflexivity].
  - assert (Q : s_prev_id (c_state c') = s_prev_id (c_state (next_step c)) /\ s_prev_lits (c_state c') = s_prev_lits (c_state (next_step c))).
    { clear H. induction T as [x x' Q P|x l h rest x1 x' id r hints _ _ S EM _ IH]; [destruct Q as [_ -> _ _]; auto|].
      destruct IH as [-> ->]; [exact AD|]. apply (SE _ _ _ _ _ _ _ _ S). }
    destruct Q as [-> ->]. exact H.
  - discriminate.
Qed.

Lemma history_snoc es e : history_size (es ++ [e]) = history_size es + event_size e.
Proof. unfold history_size. rewrite map_app, sumN_app. cbn. lia. Qed.

Lemma ri_step es c e c' u : RI es c -> event_u32 e -> history_size es + event_size e < 2^32 -> valid es e ->
  exec c e = ROk u c' -> RI (es ++ [e]) c'.
Proof.
  intros R U M V E. destruct (exec_accepts es c e R U M V) as (u1&c1&E1&[K NV] &KN). rewrite E in E1. inversion E1; subst u1 c1. clear E1.
  pose proof (ri_si _ _ R) as S. destruct (exec_spec _ _ _ _ (si_inv _ _ S) U E) as [_ T].
  assert (BE : bits_event e) by (destruct e as [|[]]; try exact Logic.I; exact V).
  constructor.
  - pose proof (exec_wp _ c e S U M (exec_safe _ _ _ _ (si_inv _ _ S) U E BE)) as WP. rewrite E in WP. rewrite history_snoc. exact WP.
  - eapply hash_step; [apply (ri_hash _ _ R)|exact E].
  - eapply names_step; [apply (ri_names _ _ R)|exact E].
  - unfold db_after. rewrite fold_left_app. apply (sync_step _ _ _ _ T (ri_sync _ _ R)).
  - unfold assumed. rewrite fold_left_app. cbn [fold_left]. fold (assumed es). destruct e as [cl|s]; cbn [tr assume_event] in *.
    + pose proof (ri_as _ _ R) as IH. destruct T as [E0 ->|E0 T' S1 V1 C1 EM|cl1 id r E0 T' S0 RR]; [exact IH|rewrite S1; exact IH|].
      destruct (store_eff_state _ _ _ _ _ _ _ _ S0) as [-> | ->]; exact IH.
    + rewrite (prev_assume _ _ _ T). destruct s; try apply (ri_as _ _ R). reflexivity.
  - rewrite last_irred_snoc. apply (prev_step c e c' _ T (ri_prev _ _ R)).
  - exact K.
  - intros w x H. apply in_app_or in H. destruct H as [H|[H|[]]]; [pose proof (ri_nv _ _ R w x H); lia|]. apply (KN w x). exact H.
Qed.

(** Every step is valid after the steps before it. *)
Definition valid_history (es : list event) : Prop := forall es1 e es2, es = es1 ++ e :: es2 -> valid es1 e.

Lemma run_accepts es2 : forall es1 c, RI es1 c -> Forall event_u32 es2 -> history_size (es1 ++ es2) < 2^32 -> valid_history (es1 ++ es2) ->
  exists c', run c es2 = ROk tt c' /\ RI (es1 ++ es2) c'.
Proof.
  induction es2 as [|e es2 IH]; intros es1 c R U M V; cbn [run]; [exists c; rewrite app_nil_r; auto|]. inversion U as [|? ? U1 U2]; subst.
  assert (M1 : history_size es1 + event_size e < 2^32).
  { unfold history_size in M. rewrite map_app, sumN_app in M. cbn in M. fold (history_size es1) in M. lia. }
  pose proof (V es1 e es2 eq_refl) as VE. destruct (exec_accepts es1 c e R U1 M1 VE) as ([]&c1&E&_). rewrite E. cbn [bind].
  pose proof (ri_step _ _ _ _ _ R U1 M1 VE E) as R1. replace (es1 ++ e :: es2) with ((es1 ++ [e]) ++ es2) in * by (rewrite <- app_assoc; reflexivity).
  apply IH; assumption.
Qed.
Lemma ri_new p pf tf sh : (forall n l, Permutation (sh n l) l) -> (forall n, pf n = false) -> RI [] (checker_new p false pf tf sh).
Proof.
  intros SH PF. constructor.
  - apply new_si. exact SH.
  - apply new_hash.
  - apply new_names.
  - apply sync_new.
  - reflexivity.
  - discriminate.
  - split; [exact PF|reflexivity].
  - intros w x [].
Qed.
