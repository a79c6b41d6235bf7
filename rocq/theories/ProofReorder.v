(** The steps that the solver sends to its checker and the steps in a proof file differ in two
    ways: the clauses of the formula are all loaded before the first step of the file, and the
    hashes in the file are shortened.  A history that is valid stays valid. *)
From Coq Require Import Lia Arith ZArith ZifyBool ZifyNat ZifyN Permutation.
From Verif Require Import Spec Lit LitProofs BinFormat Hash HashProofs SolverCtx CtxEvents P_Proof Rup Checker CheckerSteps CheckerCount CheckerRun CheckerSafe CheckerNames CheckerUsers CheckerAccept CheckerValid.
Local Open Scope N_scope.

(** * Loading clauses *)
Definition load_all (R : list (list N)) (d : db) : db := fold_left db_event (map Load R) d.
Record alike (d d' : db) : Prop := {
  al_cls : Permutation (db_cls d) (db_cls d');
  al_units : forall l, In l (db_units d) <-> In l (db_units d');
  al_unsat : db_unsat d = db_unsat d' }.
Lemma alike_refl d : alike d d.
Proof. constructor; [apply Permutation_refl|reflexivity|reflexivity]. Qed.
Lemma alike_trans a b c : alike a b -> alike b c -> alike a c.
Proof. intros [A1 A2 A3] [B1 B2 B3]. constructor; [eapply Permutation_trans; eassumption|intros l; rewrite A2; apply B2|congruence]. Qed.
Lemma mem_iff' l us us' : (forall x : N, In x us <-> In x us') -> mem l us = mem l us'.
Proof. intros H. apply eq_true_iff_eq. rewrite !mem_iff. apply H. Qed.
Lemma alike_store d d' lits red : alike d d' -> alike (db_store d lits red) (db_store d' lits red).
Proof.
  intros [A B C]. unfold db_store. destruct lits as [|a [|b r]].
  - constructor; auto.
  - rewrite (mem_iff' a _ _ B), (mem_iff' (lnot a) _ _ B). destruct (mem a (db_units d')); [constructor; auto|]. destruct (mem (lnot a) (db_units d')); constructor; cbn [db_cls db_units db_unsat]; auto.
    intros l. cbn [In]. rewrite B. reflexivity.
  - constructor; cbn [db_cls db_units db_unsat]; auto.
Qed.
Lemma remove_one_perm x l l' : Permutation l l' -> Permutation (remove_one x l) (remove_one x l').
Proof.
  intros P. apply (Permutation_count_occ entry_eq). intros y. rewrite !count_remove. rewrite (proj1 (Permutation_count_occ entry_eq l l') P y). reflexivity.
Qed.
Lemma alike_event d d' e : alike d d' -> alike (db_event d e) (db_event d' e).
Proof.
  intros A. pose proof A as [A1 A2 A3]. destruct e as [cl|s]; [|destruct s]; cbn [db_event]; auto.
  - rewrite A3. destruct (_ || _); [exact A|]. apply alike_store, A.
  - constructor; cbn [db_cls db_units db_unsat]; auto. intros l. rewrite !filter_In, A2. reflexivity.
  - rewrite A3. destruct (_ || _); [exact A|]. apply alike_store, A.
  - apply alike_store, A.
  - revert d d' A A1 A2 A3. induction units as [|u us IH]; intros d d' A A1 A2 A3; cbn [fold_left]; [exact A|].
    pose proof (alike_store _ _ [fst u] false A) as B. apply IH; [exact B|apply B..].
  - constructor; cbn [db_cls db_units db_unsat]; auto. apply remove_one_perm, A1.
Qed.
Lemma alike_loads R : forall d d', alike d d' -> alike (load_all R d) (load_all R d').
Proof. induction R as [|cl R IH]; intros d d' A; [exact A|]. apply (IH (db_event d (Load cl)) (db_event d' (Load cl))), alike_event, A. Qed.
Lemma loads_more R : forall d, (exists new, db_cls (load_all R d) = new ++ db_cls d) /\ incl (db_units d) (db_units (load_all R d)) /\ (db_unsat d = true -> db_unsat (load_all R d) = true).
Proof.
  induction R as [|cl R IH]; intros d; [split; [exists []; reflexivity|split; [apply incl_refl|auto]]|].
  change (load_all (cl :: R) d) with (load_all R (db_event d (Load cl))). destruct (IH (db_event d (Load cl))) as ((new&E)&I&S).
  assert (K : (exists n, db_cls (db_event d (Load cl)) = n ++ db_cls d) /\ incl (db_units d) (db_units (db_event d (Load cl))) /\ (db_unsat d = true -> db_unsat (db_event d (Load cl)) = true)).
  { cbn [db_event]. destruct (_ || _); [split; [exists []; reflexivity|split; [apply incl_refl|auto]]|]. unfold db_store. destruct (canon cl) as [|a [|b r]]; cbn [db_cls db_units db_unsat].
    - split; [exists []; reflexivity|split; [apply incl_refl|auto]].
    - destruct (mem a (db_units d)); [split; [exists []; reflexivity|split; [apply incl_refl|auto]]|].
      destruct (mem (lnot a) (db_units d)); cbn [db_cls db_units db_unsat]; (split; [exists []; reflexivity|split; [|auto]]); [apply incl_refl|apply incl_tl, incl_refl].
    - split; [exists [(a :: b :: r, false)]; reflexivity|split; [apply incl_refl|auto]]. }
  destruct K as ((n&E1)&I1&S1). split; [exists (new ++ n); rewrite E, E1, app_assoc; reflexivity|]. split; [eapply incl_tran; eassumption|auto].
Qed.
(** Deleting a clause and loading others can be exchanged. *)
Lemma loads_cls R : forall d cls', exists new, db_cls (load_all R d) = new ++ db_cls d /\ load_all R (DB cls' (db_units d) (db_unsat d)) = DB (new ++ cls') (db_units (load_all R d)) (db_unsat (load_all R d)).
Proof.
  induction R as [|cl R IH]; intros d cls'; [exists []; split; reflexivity|].
  change (load_all (cl :: R) d) with (load_all R (db_event d (Load cl))). change (load_all (cl :: R) (DB cls' (db_units d) (db_unsat d))) with (load_all R (db_event (DB cls' (db_units d) (db_unsat d)) (Load cl))).
  set (d1 := db_event d (Load cl)).
  assert (K : exists n, db_cls d1 = n ++ db_cls d /\ db_event (DB cls' (db_units d) (db_unsat d)) (Load cl) = DB (n ++ cls') (db_units d1) (db_unsat d1)).
  { unfold d1. cbn [db_event db_unsat]. destruct (_ || _); [exists []; split; reflexivity|]. unfold db_store. cbn [db_cls db_units db_unsat].
    destruct (canon cl) as [|a [|b r]]; [exists []; split; reflexivity| |exists [(a :: b :: r, false)]; split; reflexivity].
    destruct (mem a (db_units d)); [exists []; split; reflexivity|]. destruct (mem (lnot a) (db_units d)); exists []; split; reflexivity. }
  destruct K as (n&E&->). destruct (IH d1 (n ++ cls')) as (new&E1&E2). exists (new ++ n). rewrite E1, E, E2, !app_assoc. split; reflexivity.
Qed.
Lemma remove_in x l : In x l -> Permutation l (x :: remove_one x l).
Proof.
  induction l as [|y l IH]; intros H; [destruct H|]. cbn [remove_one]. destruct (entry_eq y x) as [->|NE]; [apply Permutation_refl|].
  destruct H as [->|H]; [congruence|]. eapply Permutation_trans; [apply perm_skip, IH, H|apply perm_swap].
Qed.
Lemma remove_app x a b : In x b -> Permutation (remove_one x (a ++ b)) (a ++ remove_one x b).
Proof.
  intros H. apply (Permutation_cons_inv (a := x)). eapply Permutation_trans; [apply Permutation_sym, remove_in, in_or_app; right; exact H|].
  eapply Permutation_trans; [apply Permutation_app_head, remove_in, H|]. apply Permutation_sym, Permutation_middle.
Qed.
Lemma loads_delete R d cl p : In (canon cl, is_red p) (db_cls d) ->
  alike (load_all R (db_event d (Step (DeleteClause cl p)))) (db_event (load_all R d) (Step (DeleteClause cl p))).
Proof.
  intros H. cbn [db_event]. destruct (loads_cls R d (remove_one (canon cl, is_red p) (db_cls d))) as (new&E1&E2). rewrite E2, E1.
  constructor; cbn [db_cls db_units db_unsat]; [apply Permutation_sym, remove_app, H|reflexivity|reflexivity].
Qed.

(** * Two histories that allow the same steps *)
Record sim (b : N) (R : list (list N)) (es es' : list event) : Prop := {
  sm_db : alike (load_all R (db_after es)) (db_after es');
  sm_names : forall v, current_names es v = current_names es' v;
  sm_never : forall v, never_named es v <-> never_named es' v;
  sm_bits : current_bits es = 64;
  sm_bits' : current_bits es' = b /\ 6 <= b <= 64;
  sm_modes : forall v, var_modes es v = var_modes es' v;
  sm_users : forall v, user_names es v = user_names es' v;
  sm_ann : forall v, announced es v <-> announced es' v;
  sm_irred : last_irred es = last_irred es';
  sm_as : assumed es = assumed es' }.
(** The steps that come before the last clause of the formula *)
Definition early (s : proof_step) : bool :=
  match s with
  | SolverVarName _ _ | UserVarName _ _ | ChangeSamplingMode _ _ | Assumptions _ | DeleteClause _ DSatisfied => true
  | _ => false
  end.
Lemma key_bits names b D : 6 <= b <= 64 -> clause_key names b D = N.shiftr (clause_key names 64 D) (64 - b).
Proof. intros B. unfold clause_key. rewrite N.sub_diag, N.shiftr_0_r. reflexivity. Qed.
Lemma key_names names names' b D : (forall v, names v = names' v) -> clause_key names b D = clause_key names' b D.
Proof.
  intros H. unfold clause_key. f_equal. generalize 0. induction D as [|l D IH]; intros k; [reflexivity|]. cbn [fold_left]. rewrite IH. f_equal. f_equal.
  unfold lit_key. rewrite H. reflexivity.
Qed.
Lemma sim_derive b R es es' d d' lits hs : sim b R es es' -> alike d d' ->
  derivable es d lits hs -> derivable es' d' lits (map (fun h => N.shiftr h (64 - b)) hs).
Proof.
  intros S [A1 A2 A3] [(l&I1&I2)|(cs&K&E&H1&H2&H3)]; [left; exists l; split; [exact I1|apply A2, I2]|]. right. exists cs, K. split; [|split; [|split]].
  - rewrite E, map_map. apply map_ext. intros D. rewrite (proj1 (sm_bits' _ _ _ _ S)), (sm_bits _ _ _ _ S), (key_bits _ b D (proj2 (sm_bits' _ _ _ _ S))), (key_names _ _ 64 D (sm_names _ _ _ _ S)). reflexivity.
  - intros D HD. destruct (H1 D HD) as ((red&I)&N). split; [exists red; eapply Permutation_in; eassumption|].
    intros l Hl. destruct (N l Hl) as [X|X]; [left; rewrite <- (sm_names _ _ _ _ S); exact X|right; apply (sm_never _ _ _ _ S), X].
  - intros x Hx. destruct (H2 x Hx) as [X|X]; [left; exact X|right; apply A2, X].
  - exact H3.
Qed.
Lemma sim_units b R es es' : sim b R es es' -> forall us d d', alike d d' -> derivable_units es d us ->
  derivable_units es' d' (map (fun '(l, h) => (l, N.shiftr h (64 - b))) us).
Proof.
  intros S. induction us as [|[l h] us IH]; intros d d' A H; [exact I|]. destruct H as [H1 H2]. cbn [map derivable_units fst snd].
  split; [apply (sim_derive _ _ _ _ _ _ _ _ S A H1)|]. apply (IH _ _ (alike_store _ _ [l] false A) H2).
Qed.
Lemma sim_valid b R es es' s : sim b R es es' -> (R = [] \/ early s = true) -> is_bits s = false -> valid es (Step s) -> valid es' (Step (high b s)).
Proof.
  intros S HR NB V. pose proof (sm_db _ _ _ _ S) as D.
  assert (IN : forall e, In e (db_cls (db_after es)) -> In e (db_cls (db_after es'))).
  { intros e H. eapply Permutation_in; [apply (al_cls _ _ D)|]. destruct (proj1 (loads_more R (db_after es))) as (new&->). apply in_or_app. right. exact H. }
  assert (IU : forall l, In l (db_units (db_after es)) -> In l (db_units (db_after es'))) by (intros l H; apply (al_units _ _ D), (proj1 (proj2 (loads_more R (db_after es)))), H).
  assert (DD : R = [] -> alike (db_after es) (db_after es')) by (intros ->; exact D).
  assert (DB : R = [] -> (forall e, In e (db_cls (db_after es')) -> In e (db_cls (db_after es))) /\ (forall l, In l (db_units (db_after es')) -> In l (db_units (db_after es))) /\ db_unsat (db_after es') = db_unsat (db_after es)).
  { intros E. destruct (DD E) as [A1 A2 A3]. split; [intros e; apply (Permutation_in _ (Permutation_sym A1))|]. split; [intros l; apply A2|congruence]. }
  destruct s; cbn [valid high map_hashes early] in *; try discriminate; try exact I.
  - destruct user as [u|].
    + destruct V as (V1&V2&V3&V4). rewrite <- (sm_users _ _ _ _ S), <- (sm_modes _ _ _ _ S). repeat split; auto.
      * intros w. rewrite <- (sm_users _ _ _ _ S). auto.
      * destruct V4 as [V4|V4]; [left; exact V4|right; apply (sm_ann _ _ _ _ S), V4].
    + rewrite <- (sm_users _ _ _ _ S). exact V.
  - destruct HR as [HR|HR]; [|discriminate]. destruct (DB HR) as (X1&X2&X3). destruct V as (V1&V2&V3). rewrite <- (sm_users _ _ _ _ S). repeat split; auto. intros D0 red H. apply (V3 D0 red), X1, H.
  - rewrite <- (sm_users _ _ _ _ S), <- (sm_modes _ _ _ _ S). exact V.
  - destruct HR as [HR|HR]; [|discriminate]. destruct (DB HR) as (X1&X2&X3). rewrite X3. destruct V as [V|[V|V]]; auto. right. right. eapply Forall_impl; [|exact V]. cbn beta. intros l H. rewrite <- (sm_modes _ _ _ _ S). exact H.
  - destruct HR as [HR|HR]; [|discriminate]. destruct V as [V1 V2]. split; [exact V1|]. apply (sim_derive _ _ _ _ _ _ _ _ S (DD HR) V2).
  - destruct HR as [HR|HR]; [|discriminate]. apply (sim_units _ _ _ _ S _ _ _ (DD HR) V).
  - destruct V as (V1&V2&V3). split; [exact V1|]. split; [apply IN, V2|]. destruct proof; auto.
    + destruct V3 as (prev&P1&P2). exists prev. rewrite <- (sm_irred _ _ _ _ S). auto.
    + destruct V3 as (l&L1&L2). exists l. auto.
  - destruct HR as [HR|HR]; [|discriminate]. destruct (DB HR) as (X1&X2&X3). destruct V as (V1&V2&V3&V4&V5). split; [eapply Forall_impl; [|exact V1]; cbn beta; intros l; apply (sm_ann _ _ _ _ S)|].
    split; [exact V2|]. split; [intros l Hl Hn; apply (V3 l Hl), X2, Hn|]. split; [rewrite <- (sm_as _ _ _ _ S); exact V4|]. intros D0 red H. apply (V5 D0 red), X1, H.
  - eapply Forall_impl; [|exact V]. cbn beta. intros l H. rewrite <- (sm_modes _ _ _ _ S). exact H.
  - destruct HR as [HR|HR]; [|discriminate]. destruct V as [V1 V2]. split; [rewrite <- (sm_as _ _ _ _ S); exact V1|]. destruct V2 as [V2|V2]; [left; exact V2|right]. apply (sim_derive _ _ _ _ _ _ _ _ S (DD HR) V2).
Qed.

Lemma high_db b d s : is_bits s = false -> db_event d (Step (high b s)) = db_event d (Step s).
Proof.
  intros NB. destruct s; try reflexivity; cbn [high map_hashes db_event]; try discriminate. clear NB.
  revert d. induction units as [|[l h] us IH]; intros d; [reflexivity|]. cbn [map fold_left fst]. apply IH.
Qed.
Lemma names_snoc' es e : current_names (es ++ [e]) = names_after (current_names es) e.
Proof. unfold current_names. rewrite fold_left_app. reflexivity. Qed.
Lemma bits_snoc es e : current_bits (es ++ [e]) = bits_after (current_bits es) e.
Proof. unfold current_bits. rewrite fold_left_app. reflexivity. Qed.
Lemma modes_snoc es e : var_modes (es ++ [e]) = mode_after (var_modes es) e.
Proof. unfold var_modes. rewrite fold_left_app. reflexivity. Qed.
Lemma users_snoc es e : user_names (es ++ [e]) = user_after (user_names es) e.
Proof. unfold user_names. rewrite fold_left_app. reflexivity. Qed.
Lemma as_snoc es e : assumed (es ++ [e]) = assume_event (assumed es) e.
Proof. unfold assumed. rewrite fold_left_app. reflexivity. Qed.
Lemma db_snoc es e : db_after (es ++ [e]) = db_event (db_after es) e.
Proof. unfold db_after. rewrite fold_left_app. reflexivity. Qed.
Lemma ann_snoc es e v : announced (es ++ [e]) v <-> announced es v \/ exists w x, e = Step (UserVarName w x) /\ v <= w.
Proof.
  unfold announced. split.
  - intros (w&x&H&L). apply in_app_or in H as [H|[H|[]]]; [left; exists w, x; auto|right; exists w, x; auto].
  - intros [(w&x&H&L)|(w&x&->&L)]; exists w, x; (split; [apply in_or_app|exact L]); [left; exact H|right; left; reflexivity].
Qed.
Lemma never_snoc es e v : never_named (es ++ [e]) v <-> never_named es v /\ forall x, e <> Step (SolverVarName v x).
Proof.
  unfold never_named. split.
  - intros H. split; [intros x I; apply (H x), in_or_app; auto|]. intros x ->. apply (H x), in_or_app. right. left. reflexivity.
  - intros [H1 H2] x I. apply in_app_or in I as [I|[I|[]]]; [apply (H1 x I)|apply (H2 x I)].
Qed.
Lemma high_user b s w x : Step (high b s) = Step (UserVarName w x) <-> Step s = Step (UserVarName w x).
Proof. destruct s; cbn [high map_hashes]; split; intros H; try discriminate; exact H. Qed.
Lemma high_name b s w x : Step (high b s) = Step (SolverVarName w x) <-> Step s = Step (SolverVarName w x).
Proof. destruct s; cbn [high map_hashes]; split; intros H; try discriminate; exact H. Qed.
Lemma early_db R s es : (R = [] \/ early s = true) -> valid es (Step s) ->
  alike (load_all R (db_event (db_after es) (Step s))) (db_event (load_all R (db_after es)) (Step s)).
Proof.
  intros [->|E] V; [apply alike_refl|]. destruct s; try discriminate; try apply alike_refl. apply loads_delete. apply V.
Qed.
Lemma sim_step b R es es' s : sim b R es es' -> (R = [] \/ early s = true) -> is_bits s = false -> valid es (Step s) ->
  sim b R (es ++ [Step s]) (es' ++ [Step (high b s)]).
Proof.
  intros S HR NB V. constructor.
  - rewrite !db_snoc, high_db by exact NB. eapply alike_trans; [apply early_db; [exact HR|exact V]|]. apply alike_event, (sm_db _ _ _ _ S).
  - intros v. rewrite !names_snoc'. pose proof (sm_names _ _ _ _ S) as H. destruct s; cbn [high map_hashes names_after]; try apply H. destruct (v =? global); [reflexivity|apply H].
  - intros v. rewrite !never_snoc, (sm_never _ _ _ _ S). split; intros [A B]; (split; [exact A|]); intros x E; apply (B x); [apply (proj1 (high_name b s v x)) in E|apply (proj2 (high_name b s v x)) in E]; exact E.
  - rewrite bits_snoc. destruct s; try discriminate; apply (sm_bits _ _ _ _ S).
  - rewrite bits_snoc. destruct s; try discriminate; apply (sm_bits' _ _ _ _ S).
  - intros v. rewrite !modes_snoc. pose proof (sm_modes _ _ _ _ S) as H. destruct s; cbn [high map_hashes mode_after]; try apply H; [destruct user; [apply H|]| |]; (destruct (v =? _); [reflexivity|apply H]).
  - intros v. rewrite !users_snoc. pose proof (sm_users _ _ _ _ S) as H. destruct s; cbn [high map_hashes user_after]; try apply H. destruct (v =? _); [reflexivity|apply H].
  - intros v. rewrite !ann_snoc, (sm_ann _ _ _ _ S). split; (intros [H|(w&x&E&L)]; [left; exact H|right; exists w, x; split; [|exact L]]); [apply (proj2 (high_user b s w x)), E|apply (proj1 (high_user b s w x)), E].
  - rewrite !last_irred_snoc, (sm_irred _ _ _ _ S). destruct s; reflexivity.
  - rewrite !as_snoc, (sm_as _ _ _ _ S). destruct s; reflexivity.
Qed.
Lemma sim_bits b b' R es es' : sim b R es es' -> 6 <= b' <= 64 -> sim b' R es (es' ++ [Step (ChangeHashBits b')]).
Proof.
  intros S B. constructor.
  - rewrite db_snoc. apply (sm_db _ _ _ _ S).
  - intros v. rewrite names_snoc'. apply (sm_names _ _ _ _ S).
  - intros v. rewrite never_snoc, (sm_never _ _ _ _ S). split; [intros A; split; [exact A|discriminate]|intros [A _]; exact A].
  - apply (sm_bits _ _ _ _ S).
  - rewrite bits_snoc. split; [reflexivity|exact B].
  - intros v. rewrite modes_snoc. apply (sm_modes _ _ _ _ S).
  - intros v. rewrite users_snoc. apply (sm_users _ _ _ _ S).
  - intros v. rewrite ann_snoc, (sm_ann _ _ _ _ S). split; [auto|]. intros [H|(w&x&E&_)]; [exact H|discriminate].
  - rewrite last_irred_snoc. apply (sm_irred _ _ _ _ S).
  - rewrite as_snoc. apply (sm_as _ _ _ _ S).
Qed.
Lemma sim_load b cl R es es' : sim b (cl :: R) es es' -> sim b R (es ++ [Load cl]) es'.
Proof.
  intros S. constructor.
  - rewrite db_snoc. apply (sm_db _ _ _ _ S).
  - intros v. rewrite names_snoc'. apply (sm_names _ _ _ _ S).
  - intros v. rewrite never_snoc, <- (sm_never _ _ _ _ S). split; [intros [A _]; exact A|intros A; split; [exact A|discriminate]].
  - rewrite bits_snoc. apply (sm_bits _ _ _ _ S).
  - apply (sm_bits' _ _ _ _ S).
  - intros v. rewrite modes_snoc. apply (sm_modes _ _ _ _ S).
  - intros v. rewrite users_snoc. apply (sm_users _ _ _ _ S).
  - intros v. rewrite ann_snoc, <- (sm_ann _ _ _ _ S). split; [|auto]. intros [H|(w&x&E&_)]; [exact H|discriminate].
  - rewrite last_irred_snoc. apply (sm_irred _ _ _ _ S).
  - rewrite as_snoc. apply (sm_as _ _ _ _ S).
Qed.

(** * Histories *)
Definition loads_of (es : list event) : list (list N) := flat_map (fun e => match e with Load cl => [cl] | Step _ => [] end) es.
Definition steps_of (es : list event) : list proof_step := flat_map (fun e => match e with Load _ => [] | Step s => [s] end) es.
(** Before the last clause only names, assumptions and deletions of satisfied clauses occur. *)
Fixpoint ordered (es : list event) : Prop :=
  match es with
  | [] => True
  | Load _ :: es => ordered es
  | Step s :: es => (loads_of es = [] \/ early s = true) /\ ordered es
  end.
Lemma history_cons pre e es : valid_history (pre ++ e :: es) -> valid pre e /\ valid_history ((pre ++ [e]) ++ es).
Proof. intros V. split; [apply (V pre e es eq_refl)|]. rewrite <- app_assoc. exact V. Qed.
Lemma history_end es e : valid_history es -> valid es e -> valid_history (es ++ [e]).
Proof.
  intros V H es1 e1 es2 E. destruct es2 as [|x es2 _] using rev_ind.
  - apply app_inj_tail in E as [-> ->]. exact H.
  - change (es1 ++ e1 :: es2 ++ [x]) with (es1 ++ (e1 :: es2) ++ [x]) in E. rewrite app_assoc in E. apply app_inj_tail in E as [-> ->]. apply (V es1 e1 es2 eq_refl).
Qed.
Theorem reorder b es : forall pre pre' os, sim b (loads_of es) pre pre' -> ordered es -> valid_history (pre ++ es) -> valid_history pre' ->
  announces b (steps_of es) os -> valid_history (pre' ++ map Step os) /\ alike (db_after (pre ++ es)) (db_after (pre' ++ map Step os)).
Proof.
  assert (G : forall n b es pre pre' os, (length es + length os < n)%nat -> sim b (loads_of es) pre pre' -> ordered es -> valid_history (pre ++ es) -> valid_history pre' ->
  announces b (steps_of es) os -> valid_history (pre' ++ map Step os) /\ alike (db_after (pre ++ es)) (db_after (pre' ++ map Step os))).
  { clear b es. induction n as [|n IH]; intros b es pre pre' os HN S O V V' A; [lia|].
    destruct es as [|[cl|s] es].
    - cbn [steps_of flat_map] in A. inversion A; subst; [rewrite !app_nil_r; split; [exact V'|exact (sm_db _ _ _ _ S)]|].
      cbn [map]. change (Step (ChangeHashBits b') :: map Step os0) with ([Step (ChangeHashBits b')] ++ map Step os0). rewrite app_assoc.
      apply (IH b' [] pre); [cbn [length] in *; lia|apply (sim_bits b); assumption|exact O|exact V|apply history_end; [exact V'|cbn; lia]|assumption].
    - apply history_cons in V as [V1 V]. replace (pre ++ Load cl :: es) with ((pre ++ [Load cl]) ++ es) by (rewrite <- app_assoc; reflexivity). apply (IH b es (pre ++ [Load cl])); auto; [cbn [length] in *; lia|]. apply sim_load. exact S.
    - change (steps_of (Step s :: es)) with (s :: steps_of es) in A. change (loads_of (Step s :: es)) with (loads_of es) in S. destruct O as [O1 O].
      inversion A as [|? ? ? os0 NB A0|? b' ? os0 B1 B2 A0]; subst.
      + apply history_cons in V as [V1 V]. cbn [map]. change (Step (high b s) :: map Step os0) with ([Step (high b s)] ++ map Step os0). rewrite app_assoc.
        replace (pre ++ Step s :: es) with ((pre ++ [Step s]) ++ es) by (rewrite <- app_assoc; reflexivity). apply (IH b es (pre ++ [Step s])); [cbn [length] in *; lia|apply sim_step; assumption|exact O|exact V|apply history_end; [exact V'|eapply sim_valid; eassumption]|exact A0].
      + cbn [map]. change (Step (ChangeHashBits b') :: map Step os0) with ([Step (ChangeHashBits b')] ++ map Step os0). rewrite app_assoc.
        apply (IH b' (Step s :: es) pre); [cbn [length] in *; lia|apply (sim_bits b); assumption|split; assumption|exact V|apply history_end; [exact V'|cbn; lia]|exact A0]. }
  intros pre pre' os. apply (G (Datatypes.S (length es + length os))). lia.
Qed.

(** The formula as it was given: clauses with the same literals as those in the log; clauses at
    the end that were left out because the formula was already unsatisfiable. *)
Definition same_lits (a b : list N) : Prop := forall l, In l a <-> In l b.
Lemma same_event d a b : same_lits a b -> db_event d (Load a) = db_event d (Load b).
Proof.
  intros H. cbn [db_event].
  assert (C : canon a = canon b) by (apply SortedLitsProofs.ssorted_ext; try apply SortedLitsProofs.canonical_sorted; intros x; unfold canon; rewrite !SortedLitsProofs.canonical_in; apply H).
  assert (T : taut a = taut b). { apply eq_true_iff_eq. unfold taut. rewrite !SortedLitsProofs.canonical_taut. split; intros (x&A&B); exists x; split; apply H; assumption. }
  rewrite T, C. reflexivity.
Qed.
Lemma same_loads f : forall g d, Forall2 same_lits f g -> load_all f d = load_all g d.
Proof.
  induction f as [|a f IH]; intros g d F; inversion F as [|? b ? g' E F']; subst; [reflexivity|].
  change (load_all f (db_event d (Load a)) = load_all g' (db_event d (Load b))). rewrite (same_event d a b E). apply IH, F'.
Qed.
Lemma dead_loads f : forall d, db_unsat d = true -> load_all f d = d.
Proof. induction f as [|a f IH]; intros d U; [reflexivity|]. change (load_all f (db_event d (Load a)) = d). cbn [db_event]. rewrite U. apply IH, U. Qed.
Lemma loads_app f g d : load_all (f ++ g) d = load_all g (load_all f d).
Proof. unfold load_all. rewrite map_app, fold_left_app. reflexivity. Qed.
Lemma after_loads f : db_after (map Load f) = load_all f db_empty.
Proof. reflexivity. Qed.
Lemma only_loads f : (forall v, current_names (map Load f) v = None) /\ (forall v, never_named (map Load f) v) /\ current_bits (map Load f) = 64 /\
  (forall v, var_modes (map Load f) v = Sample) /\ (forall v, user_names (map Load f) v = None) /\ (forall v, ~ announced (map Load f) v) /\ last_irred (map Load f) = None /\ assumed (map Load f) = [].
Proof.
  induction f as [|cl f (A1&A2&A3&A4&A5&A6&A7&A8)] using rev_ind.
  - repeat split. + intros v x []. + intros v (w&x&[]&_).
  - rewrite map_app. cbn [map]. rewrite names_snoc', bits_snoc, modes_snoc, users_snoc, last_irred_snoc, as_snoc. cbn [names_after bits_after mode_after user_after irred_event assume_event].
    split; [exact A1|]. split; [intros v; apply never_snoc; split; [apply A2|discriminate]|]. split; [exact A3|]. split; [exact A4|]. split; [exact A5|]. split; [|split; [exact A7|exact A8]].
    intros v H. apply ann_snoc in H as [H|(w&x&E&_)]; [apply (A6 v H)|discriminate].
Qed.
Lemma loads_valid f : valid_history (map Load f).
Proof.
  intros es1 e es2 E. assert (H : exists f1 cl, es1 = map Load f1 /\ e = Load cl).
  { revert es1 E. induction f as [|a f IH]; intros es1 E; [destruct es1; discriminate|]. destruct es1 as [|x es1]; cbn [map app] in E; injection E as E1 E2.
    - exists [], a. auto. - destruct (IH _ E2) as (f1&cl&->&->). exists (a :: f1), cl. subst x. auto. }
  destruct H as (f1&cl&->&->). cbn [valid]. right. right. apply Forall_forall. intros l _. apply (only_loads f1).
Qed.
(** The clauses loaded by an ordered history can be loaded first. *)
Lemma ordered_loads es : forall pre, ordered es -> valid_history (pre ++ es) -> (forall s, In s (steps_of es) -> early s = true) ->
  alike (db_after (pre ++ es)) (fold_left db_event (map Step (steps_of es)) (load_all (loads_of es) (db_after pre))).
Proof.
  induction es as [|[cl|s] es IH]; intros pre O V E.
  - rewrite app_nil_r. apply alike_refl.
  - apply history_cons in V as [V1 V]. specialize (IH _ O V E). rewrite <- app_assoc in IH. rewrite db_snoc in IH. exact IH.
  - apply history_cons in V as [V1 V]. destruct O as [O1 O]. specialize (IH _ O V (fun s' H => E s' (or_intror H))). rewrite <- app_assoc in IH. eapply alike_trans; [exact IH|].
    rewrite db_snoc. change (steps_of (Step s :: es)) with (s :: steps_of es). cbn [map fold_left]. change (loads_of (Step s :: es)) with (loads_of es).
    pose proof (early_db (loads_of es) s pre O1 V1) as X. revert X. generalize (load_all (loads_of es) (db_event (db_after pre) (Step s))) (db_event (load_all (loads_of es) (db_after pre)) (Step s)).
    generalize (map Step (steps_of es)). clear. intros l. induction l as [|e l IH]; intros d d' A; [exact A|]. cbn [fold_left]. apply IH, alike_event, A.
Qed.
Lemma early_unsat s d : early s = true -> db_unsat (db_event d (Step s)) = db_unsat d.
Proof. destruct s; try discriminate; reflexivity. Qed.
(** The steps [os] of a file after the clauses [f] of a formula form a valid history if the log
    [es1 ++ es2] is one. *)
Theorem file_valid f1 f2 es1 es2 os : Forall2 same_lits f1 (loads_of es1) -> (f2 = [] \/ db_unsat (db_after es1) = true) ->
  (forall s, In s (steps_of es1) -> early s = true) -> loads_of es2 = [] -> valid_history (es1 ++ es2) -> announces 64 (steps_of (es1 ++ es2)) os ->
  valid_history (map Load (f1 ++ f2) ++ map Step os) /\ alike (db_after (es1 ++ es2)) (db_after (map Load (f1 ++ f2) ++ map Step os)).
Proof.
  intros F U E L V A.
  assert (LO : loads_of (es1 ++ es2) = loads_of es1) by (unfold loads_of in *; rewrite flat_map_app, L, app_nil_r; reflexivity).
  assert (O2 : ordered es2). { clear -L. induction es2 as [|[cl|s] es IH]; [exact I|discriminate|]. split; [left; exact L|apply IH, L]. }
  assert (O : ordered (es1 ++ es2)).
  { clear -E O2 L. induction es1 as [|[cl|s] es IH]; [exact O2|apply IH, E|]. split; [right; apply E; left; reflexivity|]. apply IH. intros s' H. apply E. right. exact H. }
  assert (O1 : ordered es1).
  { clear -E. induction es1 as [|[cl|s] es IH]; [exact I|apply IH, E|]. split; [right; apply E; left; reflexivity|]. apply IH. intros s' H. apply E. right. exact H. }
  apply (reorder 64 (es1 ++ es2) []); [|exact O|exact V|apply loads_valid|exact A].
  destruct (only_loads (f1 ++ f2)) as (A1&A2&A3&A4&A5&A6&A7&A8). constructor.
  - rewrite LO, after_loads, loads_app, (same_loads f1 (loads_of es1)) by exact F. destruct U as [->|U]; [apply alike_refl|].
    rewrite (dead_loads f2); [apply alike_refl|].
    assert (V1 : valid_history ([] ++ es1)). { intros a e b Q. apply (V a e (b ++ es2)). cbn in Q. rewrite Q, <- app_assoc. reflexivity. }
    pose proof (al_unsat _ _ (ordered_loads es1 [] O1 V1 E)) as X. cbn [app] in X. rewrite U in X. change (db_after []) with db_empty in X. symmetry in X. clear -X E.
    revert X. generalize (load_all (loads_of es1) db_empty). revert E. generalize (steps_of es1). intros l. induction l as [|s l IH]; intros E d X; [exact X|].
    cbn [map fold_left] in X. rewrite <- (early_unsat s d (E s (or_introl eq_refl))). apply IH; [intros s' H; apply E; right; exact H|exact X].
  - intros v. rewrite A1. reflexivity.
  - intros v. split; [intros _; apply A2|intros _ x []].
  - reflexivity.
  - split; [exact A3|lia].
  - intros v. rewrite A4. reflexivity.
  - intros v. rewrite A5. reflexivity.
  - intros v. split; [intros (w&x&[]&_)|intros H; destruct (A6 v H)].
  - rewrite A7. reflexivity.
  - rewrite A8. reflexivity.
Qed.
