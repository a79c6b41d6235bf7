(** Derivations the solver writes, seen by the checker: clauses with global names, their hashes and
    the effect of deriving and deleting clauses on the relation of ProofSim.v. *)
From Coq Require Import Lia Arith PeanoNat Permutation Sorted ZArith ZifyBool ZifyNat ZifyN.
From Verif Require Import Spec Lit LitProofs BinFormat Hash HashProofs SortedLits F32 Vsids VsidsProofs VsidsWf Luby Config Search SearchBase
  Propagate P_Search ClauseDb DbProofs Analyze AnalyzeProofs Rup AnalyzeHints SolverCtx CtxFrame VarsProofs Solver SolverInv SolverSimplify SolverAdd
  SolverLoad CtxEvents P_Proof ProofLog ProofSim.
From Verif Require SortedLitsProofs Checker CheckerSteps CheckerRun CheckerSafe CheckerNames CheckerUsers CheckerCount CheckerValid.
Local Open Scope N_scope.

(** * Renaming literals *)
Lemma gl_not v l : gl v (lnot l) = lnot (gl v l).
Proof.
  unfold gl. rewrite lnot_var. destruct (v_gs v (lit_var l)) as [g|]; [|reflexivity].
  apply lit_eq_split; rewrite ?lnot_var, ?lo_var; [reflexivity|]. rewrite lnot_sign.
  pose proof (lo_pos g (is_positive l)) as X. pose proof (lo_pos g (is_positive (lnot l))) as Y. rewrite pos_lnot in Y at 2. unfold is_positive in *.
  destruct (is_negative (lit_of g _)), (is_negative (lit_of g _)), (is_negative l); cbn in *; congruence.
Qed.
Lemma gl_inj v a b : vars_ok v -> v_gs v (lit_var a) <> None -> v_gs v (lit_var b) <> None -> lit_var (gl v a) = lit_var (gl v b) -> lit_var a = lit_var b.
Proof.
  intros OK NA NB E. destruct (v_gs v (lit_var a)) as [g|] eqn:EA; [|congruence]. destruct (v_gs v (lit_var b)) as [h|] eqn:EB; [|congruence].
  rewrite (proj1 (gl_named _ _ _ EA)), (proj1 (gl_named _ _ _ EB)) in E. subst h. apply (vo_sg _ OK) in EA. apply (vo_sg _ OK) in EB. congruence.
Qed.
Lemma gls_nodup v l : vars_ok v -> named v l -> NoDup (map lit_var l) -> NoDup (map lit_var (gls v l)).
Proof.
  intros OK NM ND. unfold gls. rewrite map_map. induction l as [|x l IH]; cbn [map] in *; [constructor|]. inversion ND as [|? ? N1 N2]; subst. constructor.
  - intros I. apply in_map_iff in I. destruct I as (y&E&IY). apply N1. apply in_map_iff. exists y. split; [|exact IY].
    apply (gl_inj v y x OK); [apply NM; right; exact IY|apply NM; left; reflexivity|exact E].
  - apply IH; [|exact N2]. intros y I. apply NM. right. exact I.
Qed.
Lemma nodup_of_vars l : NoDup (map lit_var l) -> NoDup l.
Proof. apply NoDup_map_inv. Qed.
Lemma canon_perm l : NoDup l -> Permutation (canon l) l.
Proof.
  intros H. apply NoDup_Permutation; [apply SortedLitsProofs.ssorted_nodup, SortedLitsProofs.canonical_sorted|exact H|]. intros x. apply canon_in.
Qed.
Lemma canon_same a b : (forall x, In x a <-> In x b) -> canon a = canon b.
Proof.
  intros H. apply SortedLitsProofs.ssorted_ext; try apply SortedLitsProofs.canonical_sorted. intros x. rewrite !canon_in. apply H.
Qed.
Lemma gls_in v l x : In x (gls v l) <-> exists y, gl v y = x /\ In y l.
Proof. apply in_map_iff. Qed.
Lemma canon_gls v a b : (forall x, In x a <-> In x b) -> canon (gls v a) = canon (gls v b).
Proof. intros H. apply canon_same. intros x. rewrite !gls_in. split; intros (y&E&I); exists y; (split; [exact E|apply H; exact I]). Qed.
Lemma canon_len v l : vars_ok v -> named v l -> NoDup (map lit_var l) -> length (canon (gls v l)) = length l.
Proof.
  intros OK NM ND. rewrite (Permutation_length (canon_perm _ (nodup_of_vars _ (gls_nodup v l OK NM ND)))). apply map_length.
Qed.
Lemma gls_taut v l : vars_ok v -> named v l -> NoDup (map lit_var l) -> CheckerSteps.taut (gls v l) = false.
Proof.
  intros OK NM ND. destruct (CheckerSteps.taut (gls v l)) eqn:E; [|reflexivity]. exfalso. apply SortedLitsProofs.canonical_taut in E. destruct E as (x&I&J).
  apply gls_in in I. destruct I as (y&<-&IY). apply gls_in in J. destruct J as (z&EZ&IZ).
  assert (V : lit_var z = lit_var y) by (apply (gl_inj v z y OK); [apply NM; exact IZ|apply NM; exact IY|rewrite EZ, lnot_var; reflexivity]).
  assert (z = y).
  { clear - ND V IY IZ. induction l as [|a l IH]; [destruct IY|]. cbn [map] in ND. inversion ND as [|? ? N1 N2]; subst.
    destruct IY as [->|IY], IZ as [->|IZ]; auto; exfalso; apply N1; [rewrite <- V|rewrite V]; apply in_map; assumption. }
  subst z. pose proof (f_equal is_negative EZ) as X. rewrite lnot_sign in X. destruct (is_negative (gl v y)); discriminate.
Qed.

(** * Hashes *)
Lemma names_fit es : fits es -> forall g x, CheckerNames.current_names es g = Some x -> x < max_count.
Proof.
  intros F. induction es as [|e es IH] using rev_ind; intros g x H; [discriminate|]. apply Forall_app in F. destruct F as [F1 F2].
  inversion F2 as [|? ? F3 _]; subst. destruct F3 as [_ F3]. rewrite names_ev in H.
  destruct e as [cl|s]; cbn [CheckerNames.names_after] in H; [apply (IH F1 g x H)|]. destruct s; try apply (IH F1 g x H).
  destruct (g =? global); [|apply (IH F1 g x H)]. subst. exact F3.
Qed.
Lemma map_lits_named_gls v l : named v l -> map_lits (v_gs v) l = Some (gls v l).
Proof.
  intros NM. destruct (map_lits (v_gs v) l) as [r|] eqn:E; [rewrite (map_lits_gl _ _ _ E); reflexivity|]. exfalso. revert E. apply map_lits_named. exact NM.
Qed.
Lemma key_perm names b l l' : Permutation l l' -> CheckerNames.clause_key names b l = CheckerNames.clause_key names b l'.
Proof. intros P. unfold CheckerNames.clause_key. rewrite !fold_xor, (xor_all_perm _ _ _ P). reflexivity. Qed.
Lemma key_hash v es l : vars_ok v -> names_rel v es -> fits es -> named v l -> NoDup (map lit_var l) ->
  CheckerNames.clause_key (CheckerNames.current_names es) (CheckerNames.current_bits es) (canon (gls v l)) = clause_hash l.
Proof.
  intros OK N F NM ND. rewrite (key_perm _ _ _ _ (canon_perm _ (nodup_of_vars _ (gls_nodup v l OK NM ND)))).
  rewrite (nr_bits _ _ N). rewrite (hash_agrees (v_gs v) _ 64) with (lits := l).
  - apply N.shiftr_0_r.
  - intros x g E. rewrite (nr_sg _ _ N). apply (vo_sg _ OK). exact E.
  - apply map_lits_named_gls. exact NM.
  - intros x I. specialize (NM x I). destruct (v_gs v (lit_var x)) as [g|] eqn:E; [|congruence]. apply (names_fit es F g). rewrite (nr_sg _ _ N). apply (vo_sg _ OK). exact E.
Qed.

(** * Derivations *)
Lemma rup_map v K cs : rup K cs -> rup (map (gl v) K) (map (fun D => canon (gls v D)) cs).
Proof.
  induction 1 as [K D rest H|K D l rest I H _ IH]; cbn [map] in *.
  - apply rup_conflict. intros x J. apply (proj1 (canon_in _ _)), gls_in in J. destruct J as (y&<-&IY). rewrite <- gl_not. apply in_map. auto.
  - apply (rup_unit _ _ (gl v l)); [apply canon_in, gls_in; eauto| |exact IH].
    intros x J. apply (proj1 (canon_in _ _)), gls_in in J. destruct J as (y&<-&IY). destruct (H y IY) as [->|K1]; [left; reflexivity|right]. rewrite <- gl_not. apply in_map. exact K1.
Qed.
(** The clauses used are stored under their names. *)
Definition used (v : vars) (cls : list (list N * bool)) (D : list N) : Prop :=
  named v D /\ NoDup (map lit_var D) /\ exists red, In (canon (gls v D), red) cls.
Lemma derive_in v es d cls cl h cs K : vars_ok v -> names_rel v es -> fits es -> (forall e, In e cls -> In e (db_cls d)) ->
  (forall D, In D cs -> used v cls D) -> h = map clause_hash cs -> rup K cs -> (forall x, In x K -> In (lnot x) cl \/ In (gl v x) (db_units d)) ->
  CheckerValid.derivable es d (canon (gls v cl)) h.
Proof.
  intros OK N F R US -> RU HK. right. exists (map (fun D => canon (gls v D)) cs), (map (gl v) K). split; [|split; [|split]].
  - rewrite map_map. apply map_ext_in. intros D I. destruct (US D I) as (U1&U2&_). symmetry. apply (key_hash v es D OK N F U1 U2).
  - intros D I. apply in_map_iff in I. destruct I as (D0&<-&I). destruct (US D0 I) as (U1&U2&red&U3). split.
    + exists red. apply R. exact U3.
    + intros l J. left. apply (proj1 (canon_in _ _)), gls_in in J. destruct J as (y&<-&IY). specialize (U1 y IY). destruct (v_gs v (lit_var y)) as [g|] eqn:E; [|congruence].
      rewrite (proj1 (gl_named _ _ _ E)), (nr_sg _ _ N). apply (vo_sg _ OK) in E. congruence.
  - intros x I. apply in_map_iff in I. destruct I as (y&<-&IY). destruct (HK y IY) as [J|J]; [|right; exact J].
    left. apply canon_in, gls_in. exists (lnot y). split; [apply gl_not|exact J].
  - apply rup_map. exact RU.
Qed.
Lemma derive v es cls un A cl h cs K : vars_ok v -> names_rel v es -> fits es -> db_rel cls un A es ->
  (forall D, In D cs -> used v cls D) -> h = map clause_hash cs -> rup K cs -> (forall x, In x K -> In (lnot x) cl \/ un (gl v x)) ->
  CheckerValid.derivable es (db_after es) (canon (gls v cl)) h.
Proof.
  intros OK N F R US EH RU HK. eapply derive_in; try eassumption.
  - intros e I. eapply Permutation_in; [apply Permutation_sym, (dr_cls _ _ _ _ R)|exact I].
  - intros x I. destruct (HK x I) as [J|J]; [left; exact J|right]. apply (dr_units _ _ _ _ R). exact J.
Qed.

(** * Stored clauses *)
Lemma codes_all n x : x < n -> In x (codes (N.to_nat n) 0).
Proof. intros H. apply codes_in. lia. Qed.
Lemma pair_in n (bin : N -> list N) l o : (forall l o, In o (bin l) -> lit_var l < n /\ lit_var o < n /\ lit_var o <> lit_var l /\ In (lnot l) (bin (lnot o))) ->
  In o (bin l) -> In (lnot l, o) (bin_pairs n bin) \/ In (o, lnot l) (bin_pairs n bin).
Proof.
  intros B I. destruct (B l o I) as (L1&L2&NE&SY).
  assert (K : forall a b, In b (bin a) -> lnot a < b -> In (lnot a, b) (bin_pairs n bin)).
  { intros a b J LT. unfold bin_pairs. apply in_flat_map. exists a. split.
    - apply codes_all. destruct (B a b J) as (X&_). rewrite lit_var_div in X. lia.
    - apply (in_map (fun o => (lnot a, o))). apply filter_In. split; [exact J|]. lia. }
  destruct (N.lt_total (lnot l) o) as [LT|[EQ|GT]].
  - left. apply K; assumption.
  - exfalso. apply NE. rewrite <- EQ. apply lnot_var.
  - right. pose proof (K (lnot o) (lnot l) SY) as X. rewrite lnot_invol in X. apply X. exact GT.
Qed.
Lemma stored_used v s d bin D : vars_ok v -> store_ok (v_slen v) (ClauseDb.live d) bin s ->
  (forall x l, In x (ClauseDb.live d) -> In l (s_lits s x) -> v_gs v (lit_var l) <> None) ->
  (forall l o, In o (bin l) -> v_gs v (lit_var l) <> None /\ v_gs v (lit_var o) <> None) ->
  is_stored (ClauseDb.live d) bin s D -> used v (entries v s d bin) D.
Proof.
  intros OK ST HL HB [(x&IX&->)|(l&o&IO&E)].
  - split; [intros y IY; apply (HL x y IX IY)|]. split; [apply (so_clause _ _ _ _ ST x IX)|].
    exists (negb (tier_eqb (htier d x) Irred)). unfold entries. apply in_or_app. left. apply (in_map (long_entry v s d) _ x IX).
  - pose proof (so_bin _ _ _ _ ST l o IO) as (L1&L2&NE&SY). destruct (HB l o IO) as [N1 N2].
    assert (IN : forall x, In x D -> x = lnot l \/ x = o) by (destruct E as [->| ->]; intros x [<-|[<-|[]]]; auto).
    split; [|split].
    + intros x J. destruct (IN x J) as [->| ->]; [rewrite lnot_var|]; assumption.
    + destruct E as [->| ->]; cbn [map]; rewrite lnot_var; constructor; try (intros [X|[]]; congruence); constructor; auto; constructor.
    + exists false. unfold entries. apply in_or_app. right.
      destruct (pair_in _ bin l o (so_bin _ _ _ _ ST) IO) as [P|P]; apply (in_map (bin_entry v)) in P; unfold bin_entry in P; cbn [fst snd] in P;
        erewrite canon_gls; try exact P; intros x; destruct E as [->| ->]; cbn [In]; tauto.
Qed.

(** * What steps do to the clauses *)
Lemma mem_in l us : CheckerCount.mem l us = true <-> In l us.
Proof.
  unfold CheckerCount.mem. rewrite existsb_exists. split; [intros (x&I&E); apply N.eqb_eq in E; subst x; exact I|]. intros I. exists l. split; [exact I|apply N.eqb_refl].
Qed.
Lemma as_keep es e : (match e with Step (Assumptions _) => False | _ => True end) -> CheckerRun.assumed (es ++ [e]) = CheckerRun.assumed es.
Proof. intros H. rewrite as_ev. destruct e as [|s]; [reflexivity|]. destruct s; try reflexivity. destruct H. Qed.
Lemma store_long d D red : (2 <= length D)%nat -> CheckerValid.db_store d D red = CheckerValid.DB ((D, red) :: db_cls d) (db_units d) (db_unsat d).
Proof. intros L. destruct D as [|a [|b D]]; cbn [length] in L; try lia. reflexivity. Qed.
Lemma at_long cls un A es red cl h : (2 <= length (canon cl))%nat -> db_rel cls un A es -> db_rel ((canon cl, red) :: cls) un A (es ++ [Step (AtClause red cl h)]).
Proof.
  intros L [P Q R T]. constructor; rewrite ?db_ev, ?(as_keep _ (Step (AtClause red cl h)) Logic.I); cbn [CheckerValid.db_event]; rewrite ?(store_long _ _ _ L); cbn [db_cls db_units db_unsat]; auto.
Qed.
Lemma at_empty v cls un A es red h : (forall D r l, In (D, r) cls -> In l D -> v_sg v (lit_var l) <> None) -> db_rel cls un A es -> dead_rel v (es ++ [Step (AtClause red [] h)]).
Proof.
  intros NM [P Q R T]. constructor; rewrite db_ev; cbn [CheckerValid.db_event]; change (canon []) with (@nil N); cbn [CheckerValid.db_store db_unsat db_cls]; [reflexivity|].
  intros D r l I. apply (NM D r). eapply Permutation_in; [exact P|exact I].
Qed.
Lemma canon_one l : canon [l] = [l].
Proof. reflexivity. Qed.
Lemma store_unit cls un A es d l red e : d = db_after es -> db_rel cls un A es -> ~ un (lnot l) -> db_after (es ++ [e]) = CheckerValid.db_store d [l] red ->
  (match e with Step (Assumptions _) => False | _ => True end) -> db_rel cls (fun x => x = l \/ un x) A (es ++ [e]).
Proof.
  intros -> [P Q R T] NN E NA. cbn [CheckerValid.db_store] in E. destruct (CheckerCount.mem l (db_units (db_after es))) eqn:M1.
  - apply mem_in in M1. constructor; rewrite ?E, ?as_keep by exact NA; auto. intros x. rewrite Q. split; [auto|]. intros [->|H]; [apply Q; exact M1|exact H].
  - destruct (CheckerCount.mem (lnot l) (db_units (db_after es))) eqn:M2; [exfalso; apply NN, Q, mem_in, M2|].
    constructor; rewrite ?E, ?as_keep by exact NA; cbn [db_cls db_units db_unsat]; auto. intros x. cbn [In]. rewrite Q. split; intros [H|H]; auto.
Qed.
Lemma at_unit cls un A es red l h : ~ un (lnot l) -> db_rel cls un A es -> db_rel cls (fun x => x = l \/ un x) A (es ++ [Step (AtClause red [l] h)]).
Proof. intros NN R. eapply store_unit; eauto. rewrite db_ev. cbn [CheckerValid.db_event]. rewrite canon_one. reflexivity. Qed.
(** Clauses given by the user *)
Definition given (e : event) (cl : list N) : Prop := e = Load cl \/ e = Step (AddClause cl).
Lemma given_db es e cl : given e cl -> db_unsat (db_after es) = false -> db_after (es ++ [e]) = if CheckerSteps.taut cl then db_after es else CheckerValid.db_store (db_after es) (canon cl) false.
Proof. intros [->| ->] U; rewrite db_ev; cbn [CheckerValid.db_event]; rewrite U; reflexivity. Qed.
Lemma given_as e cl : given e cl -> match e with Step (Assumptions _) => False | _ => True end.
Proof. intros [->| ->]; exact Logic.I. Qed.
Lemma given_plain e cl : given e cl -> plain e.
Proof. intros [->| ->]; exact Logic.I. Qed.
Lemma given_taut cls un A es e cl : given e cl -> CheckerSteps.taut cl = true -> db_rel cls un A es -> db_rel cls un A (es ++ [e]).
Proof. intros G E R. pose proof (given_db es e cl G (dr_unsat _ _ _ _ R)) as X. rewrite E in X. destruct R as [P Q R T]. constructor; rewrite ?X, ?(as_keep _ _ (given_as _ _ G)); assumption. Qed.
Lemma given_long cls un A es e cl : given e cl -> CheckerSteps.taut cl = false -> (2 <= length (canon cl))%nat -> db_rel cls un A es -> db_rel ((canon cl, false) :: cls) un A (es ++ [e]).
Proof.
  intros G E L R. pose proof (given_db es e cl G (dr_unsat _ _ _ _ R)) as X. rewrite E, (store_long _ _ _ L) in X. destruct R as [P Q R T].
  constructor; rewrite ?X, ?(as_keep _ _ (given_as _ _ G)); cbn [db_cls db_units db_unsat]; auto.
Qed.
Lemma given_unit cls un A es e l : given e [l] -> ~ un (lnot l) -> db_rel cls un A es -> db_rel cls (fun x => x = l \/ un x) A (es ++ [e]).
Proof.
  intros G NN R. eapply (store_unit _ _ _ _ _ _ false); eauto; [|apply (given_as _ _ G)]. rewrite (given_db es e _ G (dr_unsat _ _ _ _ R)), canon_one. reflexivity.
Qed.
Lemma given_dead v cls un A es e cl : given e cl -> (forall D r l, In (D, r) cls -> In l D -> v_sg v (lit_var l) <> None) ->
  (cl = [] \/ exists l, cl = [l] /\ ~ un l /\ un (lnot l)) -> db_rel cls un A es -> dead_rel v (es ++ [e]).
Proof.
  intros G NM H R. pose proof (given_db es e cl G (dr_unsat _ _ _ _ R)) as X. destruct R as [P Q R T].
  assert (Y : db_after (es ++ [e]) = CheckerValid.DB (db_cls (db_after es)) (db_units (db_after es)) true).
  { rewrite X. destruct H as [->|(l&->&N1&N2)]; [reflexivity|]. change (CheckerSteps.taut [l]) with false. rewrite canon_one. cbn [CheckerValid.db_store].
    destruct (CheckerCount.mem l (db_units (db_after es))) eqn:M1; [exfalso; apply N1, Q, mem_in, M1|].
    destruct (CheckerCount.mem (lnot l) (db_units (db_after es))) eqn:M2; [reflexivity|]. exfalso. apply Q, mem_in in N2. congruence. }
  constructor; rewrite Y; cbn [db_unsat db_cls]; [reflexivity|]. intros D r l I. apply (NM D r). eapply Permutation_in; [exact P|exact I].
Qed.
(** Deleting a clause *)
Lemma remove_perm e l : forall l', Permutation l (e :: l') -> Permutation (CheckerValid.remove_one e l) l'.
Proof.
  intros l' P. assert (I : In e l) by (eapply Permutation_in; [apply Permutation_sym, P|left; reflexivity]).
  apply (Permutation_cons_inv (a := e)). eapply Permutation_trans; [|exact P]. clear l' P.
  induction l as [|y r IH]; [destruct I|]. cbn [CheckerValid.remove_one]. destruct (CheckerValid.entry_eq y e) as [->|NE]; [apply Permutation_refl|].
  destruct I as [->|I]; [congruence|]. eapply Permutation_trans; [apply perm_swap|]. apply perm_skip. apply IH. exact I.
Qed.
Lemma delete_rel cls cls' un A es cl p : Permutation cls ((canon cl, CheckerSteps.is_red p) :: cls') -> db_rel cls un A es ->
  db_rel cls' un A (es ++ [Step (DeleteClause cl p)]).
Proof.
  intros E [P Q R T]. constructor; rewrite ?db_ev, ?(as_keep _ (Step (DeleteClause cl p)) Logic.I); cbn [CheckerValid.db_event db_cls db_units db_unsat]; auto.
  apply remove_perm. eapply Permutation_trans; eassumption.
Qed.
