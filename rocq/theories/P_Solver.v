(** Properties of the whole solver: C27, C28, C29, C31, C39, C40. *)
From Coq Require Import Lia Arith PeanoNat Permutation ZArith ZifyBool ZifyNat ZifyN.
From Verif Require Import Spec Lit LitProofs BinFormat Hash F32 Vsids VsidsProofs VsidsWf Luby Config P_Config Search SearchBase
  Propagate P_Search ClauseDb DbProofs Analyze AnalyzeProofs P_Analyze SolverCtx CtxFrame VarsProofs Solver SolverInv SolverSimplify
  SolverAdd SolverLoad SolverFailed SolverSearch SolverSolve SolverPlain.
Local Open Scope nat_scope.

(** * Histories of calls *)
(** The clauses added and the assumptions set by a history of calls *)
Definition added (ks : list call) : list (list N) :=
  flat_map (fun k => match k with CAdd C => [C] | _ => [] end) ks.
Definition assumed (ks : list call) : list N :=
  fold_left (fun A k => match k with CAssume l => l | _ => A end) ks [].
Definition no_hide (ks : list call) : Prop := forall v, ~ In (CHide v) ks.

(** The assignments of the visible variables that a history of calls allows.  A clause restricts them; hiding a variable leaves the
    assignments that some value of the variable extends to an allowed one; after that the name is free for a new variable. *)
Definition solutions1 (S : (N -> bool) -> Prop) (k : call) : (N -> bool) -> Prop :=
  match k with
  | CAdd C => fun b => S b /\ clause_holds b C = true
  | CHide u => fun b => exists b0, S b0 /\ forall x, x <> u -> b0 x = b x
  | _ => S
  end.
Definition solutions (ks : list call) : (N -> bool) -> Prop := fold_left solutions1 ks (fun _ => True).

(** The same with [observe_internal_vars], which makes hidden variables visible again under new names [l]: the allowed assignments
    before are those that some values of [l] extend to an allowed one.  [means S ks answers S']: from [S], the history leads to [S']. *)
Inductive means : ((N -> bool) -> Prop) -> list call -> list answer -> ((N -> bool) -> Prop) -> Prop :=
| me_nil (S S' : (N -> bool) -> Prop) : (forall b, S' b <-> S b) -> means S [] [] S'
| me_cons (S S1 S' : (N -> bool) -> Prop) k ks a r :
    match k, a with
    | CAdd C, _ => forall b, S1 b <-> S b /\ clause_holds b C = true
    | CHide u, _ => forall b, S1 b <-> exists b0, S b0 /\ forall x, x <> u -> b0 x = b x
    | CObserve, AVars l => forall b, S b <-> exists b1, S1 b1 /\ forall x, ~ In x l -> b1 x = b x
    | _, _ => forall b, S1 b <-> S b
    end -> means S1 ks r S' -> means S (k :: ks) (a :: r) S'.
(** Hidden variables are not made visible again. *)
Fixpoint no_reveal (ks : list call) : Prop :=
  match ks with
  | [] => True
  | CHide _ :: ks => ~ In CObserve ks
  | _ :: ks => no_reveal ks
  end.
Lemma no_hide_reveal ks : no_hide ks -> no_reveal ks.
Proof.
  induction ks as [|k ks IH]; intros H; [exact Logic.I|]. assert (H' : no_hide ks) by (intros v I; apply (H v); right; exact I).
  destruct k; cbn [no_reveal]; auto. exfalso. apply (H v). left. reflexivity.
Qed.
(** Without hidden variables, the clauses decide. *)
Lemma solutions_added ks b : no_hide ks -> (solutions ks b <-> forall C, In C (added ks) -> clause_holds b C = true).
Proof.
  intros H. unfold solutions.
  assert (X : forall S : (N -> bool) -> Prop, fold_left solutions1 ks S b <-> S b /\ forall C, In C (added ks) -> clause_holds b C = true).
  { induction ks as [|k ks IH]; intros S; cbn [fold_left].
    - split; [intros X; split; [exact X|intros C []]|intros [X _]; exact X].
    - rewrite IH by (intros v I; apply (H v); right; exact I). unfold added. cbn [flat_map]. fold (added ks).
      destruct k as [C| | | |u| | | | | | |]; cbn [solutions1 app]; try reflexivity.
      + split; [intros [[X1 X2] X3]; split; [exact X1|]; intros D [<-|I]; auto|]. intros [X1 X2]. split; [split; [exact X1|apply X2; left; reflexivity]|]. intros D I. apply X2. right. exact I.
      + exfalso. apply (H u). left. reflexivity. }
  rewrite X. tauto.
Qed.
(** After none of the calls [failed_core] returns a single literal. *)
Definition no_single (fuel : nat) (ks : list call) (c : ctx) : Prop :=
  forall ks1 ks2 c1 answers l, ks = ks1 ++ ks2 -> run_all fuel ks1 c = Ret (c1, answers) -> get_failed_core c1 <> Some [l].
(** The history creates no variable between a solve that found a model and a later solve that
    returns the same model: first component, a model may be stored; second component, it has a
    value for every variable. *)
Definition cover1 (s : bool * bool) (k : call) : bool * bool :=
  match k with
  | CAdd _ | CAssume _ => (false, true)
  | CSolve => (true, snd s)
  | CNewVar | CWitness _ | CSample _ | CHide _ => (fst s, snd s && negb (fst s))
  | _ => s
  end.
Definition covered (ks : list call) : bool := snd (fold_left cover1 ks (false, true)).

Lemma solutions_iff ks : forall S S' : (N -> bool) -> Prop, (forall b, S b <-> S' b) -> forall b, fold_left solutions1 ks S b <-> fold_left solutions1 ks S' b.
Proof.
  induction ks as [|k ks IH]; intros S S' H b; cbn [fold_left]; [apply H|]. apply IH. intros x. destruct k; cbn [solutions1]; try apply H.
  - rewrite H. reflexivity.
  - split; intros (y & Y & E); exists y; (split; [apply H; exact Y|exact E]).
Qed.
Lemma run_all_spec fuel : forall ks fr vis S A so c, good fr vis S A c -> config_valid (c_cfg c) ->
  (fst so = false -> st_sat (c_st c) <> Sat) -> (snd so = true -> sized c) ->
  spec (run_all fuel ks c) (fun '(c', answers) => (exists S',
    means S ks answers S' /\ ((vis = true -> no_reveal ks) -> (vis = false -> ~ In CObserve ks) -> forall b, S' b <-> fold_left solutions1 ks S b) /\
    exists fr', (fr = true -> no_single fuel ks c -> fr' = true) /\
    good fr' (fold_left (fun v k => v && negb (hides k)) ks vis) S' (fold_left (fun A k => match k with CAssume l => l | _ => A end) ks A) c') /\
    config_valid (c_cfg c') /\ (fst (fold_left cover1 ks so) = false -> st_sat (c_st c') <> Sat) /\ (snd (fold_left cover1 ks so) = true -> sized c')).
Proof.
  induction ks as [|k ks IH]; intros fr vis S A so c G V S1 S2; cbn [run_all fold_left].
  { apply spec_ret. split; [|auto]. exists S. split; [constructor; reflexivity|]. split; [intros _ _ b; reflexivity|]. exists fr. auto. }
  assert (Sp : spec (run fuel k c) (fun r => called k fr vis S A c (fst r) (snd r) /\ config_valid (c_cfg (fst r)) /\ run fuel k c = Ret r)).
  { eapply spec_weaken; [apply spec_post; [apply spec_post; [apply (run_spec fuel k fr vis S A c G V)|apply (run_valid fuel k c V)]|intros r Er; exact Er]|].
    intros [c1 a] [[Q1 Q2] Q3]. auto. }
  eapply spec_bind; [exact Sp|]. intros [c1 a] ((T & Me & G1 & Z1 & _ & Ob & N1) & V1 & Er). cbn [fst snd] in *.
  assert (M1 : fst (cover1 so k) = false -> st_sat (c_st c1) <> Sat).
  { destruct so as [s z]. destruct k, a; cbn [cover1 fst snd]; intros E; try contradiction; try discriminate; subst; auto. }
  eapply spec_bind; [apply (IH _ _ _ _ (cover1 so k) c1 G1 V1)|].
  - exact M1.
  - intros E. destruct (names k) eqn:Nk; [|destruct k; try discriminate; cbn [cover1 fst snd] in E; try (apply Z1; [reflexivity|apply S2; exact E]); intros X; exfalso; (apply M1; [reflexivity|exact X])].
    intros X. exfalso. apply M1; [|exact X]. destruct k; try discriminate; cbn [cover1 fst snd] in *; apply andb_prop in E as [_ E]; destruct (fst so); auto.
  - intros [c2 r] ((S' & Ms & So & fr' & Ef & G2) & V2 & C2 & Z2). apply spec_ret. split; [|split; [exact V2|split; [exact C2|exact Z2]]].
    exists S'. split; [econstructor; [|exact Ms]; destruct k, a; exact Me|]. split.
    2: { exists fr'. split; [|exact G2]. intros E Ns. apply Ef.
         - unfold fresh_after, lone. rewrite E. assert (N0 : forall l, get_failed_core c1 <> Some [l]).
           { intros l. apply (Ns [k] ks c1 [a] l eq_refl). cbn [run_all]. rewrite Er. reflexivity. }
           destruct (get_failed_core c1) as [[|l [|]]|]; try reflexivity. exfalso. exact (N0 l eq_refl).
         - intros ks1 ks2 c3 r3 l -> E3. apply (Ns (k :: ks1) ks2 c3 (a :: r3) l eq_refl). cbn [run_all]. rewrite Er. cbn [bind]. rewrite E3. reflexivity. }
    intros R1 R2 b.
    rewrite So; [| |].
    + apply solutions_iff. intros x. destruct k as [C| | | |u| | | | | | |]; cbn [solutions1]; try (destruct a; exact (Me x)).
      destruct a as [| | | |l|]; try exact (Me x). destruct vis; [|exfalso; apply (R2 eq_refl); left; reflexivity]. rewrite (Ob eq_refl) in Me. split.
      * intros Tx. apply Me. exists x. split; [exact Tx|reflexivity].
      * intros Sx. apply Me in Sx as (y & Ty & Ey). assert (Tg : forall z, y z = x z) by (intros z; apply Ey; intros []).
        destruct G1 as (B1 & _ & _ & G1). destruct (st_sat (c_st c1)).
        3: { destruct G1 as [_ G1]. exfalso. exact (G1 y Ty). }
        all: destruct G1 as (_ & F & _ & Ti & _); apply Ti; apply Ti in Ty as (bg & Mg & L); exists bg; (split; [exact Mg|]); intros w h Eh; rewrite <- Tg; apply L; exact Eh.
    + intros E. apply andb_prop in E as [Ev Eh]. specialize (R1 Ev). destruct k; try exact R1. discriminate.
    + intros E. destruct vis.
      * specialize (R1 eq_refl). destruct k; try discriminate. exact R1.
      * intros I. apply (R2 eq_refl). right. exact I.
Qed.

Lemma visible_kept : forall ks, no_hide ks -> fold_left (fun v k => v && negb (hides k)) ks true = true.
Proof.
  induction ks as [|k ks IH]; intros H; [reflexivity|]. cbn [fold_left].
  assert (Hk : hides k = false) by (destruct k as [| | | |v| | | | | | |]; try reflexivity; exfalso; apply (H v); left; reflexivity).
  rewrite Hk. apply IH. intros v I. apply (H v). right. exact I.
Qed.
Lemma history_good fuel pick judge io ks c answers : run_all fuel ks (ctx_default pick judge io) = Ret (c, answers) ->
  exists S, means (fun _ => True) ks answers S /\ (no_reveal ks -> forall b, S b <-> solutions ks b) /\
    (exists fr vis, (no_single fuel ks (ctx_default pick judge io) -> fr = true) /\ (no_hide ks -> vis = true) /\ good fr vis S (assumed ks) c) /\ config_valid (c_cfg c) /\ (covered ks = true -> sized c).
Proof.
  intros E.
  pose proof (spec_get _ _ _ (run_all_spec fuel ks true true (fun _ => True) [] (false, true) _ (default_good pick judge io) C38_default_valid
    (fun _ X => ltac:(discriminate X)) (fun _ X => ltac:(discriminate X))) E) as ((S & Me & So & fr & Ef & G) & V & _ & Z).
  exists S. split; [exact Me|]. split; [intros R; apply So; [intros _; exact R|discriminate]|]. split; [|split; [exact V|exact Z]].
  eexists fr, _. split; [|split; [|exact G]]; [apply Ef; reflexivity|apply visible_kept].
Qed.

(** * C27 *)
(** The literals are consistent, every assignment that makes them true is one of [S] and makes the assumptions true. *)
Definition gives (S : (N -> bool) -> Prop) (A : list N) (m : list N) : Prop :=
  NoDup (map lit_var m) /\ forall b, (forall l, In l m -> lit_holds b l = true) -> S b /\ forall a, In a A -> lit_holds b a = true.
(** Without hidden variables: every assumption and a literal of every clause are among the literals. *)
Definition is_model (ks : list call) (m : list N) : Prop :=
  NoDup (map lit_var m) /\ (forall C, In C (added ks) -> (exists l, In l C /\ In l m) \/ (exists l, In l C /\ In (lnot l) C)) /\ (forall a, In a (assumed ks) -> In a m).

Lemma model_lits_in c : forall us r, model_lits c us = Ret r ->
  (forall l, In l r <-> exists u g y, In u us /\ v_gu (c_v c) u = Some g /\ nth_error (c_model c) (N.to_nat g) = Some (Some y) /\ l = lit_of u y) /\ (NoDup us -> NoDup (map lit_var r)).
Proof.
  induction us as [|u us IH]; intros r E; cbn [model_lits] in E.
  { injection E as <-. split; [|constructor]. intros l. split; [intros []|intros (? & ? & ? & [] & _)]. }
  destruct (v_gu (c_v c) u) as [g|] eqn:Gu.
  - destruct (nth_error (c_model c) (N.to_nat g)) as [x|] eqn:En; [|discriminate]. destruct (model_lits c us) as [r'| |] eqn:E'; try discriminate. cbn [bind] in E. injection E as <-.
    destruct (IH r' eq_refl) as [H1 H2]. destruct x as [y|].
    + split.
      * intros l. cbn [In]. rewrite H1. split.
        -- intros [<-|(u' & g' & y' & I & R)]; [exists u, g, y; auto|exists u', g', y'; auto].
        -- intros (u' & g' & y' & [<-|I] & G' & N' & ->); [left; congruence|right; exists u', g', y'; auto].
      * intros Nd. inversion Nd as [|? ? NI Nd']; subst. cbn [map]. constructor; [|auto]. rewrite lo_var. intros I. apply in_map_iff in I as (l & El & Il).
        apply H1 in Il as (u' & g' & y' & Iu & _ & _ & ->). rewrite lo_var in El. congruence.
    + split; [|intros Nd; inversion Nd; auto]. intros l. rewrite H1. split; intros (u' & g' & y' & I & G' & N' & ->).
      * exists u', g', y'. split; [right; exact I|auto].
      * destruct I as [<-|I]; [congruence|exists u', g', y'; auto].
  - destruct (IH r E) as [H1 H2]. split; [|intros Nd; inversion Nd; auto]. intros l. rewrite H1. split; intros (u' & g' & y' & I & G' & N' & ->).
    + exists u', g', y'. split; [right; exact I|auto].
    + destruct I as [<-|I]; [congruence|exists u', g', y'; auto].
Qed.
Lemma model_lits_total c : (forall u g, v_gu (c_v c) u = Some g -> N.to_nat g < length (c_model c)) -> forall us, exists r, model_lits c us = Ret r.
Proof.
  intros H. induction us as [|u us IH]; cbn [model_lits]; [eexists; reflexivity|]. destruct (v_gu (c_v c) u) as [g|] eqn:Gu; [|exact IH].
  destruct (nth_error (c_model c) (N.to_nat g)) as [x|] eqn:En; [|apply nth_error_None in En; pose proof (H u g Gu); lia].
  destruct IH as [r ->]. cbn [bind]. eexists. reflexivity.
Qed.
Lemma codes_nodup n : forall i, NoDup (codes n i).
Proof. induction n as [|n IH]; intros i; cbn [codes]; constructor; [|apply IH]. rewrite codes_in. lia. Qed.

Lemma model_found fr vis S A c m : good fr vis S A c -> st_sat (c_st c) = Sat -> get_model c = Ret m -> exists lits, m = Some lits /\ gives S A lits.
Proof.
  intros (B & _ & _ & G) St E. rewrite St in G. destruct G as (Kn & F & K & T & An). unfold answered in An. rewrite St in An. unfold get_model in E. rewrite St in E.
  destruct (model_lits c (codes (N.to_nat (v_ulen (c_v c))) 0)) as [r| |] eqn:Er; try discriminate. cbn [bind] in E. injection E as <-.
  exists r. split; [reflexivity|]. destruct (model_lits_in c _ _ Er) as [H1 H2]. split; [apply H2; apply codes_nodup|]. intros b Hb.
  pose proof (b_vars _ B) as V.
  set (bg := fun g => match v_ug (c_v c) g with Some u => b u | None => match nth_error (c_model c) (N.to_nat g) with Some (Some y) => y | _ => false end end).
  destruct (An bg) as (b' & Ag & Mb & Ha).
  { intros g y D En. unfold bg. destruct (v_ug (c_v c) g) as [u|] eqn:Eu; [|rewrite En; reflexivity]. apply (vo_ug _ V) in Eu.
    assert (I : In (lit_of u y) r) by (apply H1; exists u, g, y; split; [apply codes_in; pose proof (vo_u _ V u g Eu); lia|auto]).
    apply Hb in I. apply lh_true in I. rewrite lo_var, lo_pos in I. exact I. }
  assert (L : linked (v_gu (c_v c)) b' b).
  { intros u g Eu. rewrite (Ag g (gu_alive _ _ _ V Eu)). unfold bg. apply (vo_ug _ V) in Eu. rewrite Eu. reflexivity. }
  split; [apply T; exists b'; auto|]. exact (proj1 (glob_all (c_v c) b' b A L Kn) Ha).
Qed.

(** An assignment that makes given literals true and given other literals false *)
Definition choose (m C : list N) : N -> bool := fun x => existsb (N.eqb (2 * x)) m || negb (existsb (N.eqb (2 * x + 1)) m) && negb (existsb (N.eqb (2 * x)) C).
Lemma lit_cases l : l = (2 * lit_var l)%N /\ is_positive l = true \/ l = (2 * lit_var l + 1)%N /\ is_positive l = false.
Proof.
  unfold lit_var, is_positive, is_negative. rewrite N.shiftr_div_pow2. change (2 ^ 1)%N with 2%N.
  assert (La : N.land l 1 = (l mod 2)%N) by (change 1%N with (N.ones 1); apply N.land_ones). rewrite !La.
  pose proof (N.div_mod l 2 ltac:(discriminate)) as E. pose proof (N.mod_upper_bound l 2 ltac:(discriminate)) as Hm.
  destruct (N.eqb_spec (l mod 2) 0) as [Z|Z]; cbn [negb]; [left|right]; split; auto; lia.
Qed.
Lemma exists_in x l : existsb (N.eqb x) l = true <-> In x l.
Proof. rewrite existsb_exists. split; [intros (y & I & E); apply N.eqb_eq in E; subst; exact I|intros I; exists x; split; [exact I|apply N.eqb_refl]]. Qed.
Lemma nodup_not m l : NoDup (map lit_var m) -> In l m -> ~ In (lnot l) m.
Proof.
  intros Nd I1 I2. assert (E : l = lnot l).
  { revert Nd I1 I2. generalize (lnot_var l). generalize (lnot l). intros k Ek. induction m as [|x m IH]; intros Nd I1 I2; [destruct I1|]. cbn [map] in Nd. inversion Nd as [|? ? NI Nd']; subst.
    destruct I1 as [<-|I1], I2 as [<-|I2]; auto; exfalso; apply NI.
    - rewrite <- Ek. apply in_map. exact I2.
    - rewrite Ek. apply in_map. exact I1. }
  exact (lnot_neq _ (eq_sym E)).
Qed.
Lemma choose_true m C : NoDup (map lit_var m) -> forall l, In l m -> lit_holds (choose m C) l = true.
Proof.
  intros Nd l I. apply lh_true. unfold choose. destruct (lit_cases l) as [[E P]|[E P]]; rewrite P.
  - rewrite <- E. rewrite (proj2 (exists_in _ _) I). reflexivity.
  - rewrite <- E, (proj2 (exists_in _ _) I). cbn [negb andb]. rewrite Bool.orb_false_r. destruct (existsb (N.eqb (2 * lit_var l)) m) eqn:Ex; [|reflexivity].
    apply exists_in in Ex. exfalso. apply (nodup_not m l Nd I). replace (lnot l) with (2 * lit_var l)%N; [exact Ex|].
    destruct (lit_cases (lnot l)) as [[E2 P2]|[E2 P2]]; rewrite lnot_var in E2; [symmetry; exact E2|]. rewrite pos_lnot, P in P2. discriminate.
Qed.
Lemma choose_clause m C : NoDup (map lit_var m) -> clause_holds (choose m C) C = true -> (exists l, In l C /\ In l m) \/ (exists l, In l C /\ In (lnot l) C).
Proof.
  intros Nd H. apply ch_in in H as (l & Il & Hl). apply lh_true in Hl. unfold choose in Hl. destruct (lit_cases l) as [[E P]|[E P]]; rewrite P in Hl.
  - rewrite <- E in Hl. rewrite (proj2 (exists_in _ _) Il) in Hl. cbn [negb] in Hl. rewrite Bool.andb_false_r, Bool.orb_false_r in Hl. apply exists_in in Hl. left. exists l. auto.
  - apply Bool.orb_false_iff in Hl as [_ Hl]. rewrite <- E in Hl. destruct (existsb (N.eqb l) m) eqn:Em; [left; exists l; split; [exact Il|apply exists_in; exact Em]|].
    cbn [negb andb] in Hl. apply Bool.negb_false_iff in Hl. apply exists_in in Hl. right. exists l. split; [exact Il|].
    destruct (lit_cases (lnot l)) as [[E2 P2]|[E2 P2]]; rewrite lnot_var in E2; [rewrite E2; exact Hl|]. rewrite pos_lnot, P in P2. discriminate.
Qed.
Lemma gives_clauses S ks m : no_hide ks -> (forall b, S b <-> solutions ks b) -> gives S (assumed ks) m -> is_model ks m.
Proof.
  intros H So [Nd G]. split; [exact Nd|]. split.
  - intros C I. apply choose_clause; [exact Nd|]. destruct (G (choose m C) (choose_true m C Nd)) as [Sb _]. apply So in Sb. exact (proj1 (solutions_added ks _ H) Sb C I).
  - intros a I. destruct (G (choose m [a]) (choose_true m [a] Nd)) as [_ Ha]. specialize (Ha a I).
    destruct (choose_clause m [a] Nd) as [(l & [<-|[]] & Il)|(l & [<-|[]] & [E|[]])]; [unfold clause_holds; cbn [existsb]; rewrite Ha; reflexivity|exact Il|].
    exfalso. exact (lnot_neq _ (eq_sym E)).
Qed.

(** Whenever [solve] returns [Ok(true)], what [model] returns is a model of what the history means. *)
Theorem C27_model_correct : forall fuel pick judge io ks answers c0 c m,
  run_all fuel ks (ctx_default pick judge io) = Ret (c0, answers) ->
  run fuel CSolve c0 = Ret (c, ASolved true) ->
  get_model c = Ret m -> exists S lits, means (fun _ => True) ks answers S /\ m = Some lits /\ gives S (assumed ks) lits.
Proof.
  intros fuel pick judge io ks answers c0 c m E Es Em. destruct (history_good _ _ _ _ _ _ _ E) as (S & Me & _ & (fr & vis & _ & _ & G) & V & _).
  destruct (spec_get _ _ _ (run_spec fuel CSolve fr vis _ _ c0 G V) Es) as (S' & Ms & G2 & _ & T & _). cbn [tells assumed_after step_means] in *.
  destruct (model_found _ _ _ _ c m G2 T Em) as (lits & -> & Nd & Gi). exists S, lits. split; [exact Me|]. split; [reflexivity|].
  split; [exact Nd|]. intros b Hb. destruct (Gi b Hb) as [Sb Ab]. split; [apply Ms; exact Sb|exact Ab].
Qed.
(** Unless hidden variables were made visible again, it is a model of the clauses with the hidden variables quantified away. *)
Theorem C27_model_solutions : forall fuel pick judge io ks answers c0 c m, no_reveal ks ->
  run_all fuel ks (ctx_default pick judge io) = Ret (c0, answers) ->
  run fuel CSolve c0 = Ret (c, ASolved true) ->
  get_model c = Ret m -> exists lits, m = Some lits /\ gives (solutions ks) (assumed ks) lits.
Proof.
  intros fuel pick judge io ks answers c0 c m R E Es Em. destruct (history_good _ _ _ _ _ _ _ E) as (S & Me & So & (fr & vis & _ & _ & G) & V & _).
  destruct (spec_get _ _ _ (run_spec fuel CSolve fr vis _ _ c0 G V) Es) as (S' & Ms & G2 & _ & T & _). cbn [tells assumed_after step_means] in *.
  destruct (model_found _ _ _ _ c m G2 T Em) as (lits & -> & Nd & Gi). exists lits. split; [reflexivity|].
  split; [exact Nd|]. intros b Hb. destruct (Gi b Hb) as [Sb Ab]. split; [apply (So R); apply Ms; exact Sb|exact Ab].
Qed.
(** Without hidden variables, it contains the assumptions and a literal of every clause. *)
Theorem C27_model_clauses : forall fuel pick judge io ks answers c0 c m, no_hide ks ->
  run_all fuel ks (ctx_default pick judge io) = Ret (c0, answers) ->
  run fuel CSolve c0 = Ret (c, ASolved true) ->
  get_model c = Ret m -> exists lits, m = Some lits /\ is_model ks lits.
Proof.
  intros fuel pick judge io ks answers c0 c m H E Es Em.
  destruct (C27_model_solutions _ _ _ _ _ _ _ _ _ (no_hide_reveal _ H) E Es Em) as (lits & El & Gi). exists lits. split; [exact El|].
  eapply gives_clauses; [exact H| |exact Gi]. reflexivity.
Qed.

(** [model] does return one, unless variables were created after the solver found the model. *)
Theorem C27_model_returned : forall fuel pick judge io ks answers c0 c, covered ks = true ->
  run_all fuel ks (ctx_default pick judge io) = Ret (c0, answers) ->
  run fuel CSolve c0 = Ret (c, ASolved true) ->
  exists S lits, get_model c = Ret (Some lits) /\ means (fun _ => True) ks answers S /\ gives S (assumed ks) lits.
Proof.
  intros fuel pick judge io ks answers c0 c Cv E Es. destruct (history_good _ _ _ _ _ _ _ E) as (S & _ & _ & (fr & vis & _ & _ & G) & V & Z).
  destruct (spec_get _ _ _ (run_spec fuel CSolve fr vis _ _ c0 G V) Es) as (S' & Ms & G2 & Z2 & T & _). cbn [tells assumed_after fresh_after names] in *.
  assert (Em : exists lits, get_model c = Ret (Some lits)).
  { pose proof (Z2 eq_refl (Z Cv) T) as Ln. unfold get_model. rewrite T.
    destruct (model_lits_total c) with (us := codes (N.to_nat (v_ulen (c_v c))) 0) as (r & ->); [|eexists; reflexivity].
    intros u g Eu. apply Ln. exact (gu_alive _ _ _ (b_vars _ (proj1 G2)) Eu). }
  destruct Em as [lits Em]. destruct (C27_model_correct _ _ _ _ _ _ _ _ _ E Es Em) as (S2 & l & M1 & M2 & M3). injection M2 as ->. exists S2, l. auto.
Qed.

(** Not if variables were created in between: the second [solve] returns [Ok(true)] with the
    model of the first, and [model] indexes it out of bounds. *)
Definition P (n : N) : N := (2 * n)%N.
Definition M (n : N) : N := (2 * n + 1)%N.
Definition plain_ctx : ctx := ctx_default (fun _ => 1) (fun _ => VOk) (fun _ => false).
Definition after {B} (m : out (ctx * list answer)) (f : ctx -> list answer -> B) (d : B) : B :=
  match m with Ret (c, r) => f c r | _ => d end.
Theorem C27_model_returned_refuted : exists fuel ks c answers,
  (forall k, In k ks -> match k with CAdd _ | CNewVar | CSolve => True | _ => False end) /\
  run_all fuel ks plain_ctx = Ret (c, answers) /\
  last answers ANone = ASolved true /\ get_model c = Panic PBounds.
Proof.
  destruct (run_all 100 [CAdd [P 0; P 1]; CSolve; CNewVar; CSolve] plain_ctx) as [[c answers]| |] eqn:E; [|vm_compute in E; discriminate..].
  exists 100, [CAdd [P 0; P 1]; CSolve; CNewVar; CSolve], c, answers.
  split; [intros k [<-|[<-|[<-|[<-|[]]]]]; exact Logic.I|]. split; [exact E|]. 
  assert (X : after (run_all 100 [CAdd [P 0; P 1]; CSolve; CNewVar; CSolve] plain_ctx) (fun c r => (last r ANone, get_model c)) (ANone, Ret None)
    = (ASolved true, Panic PBounds)) by (vm_compute; reflexivity).
  rewrite E in X. cbn [after] in X. injection X as X1 X2. auto.
Qed.

(** A history with learned clauses, assumptions and restarts that meets the hypotheses *)
Definition C27_history : list call :=
  [CAdd [P 0; P 1; P 2]; CAdd [M 0; P 3]; CAdd [M 1; P 3; M 3]; CSolve; CAdd [M 2; M 0]; CAssume [P 0; M 1]; CSolve; CAssume []; CAdd [P 2; P 2; M 5]].
Example C27_case : covered C27_history = true /\
  after (run_all 200 (C27_history ++ [CSolve]) plain_ctx) (fun c r => match last r ANone, get_model c with
    | ASolved true, Ret (Some m) => forallb (fun C => existsb (fun l => existsb (N.eqb l) m) C) (added C27_history) | _, _ => false end) false = true.
Proof. split; vm_compute; reflexivity. Qed.

(** * C28 *)
Definition unsatisfiable (F : list (list N)) (A : list N) : Prop :=
  forall b, (forall C, In C F -> clause_holds b C = true) -> ~ (forall a, In a A -> lit_holds b a = true).
Lemma solve_failed fuel fr vis S A c0 c : good fr vis S A c0 -> config_valid (c_cfg c0) -> run fuel CSolve c0 = Ret (c, ASolved false) ->
  unsat_with S A /\ exists core, get_failed_core c = Some core /\ incl core A /\ (fr = true -> unsat_with S core).
Proof.
  intros G V Es. destruct (spec_get _ _ _ (run_spec fuel CSolve fr vis _ _ c0 G V) Es) as (S' & Ms & G2 & _ & T & _).
  cbn [tells assumed_after step_means] in *. unfold get_failed_core. destruct T as [T|[T (F1 & F2 & F3)]]; rewrite T.
  - destruct G2 as (_ & _ & _ & G2). rewrite T in G2. destruct G2 as (_ & N2). split; [intros b Mb _; apply (N2 b); apply Ms; exact Mb|].
    exists []. split; [reflexivity|]. split; [intros x []|]. intros _ b Mb _. apply (N2 b). apply Ms. exact Mb.
  - split; [intros b Mb; apply F1; apply Ms; exact Mb|]. exists (as_user (c_as c)). split; [reflexivity|]. split; [exact F2|]. intros X b Mb. apply (proj1 (F3 X)). apply Ms. exact Mb.
Qed.

(** Whenever [solve] returns [Ok(false)], what the history means contradicts the assumptions and [failed_core] returns some of them. *)
Theorem C28_unsat_correct : forall fuel pick judge io ks answers c0 c,
  run_all fuel ks (ctx_default pick judge io) = Ret (c0, answers) ->
  run fuel CSolve c0 = Ret (c, ASolved false) ->
  exists S core, means (fun _ => True) ks answers S /\ (forall b, S b -> ~ (forall a, In a (assumed ks) -> lit_holds b a = true)) /\
    get_failed_core c = Some core /\ incl core (assumed ks).
Proof.
  intros fuel pick judge io ks answers c0 c E Es. destruct (history_good _ _ _ _ _ _ _ E) as (S & Me & _ & (fr & vis & _ & _ & G) & V & _).
  destruct (solve_failed _ _ _ _ _ _ _ G V Es) as (U & core & C1 & C2 & _). exists S, core. auto.
Qed.
(** Unless hidden variables were made visible again: the clauses, with the hidden variables quantified away *)
Theorem C28_unsat_solutions : forall fuel pick judge io ks answers c0 c, no_reveal ks ->
  run_all fuel ks (ctx_default pick judge io) = Ret (c0, answers) ->
  run fuel CSolve c0 = Ret (c, ASolved false) ->
  (forall b, solutions ks b -> ~ (forall a, In a (assumed ks) -> lit_holds b a = true)) /\ exists core, get_failed_core c = Some core /\ incl core (assumed ks).
Proof.
  intros fuel pick judge io ks answers c0 c R E Es. destruct (history_good _ _ _ _ _ _ _ E) as (S & Me & So & (fr & vis & _ & _ & G) & V & _).
  destruct (solve_failed _ _ _ _ _ _ _ G V Es) as (U & core & C1 & C2 & _). split; [|eauto]. intros b Sb. apply U. apply (So R). exact Sb.
Qed.
Theorem C28_unsat_clauses : forall fuel pick judge io ks answers c0 c, no_hide ks ->
  run_all fuel ks (ctx_default pick judge io) = Ret (c0, answers) ->
  run fuel CSolve c0 = Ret (c, ASolved false) ->
  unsatisfiable (added ks) (assumed ks) /\ exists core, get_failed_core c = Some core /\ incl core (assumed ks).
Proof.
  intros fuel pick judge io ks answers c0 c H E Es. destruct (C28_unsat_solutions _ _ _ _ _ _ _ _ (no_hide_reveal _ H) E Es) as [U C]. split; [|exact C].
  intros b Hb. apply U. apply (solutions_added ks b H). exact Hb.
Qed.

(** The failed core contradicts what the history means unless a failed core of one literal came before.  Missing for the
    full statement: histories in which an assumption failed on its own, for which it is false ([C28_core_unsat_refuted]). *)
Theorem C28_core_unsat_partial : forall fuel pick judge io ks answers c0 c, no_single fuel ks (ctx_default pick judge io) ->
  run_all fuel ks (ctx_default pick judge io) = Ret (c0, answers) ->
  run fuel CSolve c0 = Ret (c, ASolved false) ->
  exists S core, means (fun _ => True) ks answers S /\ get_failed_core c = Some core /\ incl core (assumed ks) /\
    (forall b, S b -> ~ (forall a, In a core -> lit_holds b a = true)) /\ (no_hide ks -> unsatisfiable (added ks) core).
Proof.
  intros fuel pick judge io ks answers c0 c Nf E Es. destruct (history_good _ _ _ _ _ _ _ E) as (S & Me & So & (fr & vis & Fr & _ & G) & V & _).
  destruct (solve_failed _ _ _ _ _ _ _ G V Es) as (_ & core & C1 & C2 & C3). exists S, core. split; [exact Me|]. split; [exact C1|]. split; [exact C2|].
  specialize (C3 (Fr Nf)). split; [exact C3|]. intros H b Hb. apply C3. apply (So (no_hide_reveal _ H)). apply (solutions_added ks b H). exact Hb.
Qed.

(** [analyze_assumption_conflict] flags the variables to visit (assumptions.rs:199, 222-225) and clears a flag
    when it meets the variable on the trail (assumptions.rs:203-204).  Variables with a value that was proved
    are not on the trail, so their flags stay, and a later analysis takes them for visited. *)
Definition C28_history : list call :=
  [CAdd [M 0]; CAssume [P 0]; CSolve; CAssume []; CAdd [P 1]; CSolve; CAdd [P 4; P 2; P 3]; CAdd [M 3; M 2]; CAssume [P 3; P 4; P 2]; CSolve].
Theorem C28_core_unsat_refuted : exists fuel ks c answers core b,
  (forall k, In k ks -> match k with CAdd _ | CAssume _ | CSolve => True | _ => False end) /\
  run_all fuel ks plain_ctx = Ret (c, answers) /\ last answers ANone = ASolved false /\
  get_failed_core c = Some core /\ (forall C, In C (added ks) -> clause_holds b C = true) /\ (forall a, In a core -> lit_holds b a = true).
Proof.
  destruct (run_all 200 C28_history plain_ctx) as [[c answers]| |] eqn:E; [|vm_compute in E; discriminate..].
  assert (X : after (run_all 200 C28_history plain_ctx) (fun c r => (last r ANone, get_failed_core c)) (ANone, None)
    = (ASolved false, Some [P 2; P 4])) by (vm_compute; reflexivity).
  rewrite E in X. cbn [after] in X. injection X as X1 X2.
  exists 200, C28_history, c, answers, [P 2; P 4], (fun x => N.eqb x 1 || N.eqb x 2 || N.eqb x 4).
  split; [intros k I; repeat (destruct I as [<-|I]; [exact Logic.I|]); destruct I|]. split; [exact E|]. split; [exact X1|]. split; [exact X2|].
  split; [intros C I; repeat (destruct I as [<-|I]; [vm_compute; reflexivity|]); destruct I|intros a I; repeat (destruct I as [<-|I]; [vm_compute; reflexivity|]); destruct I].
Qed.

(** Cases that meet the hypotheses: failing assumptions, and a contradiction of the clauses *)
Definition C28_history2 : list call := [CAdd [M 0; P 1]; CAdd [M 1; P 2; P 3]; CAssume [P 5; P 0; M 2; M 3; P 4]].
Example C28_case :
  after (run_all 200 (C28_history2 ++ [CSolve]) plain_ctx) (fun c r => (last r ANone, get_failed_core c)) (ANone, None)
    = (ASolved false, Some [M 3; M 2; P 0])
  /\ after (run_all 200 [CAdd [P 0; P 1]; CAdd [P 0; M 1]; CAdd [M 0; P 2]; CSolve; CAdd [M 0; M 2]; CSolve] plain_ctx) (fun c r => (r, get_failed_core c)) ([], None)
    = ([ANone; ANone; ANone; ASolved true; ANone; ASolved false], Some []).
Proof. split; vm_compute; reflexivity. Qed.

(** A case of a second and a third failure: whether no failed core of one literal comes up can be computed. *)
Fixpoint single_free (fuel : nat) (ks : list call) (c : ctx) : bool :=
  negb (lone c) && match ks with [] => true | k :: ks => match run fuel k c with Ret (c', _) => single_free fuel ks c' | _ => true end end.
Lemma single_free_none fuel : forall ks c, single_free fuel ks c = true -> no_single fuel ks c.
Proof.
  induction ks as [|k ks IH]; intros c H ks1 ks2 c1 r l E R; cbn [single_free] in H; apply andb_prop in H as [H1 H2];
    assert (N0 : get_failed_core c <> Some [l]) by (intros X; unfold lone in H1; rewrite X in H1; discriminate).
  - destruct ks1; [|discriminate]. injection R as <- _. exact N0.
  - destruct ks1 as [|k1 ks1]; [injection R as <- _; exact N0|]. injection E as <- E. cbn [run_all] in R.
    destruct (run fuel k c) as [[c2 a]| |] eqn:Er; try discriminate. cbn [bind] in R.
    destruct (run_all fuel ks1 c2) as [[c3 r3]| |] eqn:E3; try discriminate. injection R as <- _. exact (IH c2 H2 ks1 ks2 c3 r3 l E E3).
Qed.
Definition C28_history3 : list call :=
  C28_history2 ++ [CSolve; CAdd [M 1; P 6]; CAssume [M 6; P 5; P 0]; CSolve; CAdd [P 7; P 8; M 6]; CAdd [M 7; P 8; M 6]; CAssume [P 4; M 8; P 6]].
Example C28_case3 : no_single 200 C28_history3 plain_ctx /\
  after (run_all 200 (C28_history3 ++ [CSolve]) plain_ctx) (fun c r => (r, get_failed_core c)) ([], None)
    = ([ANone; ANone; ANone; ASolved false; ANone; ANone; ASolved false; ANone; ANone; ANone; ASolved false], Some [P 6; M 8]).
Proof. split; [apply single_free_none; vm_compute; reflexivity|]. vm_compute. reflexivity. Qed.

(** * C29 *)
(** The formula the solver stores, over the variables of the user: an assignment is a model if it extends, along the
    names of the variables, to the irredundant clauses, the binary clauses, the values at level 0 and the
    values of variables that were removed from the search. *)
Definition stored_by (c : ctx) (b g a : N -> bool) : Prop :=
  (forall u h, v_gu (c_v c) u = Some h -> g h = b u) /\
  (forall x h, v_gs (c_v c) x = Some h -> a x = g h) /\
  (forall k, In k (live (c_d c)) -> htier (c_d c) k = Irred -> clause_holds a (s_lits (c_s c) k) = true) /\
  (forall l o, In o (c_bin c l) -> clause_holds a [lnot l; o] = true) /\
  (forall x y, s_val (c_s c) x = Some y -> ~ In x (map lit_var (s_trail (c_s c))) \/ s_level (c_s c) x = 0 -> a x = y) /\
  (forall h y, vd_deleted (v_data (c_v c) h) = false -> vd_unit (v_data (c_v c) h) = Some y -> g h = y).
Definition stored (c : ctx) (b : N -> bool) : Prop := st_sat (c_st c) <> Unsat /\ exists g a, stored_by c b g a.

Lemma stored_models F A c b g a : inv false F A c -> stored_by c b g a -> exists b', agree (c_v c) g b' /\ models b' F.
Proof.
  intros [K L] (H1 & H2 & H3 & H4 & H5 & H6). pose proof (iv_base _ _ _ _ K) as B. destruct (iv_search _ _ _ _ K) as [T S _ _]. apply (iv_comp _ _ _ _ K).
  - intros k [Ik Tk]. rewrite <- (H3 k Ik Tk). apply ch_ext. intros l Il. pose proof (proj1 (iv_used _ _ _ _ K) k l Ik Il) as (h & Gh & _).
    unfold lift. rewrite Gh. symmetry. apply H2. exact Gh.
  - intros l o Io. rewrite <- (H4 l o Io).
    destruct (bin_use _ _ _ _ l o (iv_used _ _ _ _ K) (fun l o I => proj2 (proj2 (proj2 (so_bin _ _ _ _ S l o I)))) Io) as [(h1 & G1 & _) (h2 & G2 & _)].
    apply ch_ext. intros z [<-|[<-|[]]]; unfold lift; rewrite ?lnot_var, ?G1, ?G2; symmetry; apply H2; assumption.
  - intros x y [V Fx]. unfold lift. destruct (v_gs (c_v c) x) as [h|] eqn:G; [|rewrite V; reflexivity]. rewrite <- (H2 x h G). apply H5; assumption.
  - intros h y D U. apply (H6 h y D U).
Qed.
Lemma stored_inv F A c S b : inv false F A c -> tied S F (v_gu (c_v c)) -> st_sat (c_st c) <> Unsat -> (stored c b <-> models b S).
Proof.
  intros [K L] Ti Ns. pose proof (iv_base _ _ _ _ K) as B. split.
  - intros (_ & g & a & H). destruct (stored_models F A c b g a (conj K L) H) as (b' & Ag & Mb). apply Ti. exists b'. split; [exact Mb|].
    intros u h Gu. rewrite (Ag h (gu_alive _ _ _ (b_vars _ B) Gu)). exact (proj1 H u h Gu).
  - intros Mb. split; [exact Ns|]. apply Ti in Mb as (g & Mg & Lk). exists g, (lift (c_v c) (c_s c) g). destruct (iv_sound _ _ _ _ K g Mg) as ((S1 & S2) & S3 & S4).
    split; [exact Lk|split; [|split; [|split; [|split]]]].
    + intros x h Gs. unfold lift. rewrite Gs. reflexivity.
    + intros k Ik _. apply S1. exact Ik.
    + exact S2.
    + intros x y V Fx. apply S3. split; assumption.
    + exact S4.
Qed.
Lemma stored_good fr vis S A c b : good fr vis S A c -> (stored c b <-> models b S).
Proof.
  intros (B & _ & _ & G). destruct (st_sat (c_st c)) eqn:St.
  3: { destruct G as [_ N]. split; [intros [X _]; congruence|intros Mb; destruct (N b Mb)]. }
  all: destruct G as (_ & F & K & T & _); eapply stored_inv; [exact K|exact T|congruence].
Qed.

(** In every state after any history, the models of the stored formula are what the history means. *)
Theorem C29_stored_formula : forall fuel pick judge io ks answers c,
  run_all fuel ks (ctx_default pick judge io) = Ret (c, answers) ->
  means (fun _ => True) ks answers (stored c) /\ (no_reveal ks -> forall b, stored c b <-> solutions ks b) /\
  (no_hide ks -> forall b, stored c b <-> forall C, In C (added ks) -> clause_holds b C = true).
Proof.
  intros fuel pick judge io ks answers c E. destruct (history_good _ _ _ _ _ _ _ E) as (S & Me & So & (fr & vis & _ & _ & G) & _).
  assert (Eq : forall b, stored c b <-> S b) by (intros b; apply (stored_good _ _ _ _ _ b G)).
  split; [|split].
  - revert Me Eq. generalize (fun _ : N -> bool => True). generalize (stored c). clear. intros T S0 Me Eq. induction Me as [S S' H|S S1 S' k ks a r H Me IH].
    + constructor. intros b. rewrite Eq. apply H.
    + econstructor; [exact H|]. apply IH. exact Eq.
  - intros R b. rewrite Eq. apply So. exact R.
  - intros H b. rewrite Eq, (So (no_hide_reveal _ H)). apply solutions_added. exact H.
Qed.

(** Adding a clause intersects the models with the models of the clause. *)
Theorem C29_add_clause : forall fuel pick judge io ks answers c C c' b,
  run_all fuel ks (ctx_default pick judge io) = Ret (c, answers) ->
  run fuel (CAdd C) c = Ret (c', ANone) ->
  stored c' b <-> stored c b /\ clause_holds b C = true.
Proof.
  intros fuel pick judge io ks answers c C c' b E Ea. destruct (history_good _ _ _ _ _ _ _ E) as (S & _ & _ & (fr & vis & _ & _ & G) & V & _).
  destruct (spec_get _ _ _ (run_spec fuel (CAdd C) fr vis _ _ c G V) Ea) as (S' & Ms & G2 & _). cbn [step_means] in Ms.
  rewrite (stored_good _ _ _ _ _ b G2), (stored_good _ _ _ _ _ b G). apply Ms.
Qed.

(** * C40 *)
(** Hiding a variable quantifies it away: exactly the assignments that some value of the variable completes stay. *)
Theorem C40_hide_projects : forall fuel pick judge io ks answers c u c' a b,
  run_all fuel ks (ctx_default pick judge io) = Ret (c, answers) ->
  run fuel (CHide u) c = Ret (c', a) ->
  stored c' b <-> exists b0, stored c b0 /\ forall x, x <> u -> b0 x = b x.
Proof.
  intros fuel pick judge io ks answers c u c' a b E Ea. destruct (history_good _ _ _ _ _ _ _ E) as (S & _ & _ & (fr & vis & _ & _ & G) & V & _).
  destruct (spec_get _ _ _ (run_spec fuel (CHide u) fr vis _ _ c G V) Ea) as (S' & Ms & G2 & _). cbn [step_means] in Ms.
  rewrite (stored_good _ _ _ _ _ b G2). rewrite (Ms b). unfold without. split; intros (b0 & M0 & H); exists b0; (split; [apply (stored_good _ _ _ _ _ b0 G); exact M0|exact H]).
Qed.
(** Making hidden variables visible again gives them names that no allowed assignment depended on and neither adds nor removes assignments of the others;
    it returns nothing if nothing was hidden. *)
Theorem C40_observe_extends : forall fuel pick judge io ks answers c c' l,
  run_all fuel ks (ctx_default pick judge io) = Ret (c, answers) ->
  run fuel CObserve c = Ret (c', AVars l) ->
  (forall b, stored c b <-> exists b1, stored c' b1 /\ forall x, ~ In x l -> b1 x = b x) /\ (no_hide ks -> l = []).
Proof.
  intros fuel pick judge io ks answers c c' l E Ea. destruct (history_good _ _ _ _ _ _ _ E) as (S & _ & _ & (fr & vis & _ & Vi & G) & V & _).
  destruct (spec_get _ _ _ (run_spec fuel CObserve fr vis _ _ c G V) Ea) as (S' & Ms & G2 & _ & _ & Ob & _). cbn [step_means] in Ms. split.
  - intros b. rewrite (stored_good _ _ _ _ _ b G). rewrite (Ms b). split; intros (b0 & M0 & H); exists b0; (split; [apply (stored_good _ _ _ _ _ b0 G2); exact M0|exact H]).
  - intros H. apply Ob. apply Vi. exact H.
Qed.
(** All other calls leave the models of the stored formula alone. *)
Theorem C40_others_keep : forall fuel pick judge io ks answers c k c' a,
  match k with CAdd _ | CHide _ | CObserve => False | _ => True end ->
  run_all fuel ks (ctx_default pick judge io) = Ret (c, answers) ->
  run fuel k c = Ret (c', a) -> forall b, stored c' b <-> stored c b.
Proof.
  intros fuel pick judge io ks answers c k c' a H E Ea b. destruct (history_good _ _ _ _ _ _ _ E) as (S & _ & _ & (fr & vis & _ & _ & G) & V & _).
  destruct (spec_get _ _ _ (run_spec fuel k fr vis _ _ c G V) Ea) as (S' & Ms & G2 & _).
  rewrite (stored_good _ _ _ _ _ b G2), (stored_good _ _ _ _ _ b G). destruct k; try contradiction; exact (Ms b).
Qed.

(** A case: [x1] is equivalent to [x0 & x2]; hiding it leaves no constraint on the others, a clause over the new variable [x1] does not speak about
    the old one, and the old one comes back under a new name. *)
Definition C40_history : list call := [CAdd [M 1; P 0]; CAdd [M 1; P 2]; CAdd [P 1; M 0; M 2]; CSolve; CHide 1; CAdd [M 1]; CAssume [P 0; P 2]; CSolve].
Example C40_case :
  after (run_all 200 C40_history plain_ctx) (fun c r => (last r ANone, get_model c)) (ANone, Ret None) = (ASolved true, Ret (Some [P 0; M 1; P 2])) /\
  after (run_all 200 (C40_history ++ [CObserve]) plain_ctx) (fun c r => (last r ANone, get_model c)) (ANone, Ret None) = (AVars [3%N], Ret (Some [P 0; M 1; P 2; P 3])) /\
  after (run_all 200 (C40_history ++ [CObserve; CSample 3; CAssume [P 0; P 2; M 3]; CSolve]) plain_ctx) (fun c r => (last r ANone, get_failed_core c)) (ANone, None) = (ASolved false, Some [M 3; P 2; P 0]).
Proof. repeat split; vm_compute; reflexivity. Qed.

(** * C31 *)
(** States in the course of a solve: any number of rounds after a history of calls *)
Inductive rounds (fuel : nat) : ctx -> ctx -> Prop :=
| ro_refl c : rounds fuel c c
| ro_step c c1 c2 : rounds fuel c c1 -> schedule_step fuel c1 = Ret (c2, true) -> rounds fuel c c2.
Definition in_search (fuel : nat) (ks : list call) (c : ctx) : Prop :=
  exists pick judge io answers c0, run_all fuel ks (ctx_default pick judge io) = Ret (c0, answers) /\ rounds fuel c0 c.

Lemma rounds_progress t z w S U F A fuel c c' : rounds fuel c c' -> progress t z w S U F A c -> progress t z w S U F A c'.
Proof.
  induction 1; intros Pr; [exact Pr|]. exact (proj1 (spec_get _ _ _ (schedule_step_spec t z w S U F A fuel c1 (IHrounds Pr)) H0)).
Qed.
Lemma search_inv_of fuel ks c : in_search fuel ks c -> st_sat (c_st c) <> Unsat ->
  exists S F A, (no_reveal ks -> forall b, S b <-> solutions ks b) /\ (no_hide ks -> all_shown (c_v c)) /\ inv false F A c /\ tied S F (v_gu (c_v c)).
Proof.
  intros (pick & judge & io & answers & c0 & E & R) Ns. destruct (history_good _ _ _ _ _ _ _ E) as (S & _ & So & (fr & vis & _ & Vi & G) & _).
  destruct (good_progress _ _ _ _ _ G) as (F & A & P0). destruct (rounds_progress _ _ _ _ _ _ _ _ _ _ R P0) as (_ & W & Pr). exists S, F, A. split; [exact So|].
  split; [intros H; apply W; apply Vi; exact H|]. destruct (st_sat (c_st c)); try congruence; destruct Pr as (K & (_ & _ & T) & _); auto.
Qed.

(** From any state of the search: after a restart, complete propagation without conflict, [prove_units] and
    [unit_simplify] succeed, the stored formula keeps its models, no value is left to propagate, and every clause
    has at least two different variables, none of which has a value. *)
Theorem C31_simplification : forall fuel ks c s, in_search fuel ks c -> st_sat (c_st c) <> Unsat ->
  let c0 := full_restart c in
  propagate (v_slen (c_v c0)) (live (c_d c0)) (c_bin c0) (c_s c0) = (s, POk) ->
  forall c1 new c2, prove_units (cw_s c0 s) = Ret (c1, new) -> (if new then unit_simplify c1 else Ret c1) = Ret c2 ->
  (forall b, stored c2 b <-> stored c b) /\ s_trail (c_s c2) = [] /\
  (forall k, In k (live (c_d c2)) -> 3 <= length (s_lits (c_s c2) k) /\ NoDup (map lit_var (s_lits (c_s c2) k)) /\
     forall l, In l (s_lits (c_s c2) k) -> s_val (c_s c2) (lit_var l) = None) /\
  (forall l o, In o (c_bin c2 l) -> lit_var l <> lit_var o /\ s_val (c_s c2) (lit_var l) = None /\ s_val (c_s c2) (lit_var o) = None).
Proof.
  intros fuel ks c s R Ns c0 Ep c1 new c2 E1 E2. destruct (search_inv_of _ _ _ R Ns) as (So & F & A & _ & _ & K & Ti).
  destruct (full_restart_ground F A c K) as ([K0 D0] & Ev & Es & _). fold c0 in K0, D0, Ev, Es.
  destruct (propagate_core F A c0 s POk (proj1 K0) Ep) as (Kp & Dp & _ & Hp).
  assert (Dp' : s_decs (c_s (cw_s c0 s)) = []) by (cbn; congruence).
  pose proof (spec_get _ _ _ (prove_units_simp F A (cw_s c0 s) Kp Dp' Hp) E1) as Q1. cbv beta iota in Q1.
  assert (Q2 : inv false F A c2 /\ s_trail (c_s c2) = [] /\ s_head (c_s c2) = 0 /\ s_decs (c_s c2) = []).
  { destruct new; [exact (spec_get _ _ _ (unit_simplify_spec F A c1 (proj1 Q1)) E2)|]. injection E2 as <-. exact Q1. }
  destruct Q2 as (K2 & T2 & _ & _).
  assert (Kk : kept c0 c2).
  { eapply kept_trans; [|eapply kept_trans; [exact (prove_units_kept _ _ E1)|]]; [constructor; auto|]. destruct new; [exact (unit_simplify_kept _ _ E2)|]. injection E2 as <-. apply kept_refl. }
  assert (S2 : st_sat (c_st c2) <> Unsat) by (rewrite (ke_sat _ _ Kk), Es; exact Ns).
  assert (T2' : tied So F (v_gu (c_v c2))) by (rewrite (ke_gu _ _ Kk), Ev; exact Ti).
  split; [intros b; rewrite (stored_inv F A c2 So b K2 T2' S2), (stored_inv F A c So b K Ti Ns); reflexivity|]. split; [exact T2|].
  destruct (iv_search _ _ _ _ (proj1 K2)) as [T S _ _].
  assert (Un : forall l, ~ on_trail (c_s c2) l) by (intros l O; unfold on_trail in O; rewrite T2 in O; exact O).
  split.
  - intros k Ik. destruct (so_clause _ _ _ _ S k Ik) as (L3 & Nd & _). split; [exact L3|]. split; [exact Nd|].
    intros l Il. destruct (s_val (c_s c2) (lit_var l)) eqn:V; [|reflexivity]. exfalso. apply (Un l). apply (so_on_long _ _ _ _ S k l Ik Il). congruence.
  - intros l o Io. destruct (so_bin _ _ _ _ S l o Io) as (_ & _ & Ne & Io2). split; [congruence|]. split.
    + destruct (s_val (c_s c2) (lit_var l)) eqn:V; [|reflexivity]. exfalso. apply (Un (lnot l)). apply (so_on_bin _ _ _ _ S _ _ Io2). rewrite lnot_var. congruence.
    + destruct (s_val (c_s c2) (lit_var o)) eqn:V; [|reflexivity]. exfalso. apply (Un o). apply (so_on_bin _ _ _ _ S _ _ Io). congruence.
Qed.

(** Learned clauses are consequences of the rest of the stored formula, in every state of the search. *)
Theorem C31_learned_implied : forall fuel ks c b g a k, in_search fuel ks c -> st_sat (c_st c) <> Unsat ->
  stored_by c b g a -> In k (live (c_d c)) -> clause_holds a (s_lits (c_s c) k) = true.
Proof.
  intros fuel ks c b g a k R Ns H Ik. destruct (search_inv_of _ _ _ R Ns) as (S & F & A & _ & _ & [K L] & Ti).
  destruct (stored_models F A c b g a (conj K L) H) as (b' & Ag & Mb). destruct (iv_sound _ _ _ _ K b' Mb) as ((S1 & _) & _).
  rewrite <- (S1 k Ik). apply ch_ext. intros l Il. destruct (proj1 (iv_used _ _ _ _ K) k l Ik Il) as (h & Gh & _). unfold lift. rewrite Gh.
  destruct H as (_ & H2 & _). rewrite (H2 _ _ Gh). symmetry. apply Ag. pose proof (b_vars _ (iv_base _ _ _ _ K)) as V. apply (vo_used _ V h (lit_var l)). apply (vo_sg _ V). exact Gh.
Qed.
(** Without hidden variables: consequences of the added clauses, in the names of the user *)
Theorem C31_learned_clauses : forall fuel ks c b k, no_hide ks -> in_search fuel ks c -> st_sat (c_st c) <> Unsat ->
  (forall C, In C (added ks) -> clause_holds b C = true) -> In k (live (c_d c)) ->
  exists l, In l (s_lits (c_s c) k) /\ exists h u, v_gs (c_v c) (lit_var l) = Some h /\ v_gu (c_v c) u = Some h /\ lit_holds b (lit_of u (is_positive l)) = true.
Proof.
  intros fuel ks c b k H R Ns Mb Ik. pose proof R as R0. destruct (search_inv_of _ _ _ R Ns) as (S & F & A & So & Sh & K & Ti).
  assert (Sb : models b S) by (apply (So (no_hide_reveal _ H)); apply (solutions_added ks b H); exact Mb).
  apply (stored_inv F A c S b K Ti Ns) in Sb as (_ & g & a & St). pose proof (C31_learned_implied _ _ _ _ _ _ _ R0 Ns St Ik) as Hk.
  apply ch_in in Hk as (l & Il & Hl). exists l. split; [exact Il|]. destruct (proj1 (iv_used _ _ _ _ (proj1 K)) k l Ik Il) as (h & Gh & _).
  pose proof (b_vars _ (iv_base _ _ _ _ (proj1 K))) as V.
  assert (Dh : vd_deleted (v_data (c_v c) h) = false) by (apply (vo_used _ V h (lit_var l)); apply (vo_sg _ V); exact Gh).
  destruct (v_ug (c_v c) h) as [u|] eqn:Eu; [|exfalso; exact (Sh H h Dh Eu)]. apply (vo_ug _ V) in Eu. exists h, u. split; [exact Gh|]. split; [exact Eu|].
  destruct St as (H1 & H2 & _). apply lh_true in Hl. apply lh_true. rewrite lo_var, lo_pos. rewrite <- (H1 u h Eu), <- (H2 _ _ Gh). exact Hl.
Qed.

(** * C39 *)
(** No history of calls makes the solver index out of bounds, miss the name of a variable or violate one of its own assertions.
    The panics left are the documented ones and the full clause allocator. *)
Theorem C39_no_internal_panic : forall fuel pick judge io ks p,
  run_all fuel ks (ctx_default pick judge io) = Panic p ->
  p = PWitness \/ p = PAssumed \/ p = PSelfCheck \/ p = PInvalid \/ p = PLate \/ p = PDrat \/ p = PHashBits \/ p = PFull.
Proof.
  intros fuel pick judge io ks p E.
  pose proof (run_all_spec fuel ks true true (fun _ => True) [] (false, true) _ (default_good pick judge io) C38_default_valid
    (fun _ X => ltac:(discriminate X)) (fun _ X => ltac:(discriminate X))) as Sp.
  rewrite E in Sp. destruct p; cbn in Sp; try contradiction; tauto.
Qed.

(** A history that only adds clauses and variables, sets assumptions, solves and changes options panics for no other reason than a full
    clause allocator, and each of its [solve] calls answers. *)
Theorem C39_plain_use : forall fuel pick judge io ks,
  (forall k, In k ks -> match k with CAdd _ | CNewVar | CAssume _ | CSolve | CConfig _ => True | _ => False end) ->
  match run_all fuel ks (ctx_default pick judge io) with
  | Ret (_, r) => forall e, ~ In (AError e) r
  | Panic p => p = PFull
  | NoFuel => True
  end.
Proof.
  intros fuel pick judge io ks H.
  assert (B : Forall basic ks) by (apply Forall_forall; exact H).
  pose proof (a_run_all fuel ks _ B (default_calm pick judge io)) as A. pose proof (C39_no_internal_panic fuel pick judge io ks) as P.
  destruct (run_all fuel ks _) as [[c r]|p|]; [|specialize (P p eq_refl); destruct p; cbn in A; try contradiction; try reflexivity; exfalso|exact Logic.I].
  - intros e I. destruct A as [_ A]. rewrite Forall_forall in A. exact (A _ I Logic.I).
  - intuition congruence.
  - intuition congruence.
  - intuition congruence.
  - intuition congruence.
Qed.

(** Cases that meet the hypotheses of C29: after the second clause the solver has [x1] as a unit, adding [~x1] makes it inconsistent. *)
Example C29_case : let ks := [CAdd [P 0; P 1]; CSolve; CAdd [M 0]] in no_hide ks /\ no_reveal C40_history /\
  after (run_all 100 ks plain_ctx) (fun c r => match run 100 (CAdd [M 1; P 2; M 2; P 3]) c, run 100 (CAdd [M 1]) c with
    | Ret (_, ANone), Ret (_, ANone) => true | _, _ => false end) false = true.
Proof.
  split; [|split; [|vm_compute; reflexivity]].
  - intros v I. repeat (destruct I as [I|I]; [discriminate|]). destruct I.
  - cbn. intros I. repeat (destruct I as [I|I]; [discriminate|]). destruct I.
Qed.

(** A case that meets the hypotheses of C31: one unit implies another, removes the second clause, makes the first clause binary and shortens the last. *)
Definition C31_history : list call := [CAdd [P 0; P 1; P 2]; CAdd [P 0; P 3]; CAdd [P 3; P 4; P 5]; CAdd [M 3; P 1; P 2; M 5]; CAdd [M 0]].
Example C31_case : after (run_all 100 C31_history plain_ctx) (fun c _ =>
    let c0 := full_restart c in
    let '(s, r) := propagate (v_slen (c_v c0)) (live (c_d c0)) (c_bin c0) (c_s c0) in
    match r, prove_units (cw_s c0 s) with
    | POk, Ret (c1, true) => match unit_simplify c1 with
        | Ret c2 => (map (s_lits (c_s c)) (live (c_d c)), map (s_lits (c_s c2)) (live (c_d c2)), map (c_bin c2) [P 1; M 1; P 2; M 2])
        | _ => ([], [], []) end
    | _, _ => ([], [], []) end) ([], [], [])
  = ([[P 0; P 1; P 2]; [P 3; P 4; P 5]; [P 1; P 2; M 3; M 5]], [[P 1; P 2; M 5]], [[]; [P 2]; []; [P 1]]).
Proof. vm_compute. reflexivity. Qed.

(** A case of C39: histories of all kinds of calls run to the end without panic. *)
Example C39_case : match run_all 200 ([CWitness 7; CCheck; CWriteProof FVarisat] ++ C31_history ++ [CSample 8; CSolve; CAssume [P 1; M 2]; CSolve; CNewVar; CObserve; CAssume []; CHide 1; CHide 9] ++ C27_history ++ [CSolve; CCloseProof]) plain_ctx
  with Ret (_, r) => last (removelast r) ANone = ASolved true | _ => False end.
Proof. vm_compute. reflexivity. Qed.

Print Assumptions C27_model_correct.
Print Assumptions C27_model_solutions.
Print Assumptions C27_model_clauses.
Print Assumptions C27_model_returned.
Print Assumptions C28_unsat_correct.
Print Assumptions C28_unsat_solutions.
Print Assumptions C28_unsat_clauses.
Print Assumptions C28_core_unsat_partial.
Print Assumptions C29_stored_formula.
Print Assumptions C29_add_clause.
Print Assumptions C31_simplification.
Print Assumptions C31_learned_implied.
Print Assumptions C31_learned_clauses.
Print Assumptions C40_hide_projects.
Print Assumptions C40_observe_extends.
Print Assumptions C40_others_keep.
Print Assumptions C39_no_internal_panic.
Print Assumptions C39_plain_use.
