(** An independent LRAT checker working on the operations of a parsed file, and
    the proof that it accepts what replays ([CheckerReplay]).  Specification only:
    not a model of code in /repo. *)
From Coq Require Import Arith ZArith ZifyBool ZifyNat ZifyN Sorted.
From Verif Require Import Spec Lit LitProofs SortedLits SortedLitsProofs Hash Vli BinFormat Checker CheckerStore CheckerInv CheckerOps CheckerRup CheckerSteps CheckerRun CheckerCount CheckerReplay Lrat LratSpec LratProofs.

(** * The LRAT checker *)
Definition ldb := Z -> option (list Z).
Definition l_put (db : ldb) (i : Z) (l : list Z) : ldb := fun j => if (j =? i)%Z then Some l else db j.
Definition l_del (db : ldb) (i : Z) : ldb := fun j => if (j =? i)%Z then None else db j.
(** starting from the false literals [fal], each hint yields one more literal, and
    the last one a conflict *)
Fixpoint lrat_hints (db : ldb) (fal hints : list Z) : bool :=
  match hints with
  | [] => false
  | i :: rest =>
      match db i with
      | None => false
      | Some cl =>
          match nodup Z.eq_dec (filter (fun l => negb (existsb (Z.eqb l) fal)) cl) with
          | [] => match rest with [] => true | _ => false end
          | [l] => negb (existsb (Z.eqb (- l)) fal) && lrat_hints db ((- l)%Z :: fal) rest
          | _ => false
          end
      end
  end.
(** [fresh]: whether the checker insists on unused clause numbers *)
Definition lrat_op (fresh : bool) (db : ldb) (o : op) : option ldb :=
  match o with
  | OAdd id lits hints =>
      if (negb fresh || match db id with None => true | Some _ => false end) && forallb (fun z => negb (z =? 0)%Z) lits && lrat_hints db lits hints then Some (l_put db id lits) else None
  | ODel id => match db id with None => None | Some _ => Some (l_del db id) end
  end.
Fixpoint lrat_ops (fresh : bool) (db : ldb) (os : list op) : option ldb :=
  match os with [] => Some db | o :: os => match lrat_op fresh db o with Some d => lrat_ops fresh d os | None => None end end.
(** the clauses of the formula are numbered from one *)
Definition lrat_init (f : list (list N)) : ldb :=
  fun z => if (z <=? 0)%Z then None else option_map (map zlit) (nth_error f (Z.to_nat (z - 1))).

Lemma lrat_ops_app fresh a : forall db b, lrat_ops fresh db (a ++ b) = match lrat_ops fresh db a with Some d => lrat_ops fresh d b | None => None end.
Proof. induction a as [|o a IH]; intros db b; cbn [app lrat_ops]; [reflexivity|]. destruct (lrat_op fresh db o); auto. Qed.

(** * Its soundness *)
Definition ztrue (a : asg) (z : Z) : bool := if (z <? 0)%Z then negb (a (Z.to_N (- z - 1))) else a (Z.to_N (z - 1)).
Definition lholds (a : asg) (db : ldb) : Prop := forall i l, db i = Some l -> existsb (ztrue a) l = true /\ Forall (fun z => z <> 0%Z) l.

Lemma ztrue_neg a z : z <> 0%Z -> ztrue a (- z) = negb (ztrue a z).
Proof.
  intros H. unfold ztrue. destruct (Z.ltb_spec (- z) 0), (Z.ltb_spec z 0); try lia.
  - replace (- - z - 1)%Z with (z - 1)%Z by lia. reflexivity.
  - rewrite negb_involutive. reflexivity.
Qed.
Lemma ztrue_lit a l : ztrue a (zlit l) = lit_holds a l.
Proof.
  unfold ztrue, zlit, lit_holds. destruct (N.odd l).
  - destruct (Z.ltb_spec (- Z.of_N (N.div2 l + 1)) 0); [|lia]. replace (Z.to_N _) with (N.div2 l) by lia. destruct (a (N.div2 l)); reflexivity.
  - destruct (Z.ltb_spec (Z.of_N (N.div2 l + 1)) 0); [lia|]. replace (Z.to_N _) with (N.div2 l) by lia. destruct (a (N.div2 l)); reflexivity.
Qed.
Lemma ztrue_clause a cl : existsb (ztrue a) (map zlit cl) = clause_holds a cl.
Proof. unfold clause_holds. induction cl as [|l cl IH]; [reflexivity|]. cbn [map existsb]. rewrite ztrue_lit, IH. reflexivity. Qed.

Lemma lrat_hints_sound a db : lholds a db -> forall hints fal, lrat_hints db fal hints = true -> existsb (ztrue a) fal = true.
Proof.
  intros D. induction hints as [|i hints IH]; intros fal H; cbn [lrat_hints] in H; [discriminate|].
  destruct (db i) as [cl|] eqn:E; [|discriminate]. destruct (D _ _ E) as [D1 D2]. apply existsb_exists in D1 as (l&L1&L2).
  destruct (existsb (Z.eqb l) fal) eqn:F.
  - apply existsb_exists in F as (x&X1&X2). apply Z.eqb_eq in X2. subst x. apply existsb_exists. eauto.
  - assert (IN : In l (nodup Z.eq_dec (filter (fun l => negb (existsb (Z.eqb l) fal)) cl))) by (apply nodup_In, filter_In; rewrite F; auto).
    destruct (nodup _ _) as [|x [|y U]]; [destruct IN| |discriminate]. destruct IN as [->|[]].
    apply andb_prop in H as [_ H]. apply IH in H. cbn [existsb] in H. apply orb_prop in H as [H|H]; [|exact H].
    rewrite Forall_forall in D2. rewrite ztrue_neg, L2 in H by (apply D2; exact L1). discriminate.
Qed.
Lemma lrat_ops_sound fresh a : forall os db db', lholds a db -> lrat_ops fresh db os = Some db' ->
  forall id lits hints, In (OAdd id lits hints) os -> existsb (ztrue a) lits = true.
Proof.
  induction os as [|o os IH]; intros db db' D H id lits hints IN; [destruct IN|]. cbn [lrat_ops] in H. destruct (lrat_op fresh db o) as [d|] eqn:E; [|discriminate].
  assert (G : lholds a d /\ forall id lits hints, o = OAdd id lits hints -> existsb (ztrue a) lits = true).
  { destruct o as [i l h|i]; cbn [lrat_op] in E.
    - destruct (_ && lrat_hints db l h) eqn:G; [|discriminate]. apply andb_prop in G as [G1 G2]. apply andb_prop in G1 as [_ G1]. injection E as <-. pose proof (lrat_hints_sound a db D _ _ G2) as T.
      split; [|intros ? ? ? X; injection X as <- <- <-; exact T]. intros j m. unfold l_put. destruct (j =? i)%Z; [|apply D]. intros X. injection X as <-. split; [exact T|].
      apply Forall_forall. intros z Hz. apply (proj1 (forallb_forall _ _) G1) in Hz. lia.
    - destruct (db i); [|discriminate]. injection E as <-. split; [|discriminate]. intros j m. unfold l_del. destruct (j =? i)%Z; [discriminate|apply D]. }
  destruct G as [G1 G2]. destruct IN as [->|IN]; [eapply G2; reflexivity|eapply IH; eassumption].
Qed.
Lemma lrat_init_holds a f : formula_holds a f = true -> lholds a (lrat_init f).
Proof.
  intros H i l. unfold lrat_init. destruct (i <=? 0)%Z; [discriminate|]. destruct (nth_error f _) as [cl|] eqn:E; [|discriminate]. cbn [option_map]. intros X. injection X as <-.
  split; [|apply zlit_nz]. rewrite ztrue_clause. apply (proj1 (forallb_forall _ _) H). eapply nth_error_In, E.
Qed.

(** * Simulation *)
Definition same_lits (m : list Z) (l : list N) : Prop := forall z, In z m <-> In z (map zlit l).
Definition Sim (D : cdb) (L : ldb) : Prop := forall i l, D i = Some l -> exists m, L (zid i) = Some m /\ same_lits m l.

Lemma zid_inj i j : zid i = zid j -> i = j.
Proof. unfold zid. lia. Qed.
Lemma zlit_opp l : zlit (opp l) = (- zlit l)%Z.
Proof.
  unfold zlit, opp. destruct (N.odd l) eqn:O.
  - assert (E : N.odd (l - 1) = false) by (rewrite N.odd_sub by (destruct l; [discriminate|lia]); rewrite O; reflexivity).
    assert (D : N.div2 (l - 1) = N.div2 l). { pose proof (N.div2_odd l) as A. pose proof (N.div2_odd (l - 1)) as B. rewrite O in A. rewrite E in B. cbv iota in *. cbn [N.b2n] in *. lia. }
    rewrite E, D. lia.
  - assert (E : N.odd (l + 1) = true) by (rewrite N.odd_add, O; reflexivity).
    assert (D : N.div2 (l + 1) = N.div2 l). { pose proof (N.div2_odd l) as A. pose proof (N.div2_odd (l + 1)) as B. rewrite O in A. rewrite E in B. cbv iota in *. cbn [N.b2n] in *. lia. }
    rewrite E, D. reflexivity.
Qed.
Lemma zlit_inj a b : zlit a = zlit b -> a = b.
Proof.
  unfold zlit. intros H. pose proof (N.div2_odd a) as A. pose proof (N.div2_odd b) as B.
  destruct (N.odd a), (N.odd b); cbn [N.b2n] in *; lia.
Qed.
Lemma zlit_mem x l : existsb (Z.eqb (zlit x)) (map zlit l) = existsb (N.eqb x) l.
Proof.
  induction l as [|y l IH]; [reflexivity|]. cbn [map existsb]. rewrite IH. f_equal.
  destruct (N.eqb_spec x y) as [->|NE]; [apply Z.eqb_refl|]. apply Z.eqb_neq. intros E. apply NE, zlit_inj, E.
Qed.

Lemma nodup_set_nil (l : list Z) : (forall z, ~ In z l) -> nodup Z.eq_dec l = [].
Proof. destruct l as [|x l]; [reflexivity|]. intros H. destruct (H x (or_introl eq_refl)). Qed.
Lemma nodup_set_one (l : list Z) x : (forall z, In z l <-> z = x) -> nodup Z.eq_dec l = [x].
Proof.
  intros H. assert (H' : forall z, In z (nodup Z.eq_dec l) <-> z = x) by (intros z; rewrite nodup_In; apply H).
  pose proof (NoDup_nodup Z.eq_dec l) as ND. destruct (nodup Z.eq_dec l) as [|a [|b r]].
  - destruct (proj2 (H' x) eq_refl).
  - f_equal. apply H'. left. reflexivity.
  - exfalso. inversion ND as [|? ? N1 _]; subst. apply N1. left. rewrite (proj1 (H' a) (or_introl eq_refl)). apply H'. right. left. reflexivity.
Qed.

Lemma hints_sim D L : Sim D L -> forall hints fal, hint_check D fal hints = true -> lrat_hints L (map zlit fal) (map zid hints) = true.
Proof.
  intros S. induction hints as [|i hints IH]; intros fal H; cbn [hint_check] in H; [discriminate|]. cbn [map lrat_hints].
  destruct (D i) as [cl|] eqn:DI; [|discriminate]. destruct (S _ _ DI) as (m&M1&M2). rewrite M1.
  set (p := fun l => negb (existsb (N.eqb l) fal)) in *. set (q := fun l => negb (existsb (Z.eqb l) (map zlit fal))).
  assert (F : forall z, In z (filter q m) <-> In z (map zlit (filter p cl))).
  { intros z. unfold same_lits in M2. rewrite filter_In, (M2 z), !in_map_iff. split.
    - intros [(x&<-&X) Q]. exists x. split; [reflexivity|]. apply filter_In. split; [exact X|]. unfold p. unfold q in Q. rewrite zlit_mem in Q. exact Q.
    - intros (x&<-&X). apply filter_In in X as [X P]. split; [eauto|]. unfold q. rewrite zlit_mem. exact P. }
  destruct (filter p cl) as [|x [|y r]]; [| |discriminate].
  - rewrite nodup_set_nil by (intros z Hz; apply F in Hz; exact Hz). destruct hints; [reflexivity|discriminate].
  - rewrite (nodup_set_one _ (zlit x)) by (intros z; rewrite F; cbn; intuition). rewrite <- zlit_opp, zlit_mem. apply andb_prop in H as [H1 H2]. rewrite H1. exact (IH _ H2).
Qed.

Lemma sim_del D L i : Sim D L -> Sim (db_del D i) (l_del L (zid i)).
Proof.
  intros S j l. unfold db_del, l_del. destruct (N.eqb_spec j i) as [->|NE]; [discriminate|]. intros E. destruct (Z.eqb_spec (zid j) (zid i)) as [X|_]; [apply zid_inj in X; congruence|eauto].
Qed.
Lemma sim_put D L i l m : Sim D L -> same_lits m l -> Sim (db_put D i l) (l_put L (zid i) m).
Proof.
  intros S E j k. unfold db_put, l_put. destruct (N.eqb_spec j i) as [->|NE].
  - intros X. injection X as <-. rewrite Z.eqb_refl. eauto.
  - intros X. destruct (Z.eqb_spec (zid j) (zid i)) as [Y|_]; [apply zid_inj in Y; congruence|eauto].
Qed.
Lemma sim_free D L i : Sim D L -> D i = None -> Sim D (l_del L (zid i)).
Proof. intros S N j l E. unfold l_del. destruct (Z.eqb_spec (zid j) (zid i)) as [Y|_]; [apply zid_inj in Y; congruence|eauto]. Qed.

Lemma db_has_some D i l : db_has D i l = true -> D i = Some l.
Proof. unfold db_has. destruct (D i) as [m|]; [|discriminate]. intros H. apply lits_eqb_eq in H. congruence. Qed.
Lemma db_free_none D i : db_free D i = true -> D i = None.
Proof. unfold db_free. destruct (D i); [discriminate|reflexivity]. Qed.

Lemma sim_remove fresh D L i l : Sim D L -> db_has D i l = true -> exists L', lrat_ops fresh L [ODel (zid i)] = Some L' /\ Sim (db_del D i) L' /\ (forall z, L' z <> None -> L z <> None).
Proof.
  intros S H. apply db_has_some in H. destruct (S _ _ H) as (m&M&_). cbn [lrat_ops lrat_op]. rewrite M. eexists. split; [reflexivity|]. split; [apply sim_del, S|].
  intros z. unfold l_del. destruct (z =? zid i)%Z; congruence.
Qed.

(** derivation and deletion steps *)
Lemma sim_replay fresh : forall ks D D' L, Forall (fun k => ~ input_step k) ks -> replay false D ks = Some D' -> Sim D L ->
  StronglySorted N.lt (flat_map intro_id ks) -> (fresh = true -> forall i z, In i (flat_map intro_id ks) -> L z <> None -> (z < zid i)%Z) ->
  exists L', lrat_ops fresh L (flat_map step_ops ks) = Some L' /\ Sim D' L'.
Proof.
  induction ks as [|k ks IH]; intros D D' L F R S SS FR; cbn [replay] in R.
  - inversion R; subst. exists L. split; [reflexivity|exact S].
  - destruct (replay1 false D k) as [D1|] eqn:E; [|discriminate]. inversion F as [|? ? NI F']; subst.
    assert (G : exists L1, lrat_ops fresh L (step_ops k) = Some L1 /\ Sim D1 L1 /\ (forall z, L1 z <> None -> L z <> None \/ exists i, intro_id k = [i] /\ z = zid i)).
    { destruct k as [v u|id l|id sm l|id l|id red l hs|id l|id keep l hs|id keep l pv|id l|mo|l|core hs]; cbn [replay1 step_ops] in *; try (destruct (NI Logic.I)).
      - injection E as <-. exists L. repeat split; auto.
      - destruct (db_free D id) eqn:FD; [|discriminate]. destruct (hint_check D l hs) eqn:HC; [|discriminate]. injection E as <-.
        cbn [lrat_ops lrat_op]. rewrite (hints_sim _ _ S _ _ HC). replace (negb fresh || match L (zid id) with None => true | Some _ => false end) with true.
        + replace (forallb _ _) with true by (symmetry; apply forallb_forall; intros z Hz; pose proof (zlit_nz l) as NZ; rewrite Forall_forall in NZ; specialize (NZ z Hz); lia).
          cbn [andb]. eexists. split; [reflexivity|]. split; [apply sim_put; [exact S|intros z; reflexivity]|]. intros z. unfold l_put. destruct (Z.eqb_spec z (zid id)) as [->|]; [right; exists id; split; reflexivity|auto].
        + destruct fresh; [|reflexivity]. destruct (L (zid id)) eqn:LI; [|reflexivity]. exfalso. specialize (FR eq_refl id (zid id) (or_introl eq_refl)). rewrite LI in FR. specialize (FR ltac:(discriminate)). lia.
      - destruct (db_has D id l) eqn:H; [|discriminate]. injection E as <-. destruct (sim_remove fresh _ _ _ _ S H) as (L1&A&B&C). exists L1. auto.
      - destruct (db_has D id l) eqn:H; [|discriminate]. cbn [negb orb andb] in E. injection E as <-. destruct keep; [exists L; repeat split; auto|].
        destruct (sim_remove fresh _ _ _ _ S H) as (L1&A&B&C). exists L1. auto.
      - destruct keep; (destruct (db_has D id l) eqn:H; [|discriminate]); injection E as <-; [exists L; repeat split; auto|].
        destruct (sim_remove fresh _ _ _ _ S H) as (L1&A&B&C). exists L1. auto.
      - destruct (db_has D id l) eqn:H; [|discriminate]. injection E as <-. exists L. repeat split; auto.
      - injection E as <-. exists L. repeat split; auto.
      - injection E as <-. exists L. repeat split; auto.
      - destruct (_ || _); [|discriminate]. injection E as <-. exists L. repeat split; auto. }
    destruct G as (L1&A&B&C). cbn [flat_map] in *. rewrite lrat_ops_app, A.
    assert (SS' : StronglySorted N.lt (flat_map intro_id ks) /\ forall i j, In i (intro_id k) -> In j (flat_map intro_id ks) -> i < j).
    { assert (ID : intro_id k = [] \/ exists i, intro_id k = [i]) by (destruct k; cbn; eauto). destruct ID as [E0|[i E0]]; rewrite E0 in *; cbn [app] in SS.
      - split; [exact SS|intros ? ? []].
      - apply StronglySorted_inv in SS as [S1 S2]. split; [exact S1|]. intros i' j [<-|[]] J. rewrite Forall_forall in S2. auto. }
    destruct SS' as [SS1 SS2]. apply (IH D1 D' L1 F' R B SS1). intros FT i z Hi Hz. destruct (C _ Hz) as [X|(j&X1&->)].
    + apply (FR FT); [apply in_or_app; auto|exact X].
    + assert (J : j < i) by (apply SS2; [rewrite X1; left; reflexivity|exact Hi]). unfold zid. lia.
Qed.

(** * Loading a formula *)
Inductive load_log : N -> list (list N) -> list checked_step -> Prop :=
| LL_stop j f : load_log j f []
| LL_load j c f k mk ks : load_log (j + 1) f ks ->
    k = KAddClause j (canon c) \/ k = KTautologicalClause j (canon c) \/ (exists s, k = KDuplicatedClause j s (canon c)) ->
    mk = [] \/ (exists s, mk = [KMakeIrredundant s (canon c)]) -> load_log j (c :: f) (mk ++ k :: ks)
| LL_other j f k ks : ~ input_step k -> intro_id k = [] -> load_log j f ks -> load_log j f (k :: ks).

Lemma load_unsat : forall f c, s_unsat (c_state c) = true -> run c (map Load f) = ROk tt c.
Proof. induction f as [|cl f IH]; intros c U; cbn [map run]; [reflexivity|]. cbn [exec]. unfold add_clause. rewrite U. cbn [bind]. apply IH, U. Qed.

(** one clause *)
Lemma load_one c cl c1 : add_eff c cl c1 -> s_unsat (c_state c) = false ->
  exists k mk, (k = KAddClause (next_clause_id (c_clauses c)) (canon cl) \/ k = KTautologicalClause (next_clause_id (c_clauses c)) (canon cl) \/ (exists s, k = KDuplicatedClause (next_clause_id (c_clauses c)) s (canon cl))) /\
    (mk = [] \/ (exists s, mk = [KMakeIrredundant s (canon cl)])) /\ emits c c1 (mk ++ [k]) /\ next_clause_id (c_clauses c1) = next_clause_id (c_clauses c) + 1.
Proof.
  intros T US. destruct T as [X _|_ _ _ _ CX EM|cl1 id r _ _ SE X]; [congruence| |].
  - eexists _, []. split; [right; left; reflexivity|]. split; [auto|]. split; [exact EM|]. rewrite CX. reflexivity.
  - destruct (store_next _ _ _ _ _ _ _ _ SE) as [(->&->&NX)|(NR&NX)].
    + destruct X as [CX EM]. eexists _, []. split; [left; reflexivity|]. split; [auto|]. split; [exact EM|]. rewrite CX. exact NX.
    + destruct r; [congruence| |]; destruct X as [CX EM]; rewrite NX in *; rewrite CX.
      * eexists _, _. split; [right; right; eexists; reflexivity|]. split; [|split; [exact EM|reflexivity]]. auto.
      * eexists _, _. split; [right; right; eexists; reflexivity|]. split; [|split; [exact EM|reflexivity]]. eauto.
Qed.
Lemma load_spec : forall f c c', Inv c -> Forall lits_u32 f -> run c (map Load f) = ROk tt c' -> s_unsat (c_state c) = false ->
  exists ks, proc_log (c_proc c') = proc_log (c_proc c) ++ ks /\ load_log (next_clause_id (c_clauses c)) f ks /\
    (s_unsat (c_state c') = false -> next_clause_id (c_clauses c') = next_clause_id (c_clauses c) + N.of_nat (length f)).
Proof.
  induction f as [|cl f IH]; intros c c' I U R US; cbn [map run] in R.
  - inversion R; subst. exists []. split; [rewrite app_nil_r; auto|]. split; [constructor|]. cbn [length N.of_nat]. intros _. lia.
  - cbn [exec] in R. destruct (add_clause c cl) as [[] c1| |] eqn:A; cbn [bind] in R; try discriminate.
    apply Forall_cons_iff in U as [U1 U2].
    destruct (add_clause_spec _ _ _ _ I U1 A) as [I1 T].
    destruct (load_one _ _ _ T US) as (k&mk&K1&K2&[EM _ _ _]&NX). destruct (s_unsat (c_state c1)) eqn:U1'.
    + rewrite load_unsat in R by exact U1'. injection R as <-. exists (mk ++ [k]). split; [exact EM|]. split; [|congruence].
      apply LL_load; auto. constructor.
    + destruct (IH _ _ I1 U2 R U1') as (ks&B1&B2&B3). exists (mk ++ k :: ks). split; [rewrite B1, EM, <- !app_assoc; reflexivity|].
      rewrite NX in *. split; [apply LL_load; auto|]. intros V. rewrite (B3 V). cbn [length]. lia.
Qed.

Lemma canon_same cl : same_lits (map zlit cl) (canon cl).
Proof. intros z. rewrite !in_map_iff. split; intros (x&<-&X); exists x; (split; [reflexivity|]); apply (canonical_in cl x); exact X. Qed.

(** steps that introduce no clause *)
Lemma sim_other fresh k D D1 L : ~ input_step k -> intro_id k = [] -> replay1 false D k = Some D1 -> Sim D L ->
  exists L1, lrat_ops fresh L (step_ops k) = Some L1 /\ Sim D1 L1 /\ (forall z, L1 z <> None -> L z <> None) /\ (forall i, D i = None -> D1 i = None /\ L1 (zid i) = L (zid i)).
Proof.
  intros NI NN E S.
  assert (K : forall id l, db_has D id l = true -> exists L1, lrat_ops fresh L [ODel (zid id)] = Some L1 /\ Sim (db_del D id) L1 /\ (forall z, L1 z <> None -> L z <> None) /\
    (forall i, D i = None -> db_del D id i = None /\ L1 (zid i) = L (zid i))).
  { intros id l H. destruct (sim_remove fresh _ _ _ _ S H) as (L1&A&B&C). exists L1. split; [exact A|]. split; [exact B|]. split; [exact C|]. intros i DI. split; [unfold db_del; destruct (i =? id); auto|].
    apply db_has_some in H. cbn [lrat_ops lrat_op] in A. destruct (L (zid id)); [|discriminate]. injection A as <-. unfold l_del. destruct (Z.eqb_spec (zid i) (zid id)) as [X|]; [apply zid_inj in X; congruence|reflexivity]. }
  destruct k as [v u|id l|id sm l|id l|id red l hs|id l|id keep l hs|id keep l pv|id l|mo|l|core hs]; cbn [replay1 step_ops] in *; try (destruct (NI Logic.I)); try discriminate.
  - injection E as <-. exists L. repeat split; auto.
  - destruct (db_has D id l) eqn:H; [|discriminate]. injection E as <-. eapply K; eassumption.
  - destruct (db_has D id l) eqn:H; [|discriminate]. cbn [negb orb andb] in E. injection E as <-. destruct keep; [exists L; repeat split; auto|eapply K; eassumption].
  - destruct keep; (destruct (db_has D id l) eqn:H; [|discriminate]); injection E as <-; [exists L; repeat split; auto|eapply K; eassumption].
  - destruct (db_has D id l) eqn:H; [|discriminate]. injection E as <-. exists L. repeat split; auto.
  - injection E as <-. exists L. repeat split; auto.
  - injection E as <-. exists L. repeat split; auto.
  - destruct (_ || _); [|discriminate]. injection E as <-. exists L. repeat split; auto.
Qed.

Lemma sim_load fresh : forall j f ks, load_log j f ks -> forall D D' L, replay false D ks = Some D' -> Sim D L -> (forall i, j <= i -> D i = None) ->
  (forall i cl, nth_error f i = Some cl -> L (zid (j + N.of_nat i)) = Some (map zlit cl)) ->
  exists L', lrat_ops fresh L (flat_map step_ops ks) = Some L' /\ Sim D' L' /\ (forall z, L' z <> None -> L z <> None).
Proof.
  intros j f ks H. induction H as [j f|j c f k mk ks LL IH K M|j f k ks NI NN LL IH]; intros D D' L R S HD LF.
  3: { cbn [replay] in R. destruct (replay1 false D k) as [D1|] eqn:E; [|discriminate]. destruct (sim_other fresh k D D1 L NI NN E S) as (L1&A&B&C&G).
    destruct (IH D1 D' L1 R B) as (L'&A1&A2&A3); [intros i Hi; apply G, HD, Hi|intros i cl Hi; rewrite <- (LF i cl Hi); apply G, HD; lia|].
    exists L'. cbn [flat_map]. rewrite lrat_ops_app, A. split; [exact A1|]. split; [exact A2|]. intros z Z. apply C, A3, Z. }
  - cbn [replay] in R. injection R as <-. exists L. cbn [flat_map lrat_ops]. auto.
  - rewrite replay_app in R. destruct (replay false D mk) as [D0|] eqn:R0; [|discriminate].
    assert (D0 = D /\ flat_map step_ops mk = []) as [-> M0].
    { destruct M as [->|[s ->]]; cbn [replay replay1 flat_map step_ops app] in *; [split; congruence|].
      destruct (db_has D s (canon c)); [split; congruence|discriminate]. }
    rewrite flat_map_app, M0. cbn [app flat_map]. cbn [replay] in R. destruct (replay1 false D k) as [D1|] eqn:R1; [|discriminate].
    pose proof (LF 0%nat c eq_refl) as L0. cbn [N.of_nat] in L0. rewrite N.add_0_r in L0.
    assert (LF' : forall i cl, nth_error f i = Some cl -> L (zid (j + 1 + N.of_nat i)) = Some (map zlit cl)).
    { intros i cl E. rewrite <- (LF (Datatypes.S i) cl E). do 2 f_equal. lia. }
    assert (DEL : db_free D j = true -> D1 = D -> exists L', lrat_ops fresh L (ODel (zid j) :: flat_map step_ops ks) = Some L' /\ Sim D' L' /\ (forall z, L' z <> None -> L z <> None)).
    { intros FR ->. cbn [lrat_ops lrat_op]. rewrite L0.
      destruct (IH D D' (l_del L (zid j)) R) as (L'&A1&A2&A3).
      - apply sim_free; [exact S|apply db_free_none, FR].
      - intros i Hi. apply HD. lia.
      - intros i cl E. unfold l_del. destruct (Z.eqb_spec (zid (j + 1 + N.of_nat i)) (zid j)) as [X|_]; [apply zid_inj in X; lia|auto].
      - exists L'. split; [exact A1|]. split; [exact A2|]. intros z Z. specialize (A3 z Z). unfold l_del in A3. destruct (z =? zid j)%Z; congruence. }
    destruct K as [->|[->|[s ->]]]; cbn [replay1 step_ops app] in *.
    + destruct (db_free D j) eqn:FR; [|discriminate]. injection R1 as <-. apply (IH _ _ L R); [|intros i Hi; unfold db_put; destruct (N.eqb_spec i j); [lia|apply HD; lia]|exact LF'].
      intros i l. unfold db_put. destruct (N.eqb_spec i j) as [->|]; [|apply S]. intros E. injection E as <-. exists (map zlit c). split; [exact L0|apply canon_same].
    + destruct (db_free D j) eqn:FR; [|discriminate]. destruct (contradictory (canon c)); [|discriminate]. injection R1 as <-. apply DEL; reflexivity.
    + destruct (db_free D j) eqn:FR; [|discriminate]. destruct (db_has D s (canon c)); [|discriminate]. injection R1 as <-. apply DEL; reflexivity.
Qed.

(** * The steps of a proof without added clauses *)
Definition quiet_log (c c' : ctx) (ks : list checked_step) : Prop :=
  proc_log (c_proc c') = proc_log (c_proc c) ++ ks /\ Forall (fun k => ~ input_step k) ks /\
  Forall (fun i => next_clause_id (c_clauses c) <= i) (flat_map intro_id ks) /\ next_clause_id (c_clauses c) <= next_clause_id (c_clauses c').

Lemma quiet_log_trans c c1 c' a b : quiet_log c c1 a -> quiet_log c1 c' b -> quiet_log c c' (a ++ b).
Proof.
  intros (A1&A2&A3&A4) (B1&B2&B3&B4). split; [rewrite B1, A1, app_assoc; reflexivity|]. split; [apply Forall_app; auto|]. split; [|lia].
  rewrite flat_map_app. apply Forall_app. split; [exact A3|]. eapply Forall_impl; [|exact B3]. cbn. intros. lia.
Qed.

Lemma step_quiet c s c' : tr c (Step s) c' -> (forall cl, s <> AddClause cl) -> exists ks, quiet_log c c' ks.
Proof.
  intros T NA. cbn [tr] in T.
  assert (Q : forall ks, proc_log (c_proc c') = proc_log (c_proc c) ++ ks -> next_clause_id (c_clauses c') = next_clause_id (c_clauses c) ->
    Forall (fun k => ~ input_step k /\ intro_id k = []) ks -> exists ks, quiet_log c c' ks).
  { intros ks E NX F. exists ks. split; [exact E|]. split; [eapply Forall_impl; [|exact F]; intros k [X _]; exact X|]. split; [|lia].
    replace (flat_map intro_id ks) with (@nil N); [constructor|]. clear - F. induction F as [|k ks [_ H] _ IH]; [reflexivity|]. cbn [flat_map]. rewrite H, <- IH. reflexivity. }
  destruct s as [gl so|gl us|v|v sm|cl|red cl hs|us|cl pf|b|m|l|core hs| ]; cbn [step_eff] in T.
  1,2,4,9: destruct T as (A&B&ks&[EM _ _ _]&KS); apply (Q ks EM); [apply A|]; eapply Forall_impl; [|exact KS]; intros [] X; try contradiction; split; auto.
  - destruct T as [_ _ _ _ NX _ [EM _ _ _]]. apply (Q _ EM); [exact NX|]. destruct (unit_of _ v) as [[[] ?]|]; repeat constructor; cbn; auto.
  - destruct (NA cl eq_refl).
  - destruct T as [st1 id r hints T IMP _ SE S [EM _ _ _]]. destruct (store_next _ _ _ _ _ _ _ _ SE) as [(->&->&NX)|(NR&NX)].
    + eexists. split; [exact EM|]. split; [repeat constructor; cbn; auto|]. change (c_clauses (next_step c)) with (c_clauses c) in *. split; [cbn; repeat constructor; lia|lia].
    + apply (Q _ EM); [exact NX|]. destruct r; [congruence| |]; repeat constructor; cbn; auto.
  - assert (G : forall x x', unit_chain x us x' -> exists ks, quiet_log x x' ks).
    { clear. intros x x' T. induction T as [x x' Qt P|x l h rest x1 x' id r hints _ _ SE [EM _ _ _] _ [ks IH]].
      - exists []. destruct Qt as [q1 q2 _ _]. split; [rewrite P, app_nil_r; reflexivity|]. split; [constructor|]. split; [constructor|]. rewrite (sd_next _ _ q1). lia.
      - assert (X : exists ks0, quiet_log x x1 ks0).
        { eexists. split; [exact EM|]. destruct (store_next _ _ _ _ _ _ _ _ SE) as [(->&->&NX)|(NR&NX)].
          - split; [repeat constructor; cbn; auto|]. split; [cbn; repeat constructor; lia|lia].
          - destruct r; [congruence| |]; (split; [repeat constructor; cbn; auto|]; split; [constructor|lia]). }
        destruct X as [ks0 X]. exists (ks0 ++ ks). eapply quiet_log_trans; eassumption. }
    exact (G _ _ T).
  - destruct T as [id r T DE UN UC NX ST R]. destruct (is_red pf); [destruct R as [EM _ _ _]|destruct R as (s&_&[EM _ _ _])];
      apply (Q _ EM); try exact NX; destruct r; repeat constructor; cbn; auto.
  - destruct T as (A&B&[EM _ _ _]&_). apply (Q _ EM); [apply A|repeat constructor; cbn; auto].
  - destruct T as (A&B&[EM _ _ _]). apply (Q _ EM); [apply A|repeat constructor; cbn; auto].
  - destruct T as (A&B&_&_&hints&[EM _ _ _]&_). apply (Q _ EM); [apply A|repeat constructor; cbn; auto].
  - destruct T as (A&B&[EM _ _ _]). apply (Q _ EM); [apply A|constructor].
Qed.

Lemma steps_quiet : forall steps c c', Inv c -> Forall event_u32 (map Step steps) -> run c (map Step steps) = ROk tt c' -> (forall cl, ~ In (AddClause cl) steps) ->
  exists ks, quiet_log c c' ks.
Proof.
  induction steps as [|s steps IH]; intros c c' I U R NA; cbn [map run] in *.
  - injection R as <-. exists []. split; [rewrite app_nil_r; reflexivity|]. split; [constructor|]. split; [constructor|lia].
  - destruct (exec c (Step s)) as [[] c1| |] eqn:E; cbn [bind] in R; try discriminate. apply Forall_cons_iff in U as [U1 U2].
    destruct (exec_spec _ _ _ _ I U1 E) as [I1 T]. destruct (step_quiet _ _ _ T) as [k1 Q1]; [intros cl ->; apply (NA cl); left; reflexivity|].
    destruct (IH _ _ I1 U2 R) as [k2 Q2]; [intros cl H; apply (NA cl); right; exact H|]. exists (k1 ++ k2). eapply quiet_log_trans; eassumption.
Qed.

(** * A formula and its proof *)
Lemma log_accepted fresh f ks0 ks1 D : load_log 0 f ks0 -> Forall (fun k => ~ input_step k) ks1 ->
  replay false db_empty (ks0 ++ ks1) = Some D -> StronglySorted N.lt (flat_map intro_id (ks0 ++ ks1)) ->
  (fresh = true -> Forall (fun i => N.of_nat (length f) <= i) (flat_map intro_id ks1)) ->
  lrat_ops fresh (lrat_init f) (flat_map step_ops (ks0 ++ ks1)) <> None.
Proof.
  intros LL NI R SS FR. rewrite replay_app in R. destruct (replay false db_empty ks0) as [D0|] eqn:R0; [|discriminate].
  destruct (sim_load fresh _ _ _ LL _ _ (lrat_init f) R0) as (L0&A1&A2&A3).
  - intros i l E. discriminate.
  - reflexivity.
  - intros i cl E. unfold lrat_init, zid. destruct (Z.leb_spec (Z.of_N (0 + N.of_nat i + 1)) 0) as [X|_]; [lia|].
    replace (Z.to_nat (Z.of_N (0 + N.of_nat i + 1) - 1)) with i by lia. rewrite E. reflexivity.
  - rewrite flat_map_app, lrat_ops_app, A1. rewrite flat_map_app in SS.
    assert (S1 : StronglySorted N.lt (flat_map intro_id ks1)).
    { clear - SS. induction (flat_map intro_id ks0) as [|x l IH]; [exact SS|]. cbn [app] in SS. apply StronglySorted_inv in SS. apply IH, SS. }
    destruct (sim_replay fresh ks1 D0 D L0 NI R A2 S1) as (L'&B1&_); [|congruence].
    intros FT i z Hi Hz. specialize (FR FT). rewrite Forall_forall in FR. specialize (FR i Hi). apply A3 in Hz. unfold lrat_init in Hz. unfold zid.
    destruct (Z.leb_spec z 0); [congruence|]. destruct (nth_error f (Z.to_nat (z - 1))) eqn:E; [|cbn in Hz; congruence].
    assert (Z.to_nat (z - 1) < length f)%nat by (apply nth_error_Some; congruence). lia.
Qed.
