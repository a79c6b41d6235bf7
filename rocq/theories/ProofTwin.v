(** Running the solver with the self check in addition to a proof file changes nothing but the log
    of the checker and the hashes that are collected: a run that writes a file has a twin with a
    checker that accepts everything. *)
From Coq Require Import Lia Arith ZArith ZifyBool ZifyNat ZifyN.
From Verif Require Import Spec Lit LitProofs BinFormat Hash F32 Vsids VsidsProofs Luby Config Search SearchBase ClauseDb
  Analyze SolverCtx CtxFrame Solver.
From Verif Require Lrat.
Local Open Scope N_scope.

(** * Analysis of conflicts without hashes *)
Definition strip (a : analyze) : analyze := with_unordered (with_hashes a []) [].
Definition remark (a : analyze) (hs : list N) (us : list (nat * N)) : analyze := with_unordered (with_hashes a hs) us.
Lemma strip_remark a a' : strip a = strip a' <-> a' = remark a (a_hashes a') (a_unordered a').
Proof.
  destruct a, a'. unfold strip, remark, with_unordered, with_hashes. cbn. split; [intros H; inversion H; subst; reflexivity|].
  intros H. inversion H. subst. reflexivity.
Qed.

Lemma twin_add s lits : forall vs a hs us, add_literals s (vs, remark a hs us) lits =
  (fst (add_literals s (vs, a) lits), remark (snd (add_literals s (vs, a) lits)) hs us).
Proof.
  unfold add_literals. induction lits as [|l lits IH]; intros vs a hs us; cbn [fold_left]; [reflexivity|].
  assert (E : add_literal s (vs, remark a hs us) l = (fst (add_literal s (vs, a) l), remark (snd (add_literal s (vs, a) l)) hs us)).
  { unfold add_literal. cbn [remark with_unordered with_hashes a_flags a_count a_clause a_clean].
    destruct (_ && _); [|reflexivity]. destruct (Nat.eqb _ _); reflexivity. }
  rewrite E. destruct (add_literal s (vs, a) l) as [vs1 a1]. cbn [fst snd]. apply IH.
Qed.
Definition marks (x y : vsids * analyze) : Prop := fst x = fst y /\ strip (snd x) = strip (snd y).
Lemma twin_resolve hr hr' s tr : forall vs a hs us, marks (resolve_loop hr s (vs, a) tr) (resolve_loop hr' s (vs, remark a hs us) tr).
Proof.
  induction tr as [|l tr IH]; intros vs a hs us; cbn [resolve_loop]; [split; [reflexivity|]; apply strip_remark; reflexivity|].
  change (a_flags (remark a hs us)) with (a_flags a). destruct (a_flags a (lit_var l)); [|apply IH]. cbv zeta.
  set (a1 := with_cnt (with_flags a _) _).
  assert (E : with_cnt (with_flags (remark a hs us) (upd (a_flags a) (lit_var l) false)) (pred (a_count (with_flags (remark a hs us) (upd (a_flags a) (lit_var l) false)))) = remark a1 hs us) by reflexivity.
  change (a_count (remark a hs us)) with (a_count a).
  change (a_count (with_cnt (with_flags (remark a hs us) (upd (a_flags a) (lit_var l) false)) (pred (a_count a)))) with (a_count a1).
  destruct (a_count a1) eqn:C; [split; [reflexivity|]; reflexivity|].
  set (r := s_reason s (lit_var l)). set (lits := reason_lits s r).
  set (b1 := if hr && _ then _ else a1).
  set (b2 := if hr' && _ then _ else with_cnt _ _).
  assert (B : exists h u, b2 = remark b1 h u).
  { unfold b1, b2. destruct (hr && _), (hr' && _); eexists; eexists; reflexivity. }
  clearbody b1 b2. destruct B as (h&u&->). rewrite twin_add. destruct (add_literals s (vs, b1) lits) as [vs2 b2]. cbn [fst snd].
  destruct r as [| |x]; [apply IH..|exact (IH vs2 (with_involved b2 (a_involved b2 ++ [x])) h u)].
Qed.
Lemma twin_visit s bits lits : forall a hs us st, visit_reason s bits (remark a hs us) st lits =
  (remark (fst (visit_reason s bits a st lits)) hs us, snd (visit_reason s bits a st lits)).
Proof.
  induction lits as [|l lits IH]; intros a hs us st; cbn [visit_reason]; [reflexivity|].
  change (a_flags (remark a hs us)) with (a_flags a). destruct (_ && _); [|apply IH]. destruct (_ || _); [reflexivity|].
  change (with_clean (with_flags (remark a hs us) (upd (a_flags a) (lit_var l) true)) (a_clean (remark a hs us) ++ [lit_var l]))
    with (remark (with_clean (with_flags a (upd (a_flags a) (lit_var l) true)) (a_clean a ++ [lit_var l])) hs us). apply IH.
Qed.
Lemma twin_dfs hr hr' s bits n : forall a hs us st, exists hs' us',
  dfs n hr' s bits (remark a hs us) st = (remark (fst (dfs n hr s bits a st)) hs' us', snd (dfs n hr s bits a st)).
Proof.
  induction n as [|n IH]; intros a hs us [|l st]; cbn [dfs]; try (exists hs, us; reflexivity). cbv zeta.
  set (r := s_reason s (lit_var l)). set (lits := reason_lits s r).
  set (b1 := if hr && _ then _ else a). set (b2 := if hr' && _ then _ else remark a hs us).
  assert (B : exists h u, b2 = remark b1 h u).
  { unfold b1, b2. destruct (hr && _), (hr' && _); eexists; eexists; reflexivity. }
  clearbody b1 b2. destruct B as (h&u&->). rewrite twin_visit. destruct (visit_reason s bits b1 st lits) as [b2 [st2|]]; cbn [fst snd]; [apply IH|].
  exists h, u. reflexivity.
Qed.
Lemma twin_minimize_loop hr hr' s bits n lits : forall a hs us, exists hs' us',
  minimize_loop n hr' s bits (remark a hs us) lits = (remark (fst (minimize_loop n hr s bits a lits)) hs' us', snd (minimize_loop n hr s bits a lits)).
Proof.
  induction lits as [|l lits IH]; intros a hs us; cbn [minimize_loop]; [exists hs, us; reflexivity|].
  destruct (is_unit_reason _).
  - destruct (IH a hs us) as (h&u&E). rewrite E. destruct (minimize_loop n hr s bits a lits) as [b r]. exists h, u. reflexivity.
  - cbv zeta. destruct (twin_dfs hr hr' s bits n a hs us [lnot l]) as (h&u&E). rewrite E. destruct (dfs n hr s bits a [lnot l]) as [b []]; cbn [fst snd]; [apply IH|].
    change (a_clean (remark a hs us)) with (a_clean a). change (a_clean (remark b h u)) with (a_clean b). change (a_flags (remark b h u)) with (a_flags b).
    set (b1 := with_unordered (with_clean (with_flags b _) _) (firstn (length (a_unordered a)) _)).
    set (b2 := with_unordered (with_clean (with_flags (remark b h u) _) _) _).
    assert (X : b2 = remark b1 h (firstn (length (a_unordered (remark a hs us))) (a_unordered (with_clean (with_flags (remark b h u) (fold_left (fun f v => upd f v false) (skipn (length (a_clean a)) (a_clean b)) (a_flags b))) (firstn (length (a_clean a)) (a_clean b)))))) by reflexivity.
    rewrite X. destruct (IH b1 h (firstn (length (a_unordered (remark a hs us))) (a_unordered (with_clean (with_flags (remark b h u) (fold_left (fun f v => upd f v false) (skipn (length (a_clean a)) (a_clean b)) (a_flags b))) (firstn (length (a_clean a)) (a_clean b)))))) as (h2&u2&E2).
    rewrite E2. destruct (minimize_loop n hr s bits b1 lits) as [b3 r]. exists h2, u2. reflexivity.
Qed.
Lemma twin_analyze hr hr' n s vs a k hs us : exists hs' us',
  analyze_conflict n hr' s vs (remark a hs us) k =
    (fst (fst (analyze_conflict n hr s vs a k)), remark (snd (fst (analyze_conflict n hr s vs a k))) hs' us', snd (analyze_conflict n hr s vs a k)).
Proof.
  unfold analyze_conflict. cbv zeta. change (a_flags (remark a hs us)) with (a_flags a). change (a_clean (remark a hs us)) with (a_clean a). change (a_fuel (remark a hs us)) with (a_fuel a).
  set (a0 := Analyze [] 0 _ _ [] [] [] _).
  set (b1 := if hr then _ else a0). set (b2 := if hr' then _ else a0).
  assert (B : exists h u, b2 = remark b1 h u) by (exists (a_hashes b2), (a_unordered b2); unfold b1, b2; destruct hr, hr'; reflexivity).
  clearbody b1 b2. destruct B as (h&u&->). destruct (Nat.eqb (clevel s) 0); [exists h, u; reflexivity|].
  rewrite twin_add. destruct (add_literals s (vs, b1) (conflict_lits s k)) as [vs2 b2]. cbn [fst snd].
  set (c1 := match k with CLong _ => _ | _ => b2 end). set (c2 := match k with CLong _ => _ | _ => remark b2 h u end).
  assert (C : c2 = remark c1 h u) by (unfold c1, c2; destruct k; reflexivity). clearbody c1 c2. subst c2.
  destruct (twin_resolve hr hr' s (rev (s_trail s)) vs2 c1 h u) as [M1 M2].
  destruct (resolve_loop hr s (vs2, c1) _) as [vs3 d1], (resolve_loop hr' s (vs2, remark c1 h u) _) as [vs4 d2]. cbn [fst snd] in *. subst vs4.
  apply (proj1 (strip_remark _ _)) in M2. revert M2. generalize (a_hashes d2) (a_unordered d2). intros h3 u3 ->. clear h u.
  assert (Mi : exists h u, minimize_clause n hr' s (remark d1 h3 u3) = remark (minimize_clause n hr s d1) h u).
  { unfold minimize_clause. change (a_clause (remark d1 h3 u3)) with (a_clause d1). destruct (a_clause d1) as [|f rest]; [exists h3, u3; reflexivity|]. cbv zeta.
    match goal with |- context [minimize_loop (S (N.to_nat n)) hr s ?b d1 rest] => destruct (twin_minimize_loop hr hr' s b (S (N.to_nat n)) rest d1 h3 u3) as (h&u&E); rewrite E; destruct (minimize_loop (S (N.to_nat n)) hr s b d1 rest) as [e1 r1] end.
    exists h, u. reflexivity. }
  destruct Mi as (h&u&->). generalize (minimize_clause n hr s d1). clear d1. intros e1.
  set (f1 := if hr then _ else e1). set (f2 := if hr' then _ else remark e1 h u).
  assert (F : exists h u, f2 = remark f1 h u) by (exists (a_hashes f2), (a_unordered f2); unfold f1, f2; destruct hr, hr'; reflexivity).
  clearbody f1 f2. destruct F as (h1&u1&->). cbn [with_clean with_flags a_clause a_clean a_flags remark with_unordered with_hashes].
  destruct (a_clause f1) as [|l0 [|l1 rest]]; [exists h1, u1; reflexivity..|]. destruct (pick_level _ _ _ _) as [[x b] r]. exists h1, u1. reflexivity.
Qed.
Lemma twin_failed_loop hr hr' s tr : forall flags n core h1 h2, exists h,
  failed_loop hr' s flags n core h2 tr = (fst (failed_loop hr s flags n core h1 tr), h).
Proof.
  induction tr as [|l tr IH]; intros flags n core h1 h2; cbn [failed_loop]; [eexists; reflexivity|].
  destruct (flags (lit_var l)); [|apply IH]. cbv zeta.
  destruct (s_reason s (lit_var l)) as [|o|x].
  - destruct (Nat.eqb (pred n) 0); [eexists; reflexivity|apply IH].
  - destruct (fold_left _ _ _) as [f m]. destruct (Nat.eqb m 0); [eexists; reflexivity|apply IH].
  - destruct (fold_left _ _ _) as [f m]. destruct (Nat.eqb m 0); [eexists; reflexivity|apply IH].
Qed.
Lemma twin_failed hr hr' s flags a : exists h, failed_core_of hr' s flags a = (fst (failed_core_of hr s flags a), h).
Proof.
  unfold failed_core_of. destruct (twin_failed_loop hr hr' s (rev (s_trail s)) (upd flags (lit_var a) true) 1 [a] [] []) as (h&->).
  destruct (failed_loop hr s _ _ _ _ _) as [[f co] hh]. eexists. reflexivity.
Qed.

(** * Contexts *)
Definition pf_on (L : list pevent) (p : proof) : proof :=
  Proof (p_format p) true (p_bits p) (p_count p) (p_out p) L (fun _ => VOk) (p_io p).
Definition shade hs us ha L (c : ctx) : ctx :=
  Ctx (c_s c) (c_d c) (c_bin c) (c_nbin c) (c_vs c) (remark (c_an c) hs us)
      (Assum (as_lits (c_as c)) (as_core (c_as c)) (as_user (c_as c)) (as_levels (c_as c)) ha)
      (c_v c) (c_st c) (pf_on L (c_pf c)) (c_model c) (c_sc c) (c_cfg c) (c_tmp c).
(** A proof is written, there is no checker, and nothing has failed. *)
Record quiet (c : ctx) : Prop := {
  q_format : p_format (c_pf c) <> None;
  q_off : p_checker (c_pf c) = false;
  q_io : forall b, p_io (c_pf c) b = false;
  q_err : st_error (c_st c) = None }.
Definition twin (c c' : ctx) : Prop := quiet c /\ exists hs us ha L, c' = shade hs us ha L c.
Definition twin2 {A} (x y : ctx * A) : Prop := twin (fst x) (fst y) /\ snd x = snd y.
Definition tw {A} (R : A -> A -> Prop) (m m' : out A) : Prop :=
  match m, m' with
  | Ret a, Ret a' => R a a'
  | Panic p, Panic p' => p = p' \/ p' = PNoGlobal
  | NoFuel, NoFuel | _, Panic PNoGlobal => True
  | _, _ => False
  end.
Lemma tw_bind {A B} (R : A -> A -> Prop) (R' : B -> B -> Prop) m m' f f' :
  tw R m m' -> (forall a a', R a a' -> tw R' (f a) (f' a')) -> tw R' (bind m f) (bind m' f').
Proof.
  destruct m as [a|p|], m' as [a'|p'|]; cbn [tw bind]; intros H K; try contradiction; auto.
  - destruct p'; try contradiction. destruct (f a); cbn; auto.
Qed.
Lemma tw_bind1 {B} (R' : B -> B -> Prop) m m' f f' :
  tw twin m m' -> (forall c c', twin c c' -> tw R' (f c) (f' c')) -> tw R' (bind m f) (bind m' f').
Proof. apply tw_bind. Qed.
Lemma tw_bind2 {A B} (R' : B -> B -> Prop) (m m' : out (ctx * A)) f f' :
  tw twin2 m m' -> (forall c c' a, twin c c' -> tw R' (f (c, a)) (f' (c', a))) -> tw R' (bind m f) (bind m' f').
Proof. intros H K. eapply tw_bind; [exact H|]. intros [c a] [c' a'] [T E]. cbn in *. subst. apply K. exact T. Qed.
Lemma tw_ret c c' : twin c c' -> tw twin (Ret c) (Ret c').
Proof. auto. Qed.
Lemma tw_ret2 {A} c c' (a : A) : twin c c' -> tw twin2 (Ret (c, a)) (Ret (c', a)).
Proof. intros H. split; [exact H|reflexivity]. Qed.
Lemma quiet_eq c c' : c_pf c' = c_pf c -> st_error (c_st c') = st_error (c_st c) -> quiet c -> quiet c'.
Proof. intros E1 E2 [A B C D]. constructor; rewrite ?E1, ?E2; assumption. Qed.
Lemma shade_twin hs us ha L c c0 : quiet c0 -> c_pf c = c_pf c0 -> st_error (c_st c) = st_error (c_st c0) -> twin c (shade hs us ha L c).
Proof. intros Q E1 E2. split; [eapply quiet_eq; eassumption|]. exists hs, us, ha, L. reflexivity. Qed.
Ltac sh Q := match type of Q with quiet ?c0 => match goal with |- twin ?c ?c' => eapply (shade_twin _ _ _ _ c c0 Q); reflexivity end end.

(** * Proof steps *)
Definition nohash (s : proof_step) : proof_step :=
  match s with
  | AtClause r cl _ => AtClause r cl []
  | FailedAssumptions core _ => FailedAssumptions core []
  | _ => s
  end.
Lemma nohash_map gs s s' : nohash s = nohash s' -> option_map nohash (map_step gs s) = option_map nohash (map_step gs s').
Proof.
  intros H. destruct s, s'; cbn [nohash] in H; try discriminate; try (injection H as <-); try (inversion H; subst); try reflexivity;
    cbn [map_step]; try (destruct (map_lits gs _); reflexivity).
Qed.
Lemma nohash_drat s s' : nohash s = nohash s' -> Lrat.drat_step s = Lrat.drat_step s'.
Proof. intros H. destruct s, s'; cbn [nohash] in H; try discriminate; try (inversion H; subst); reflexivity. Qed.
Lemma write_on i L p s : write_varisat_step i (pf_on L p) s = option_map (fun x => (pf_on L (fst x), snd x)) (write_varisat_step i p s).
Proof. unfold write_varisat_step. cbn [pf_on p_count p_bits]. destruct (64 <? _); reflexivity. Qed.
Lemma write_keep i p s p' b : write_varisat_step i p s = Some (p', b) -> p_format p' = p_format p /\ p_checker p' = p_checker p /\ p_io p' = p_io p.
Proof. unfold write_varisat_step. destruct (64 <? _); [discriminate|]. intros E. injection E as <- _. auto. Qed.
Lemma tw_step sv s s' c c' : twin c c' -> nohash s = nohash s' -> (p_native (c_pf c) = true -> s = s') -> tw twin (add_step sv s c) (add_step sv s' c').
Proof.
  intros (Q&hs&us&ha&L&->) NH NE. pose proof Q as [Q1 Q2 Q3 Q4]. unfold add_step.
  change (c_st (shade hs us ha L c)) with (c_st c). change (c_v (shade hs us ha L c)) with (c_v c). rewrite Q4.
  assert (A1 : p_active (c_pf c) = true) by (unfold p_active; rewrite Q2; destruct (p_format (c_pf c)); [reflexivity|congruence]).
  rewrite A1. change (p_active (c_pf (shade hs us ha L c))) with true. cbn iota.
  assert (M : forall t t', (if sv then map_step (v_gs (c_v c)) s else Some s) = t -> (if sv then map_step (v_gs (c_v c)) s' else Some s') = t' ->
     option_map nohash t = option_map nohash t' /\ (p_native (c_pf c) = true -> t = t')).
  { intros t t' <- <-. split; [destruct sv; [apply nohash_map; exact NH|cbn; rewrite NH; reflexivity]|]. intros E. rewrite (NE E). reflexivity. }
  destruct (if sv then map_step (v_gs (c_v c)) s else Some s) as [t|], (if sv then map_step (v_gs (c_v c)) s' else Some s') as [t'|];
    destruct (M _ _ eq_refl eq_refl) as [M1 M2]; try discriminate; [|left; reflexivity].
  injection M1 as M1. change (p_format (c_pf (shade hs us ha L c))) with (p_format (c_pf c)).
  assert (F : forall p bytes, p_format p = p_format (c_pf c) -> p_checker p = false -> (forall b, p_io p b = false) ->
    tw twin (let p := p_write p bytes in
             let failed := match p_format p with Some _ => p_io p (p_out p) | None => false end in
             let c := cw_pf c p in
             if failed then Ret (handle_io c true) else if p_checker p then ask_checker c (EvStep t) else Ret c)
            (let p := p_write (pf_on L p) bytes in
             let failed := match p_format p with Some _ => p_io p (p_out p) | None => false end in
             let c := cw_pf (shade hs us ha L c) p in
             if failed then Ret (handle_io c true) else if p_checker p then ask_checker c (EvStep t') else Ret c)).
  { intros p bytes F1 F2 F3. cbv zeta. cbn [p_write p_format p_io p_out p_checker pf_on]. rewrite F2, !F3.
    assert (X : match p_format p with Some _ => false | None => false end = false) by (destruct (p_format p); reflexivity). rewrite X.
    unfold ask_checker. cbn [handle_check cw_pf c_pf p_push p_judge pf_on p_write p_log shade]. cbn [tw].
    split; [|exists hs, us, ha, (L ++ [EvStep t']); reflexivity].
    constructor; cbn [cw_pf c_pf c_st p_write p_format p_checker p_io]; auto. rewrite F1. exact Q1. }
  destruct (p_format (c_pf c)) as [[]|] eqn:EF; [| | |congruence].
  - assert (t = t') as <- by (enough (Some t = Some t') by congruence; apply M2; unfold p_native; rewrite Q2, EF; reflexivity).
    change (c_pf (shade hs us ha L c)) with (pf_on L (c_pf c)). rewrite write_on. destruct (write_varisat_step _ _ t) as [[p b]|] eqn:W; cbn [option_map fst snd bind]; [|left; reflexivity].
    destruct (write_keep _ _ _ _ _ W) as (W1&W2&W3). apply F; [congruence|congruence|rewrite W3; exact Q3].
  - unfold Lrat.drat_write_step. rewrite (nohash_drat _ _ M1). destruct (Lrat.drat_step t'); cbn [bind]; [|left; reflexivity]. apply (F (c_pf c)); [exact EF|assumption|assumption].
  - unfold Lrat.drat_write_binary_step. rewrite (nohash_drat _ _ M1). destruct (Lrat.drat_step t'); cbn [bind]; [|left; reflexivity]. apply (F (c_pf c)); [exact EF|assumption|assumption].
Qed.
Lemma tw_same sv s c c' : twin c c' -> tw twin (add_step sv s c) (add_step sv s c').
Proof. intros T. apply tw_step; auto. Qed.
Lemma tw_steps sv l : forall c c', twin c c' -> tw twin (add_steps sv l c) (add_steps sv l c').
Proof. induction l as [|s l IH]; intros c c' T; cbn [add_steps]; [exact T|]. apply tw_bind1; [apply tw_same; exact T|exact IH]. Qed.
Lemma twin_count c c' n : twin c c' -> twin (cw_pf c (p_set_count (c_pf c) n)) (cw_pf c' (p_set_count (c_pf c') n)).
Proof. intros ([A B C D]&hs&us&ha&L&->). split; [constructor; assumption|]. exists hs, us, ha, L. reflexivity. Qed.
Lemma tw_proof_add cl c c' : twin c c' -> tw twin (proof_add_clause cl c) (proof_add_clause cl c').
Proof.
  intros T. pose proof T as (Q&hs&us&ha&L&E). subst c'. unfold proof_add_clause. change (c_st (shade hs us ha L c)) with (c_st c).
  destruct (st_invoked (c_st c)); [apply tw_same; exact T|]. rewrite (q_off _ Q). change (p_checker (c_pf (shade hs us ha L c))) with true. cbn iota. cbn [bind].
  change (c_v (shade hs us ha L c)) with (c_v c).
  destruct (map_lits (v_gs (c_v c)) cl) as [r|]; [|cbn [bind]; destruct (Nat.ltb 1 (length cl)); exact Logic.I].
  assert (T2 : twin c (cw_pf (shade hs us ha L c) (p_push (c_pf (shade hs us ha L c)) (EvLoad r)))).
  { split; [exact Q|]. exists hs, us, ha, (L ++ [EvLoad r]). reflexivity. }
  unfold ask_checker. cbn [handle_check cw_pf c_pf p_push p_judge pf_on p_log shade bind]. cbn [tw].
  destruct (Nat.ltb 1 (length cl)); [|exact T2]. apply (twin_count _ _ _ T2).
Qed.

(** * The functions of the solver *)
Ltac tt := match goal with |- tw _ (Ret (_, _)) (Ret (_, _)) => apply tw_ret2 | |- tw _ (Ret _) (Ret _) => apply tw_ret | |- tw _ (Panic _) (Panic _) => left; reflexivity | |- tw _ NoFuel NoFuel => exact Logic.I end.
Ltac dt T := destruct T as (?Q&?hs&?us&?ha&?L&->).
Lemma twin_back n c c' : twin c c' -> twin (backtrack_to n c) (backtrack_to n c').
Proof. intros (Q&hs&us&ha&L&->). unfold backtrack_to. cbn [shade c_s c_vs]. destruct (backtrack _ _ _) as [s vs]. sh Q. Qed.
Lemma twin_levels n c c' : twin c c' -> twin (set_levels n c) (set_levels n c').
Proof. intros (Q&hs&us&ha&L&->). sh Q. Qed.
Lemma twin_full c c' : twin c c' -> twin (full_restart c) (full_restart c').
Proof. intros T. apply twin_back, twin_levels, T. Qed.
Lemma twin_restart c c' : twin c c' -> twin (restart c) (restart c').
Proof. intros T. unfold restart. assert (as_levels (c_as c') = as_levels (c_as c)) as -> by (dt T; reflexivity). apply twin_back, T. Qed.
Lemma tw_delete g c c' : twin c c' -> tw twin (delete_global_if_unused g c) (delete_global_if_unused g c').
Proof.
  intros T. pose proof T as (Q&hs&us&ha&L&E). unfold delete_global_if_unused. assert (c_v c' = c_v c) as -> by (subst c'; reflexivity). cbv zeta.
  destruct (v_ug _ _); [tt; exact T|]. destruct (v_sg _ _); [tt; exact T|].
  destruct (negb (smode_eqb _ _)); [tt|]. destruct (negb _); [tt; exact T|].
  apply tw_bind1; [apply tw_same; subst c'; sh Q|]. intros d d' D. dt D. tt. sh Q0.
Qed.
Lemma tw_remove x c c' : twin c c' -> tw twin (remove_solver_var x c) (remove_solver_var x c').
Proof.
  intros (Q&hs&us&ha&L&->). unfold remove_solver_var. cbv zeta. cbn [cw_vs c_v shade]. destruct (v_gs (c_v c) x) as [g|]; [|tt].
  apply tw_bind1; [apply tw_same; sh Q|]. intros d d' D. apply tw_delete, D.
Qed.
Lemma tw_data x f c c' : twin c c' -> tw twin (map_data_solver x f c) (map_data_solver x f c').
Proof. intros (Q&hs&us&ha&L&->). unfold map_data_solver. cbn [c_v shade]. destruct (v_gs (c_v c) x); [|tt]. tt. sh Q. Qed.
Lemma tw_data_lits f l : forall c c', twin c c' -> tw twin (map_data_lits l f c) (map_data_lits l f c').
Proof. induction l as [|x l IH]; intros c c' T; cbn [map_data_lits]; [exact T|]. apply tw_bind1; [apply tw_data, T|exact IH]. Qed.
Lemma tw_simplify_var x c c' : twin c c' -> tw twin (simplify_var x c) (simplify_var x c').
Proof.
  intros T. pose proof T as (Q&hs&us&ha&L&E). unfold simplify_var. assert (c_v c' = c_v c) as -> by (subst c'; reflexivity). assert (c_s c' = c_s c) as -> by (subst c'; reflexivity).
  destruct (v_gs (c_v c) x) as [g|]; [|exact T]. cbv zeta.
  destruct (vd_isolated _ && negb _); [apply tw_remove; subst c'; sh Q|subst c'; tt; sh Q].
Qed.
Lemma tw_simplify_vars l : forall c c', twin c c' -> tw twin (simplify_vars l c) (simplify_vars l c').
Proof. induction l as [|x l IH]; intros c c' T; cbn [simplify_vars]; [exact T|]. apply tw_bind1; [apply tw_simplify_var, T|exact IH]. Qed.
Lemma tw_simplify_clause x c c' : twin c c' -> tw twin2 (simplify_clause x c) (simplify_clause x c').
Proof.
  intros T. pose proof T as (Q&hs&us&ha&L&E). unfold simplify_clause. assert (c_s c' = c_s c) as -> by (subst c'; reflexivity). assert (c_d c' = c_d c) as -> by (subst c'; reflexivity). cbv zeta.
  destruct (open_lits _ _) as [ls|].
  - destruct (Nat.ltb _ _); [|tt; exact T]. apply tw_bind1; [apply tw_same, T|]. intros c1 c1' T1. apply tw_bind1; [apply tw_same, T1|]. intros c2 c2' T2. dt T2.
    destruct ls as [|a [|b [|d ls]]]; tt; sh Q0.
  - apply tw_bind1; [apply tw_same, T|]. intros c1 c1' T1. tt. exact T1.
Qed.
Lemma tw_filter_loop l : forall c c', twin c c' -> tw twin2 (filter_loop l c) (filter_loop l c').
Proof.
  induction l as [|x l IH]; intros c c' T; cbn [filter_loop]; [tt; exact T|]. assert (c_d c' = c_d c) as -> by (dt T; reflexivity).
  destruct (deleted (c_d c) x); [apply IH, T|]. apply tw_bind2; [apply tw_simplify_clause, T|]. intros d d' keep D. cbv zeta.
  apply tw_bind2; [apply IH; destruct keep; [exact D|dt D; sh Q]|]. intros e e' r X. tt. exact X.
Qed.
Lemma tw_unit_simplify c c' : twin c c' -> tw twin (unit_simplify c) (unit_simplify c').
Proof.
  intros T. unfold unit_simplify. apply tw_bind1.
  - unfold simplify_binary. cbv zeta. pose proof T as (Q&hs&us&ha&L&E).
    assert (c_s c' = c_s c) as -> by (subst c'; reflexivity). assert (c_v c' = c_v c) as -> by (subst c'; reflexivity). assert (c_bin c' = c_bin c) as -> by (subst c'; reflexivity).
    apply tw_bind1; [apply tw_steps, T|]. intros d d' D. dt D. tt. sh Q0.
  - intros c1 c1' T1. apply tw_bind1.
    + unfold filter_clauses. cbv zeta. dt T1. cbn [shade cw_s c_d c_s]. apply tw_bind2; [apply tw_filter_loop; sh Q|]. intros d d' r D. dt D. tt. sh Q0.
    + intros c2 c2' T2. assert (c_v c2' = c_v c2) as -> by (dt T2; reflexivity). apply tw_simplify_vars, T2.
Qed.
Lemma tw_prove_units c c' : twin c c' -> tw twin2 (prove_units c) (prove_units c').
Proof.
  intros (Q&hs&us&ha&L&->). unfold prove_units. cbn [shade c_s]. destruct (Nat.eqb _ _); [|tt; sh Q]. cbv zeta.
  destruct (unit_proofs _ _) as [s ps]. destruct (trail_clear s) as [s'|]; [|tt].
  apply tw_bind1; [|intros d d' D; tt; exact D]. destruct ps; [tt; sh Q|apply tw_same; sh Q].
Qed.
Lemma tw_assumption a c c' : twin c c' -> tw twin (analyze_assumption_conflict a c) (analyze_assumption_conflict a c').
Proof.
  intros (Q&hs&us&ha&L&->). unfold analyze_assumption_conflict. cbn [shade c_s c_pf c_v c_tmp c_as as_lits as_levels].
  change (p_native (pf_on L (c_pf c))) with true.
  assert (X : exists h, failed_core_of true (c_s c) (c_tmp c) a = (fst (failed_core_of (p_native (c_pf c)) (c_s c) (c_tmp c) a), h) /\
     (p_native (c_pf c) = true -> h = snd (failed_core_of (p_native (c_pf c)) (c_s c) (c_tmp c) a))).
  { destruct (p_native (c_pf c)); [exists (snd (failed_core_of true (c_s c) (c_tmp c) a)); split; [apply surjective_pairing|reflexivity]|].
    destruct (twin_failed false true (c_s c) (c_tmp c) a) as (h&E). exists h. split; [exact E|discriminate]. }
  destruct X as (h&->&Hh). destruct (failed_core_of (p_native (c_pf c)) (c_s c) (c_tmp c) a) as [[fl core] h0]. cbn [fst snd] in *.
  destruct (users_of (c_v c) core) as [us0|p|]; cbn [bind]; [|left; reflexivity|exact Logic.I]. cbv zeta.
  apply tw_step; [|reflexivity|cbn [cw_tmp cw_as c_pf]; intros N; rewrite (Hh N); reflexivity].
  split; [eapply quiet_eq; [| |exact Q]; reflexivity|]. exists hs, us, h, L. reflexivity.
Qed.
Lemma tw_enqueue_loop n : forall c c', twin c c' -> tw twin2 (enqueue_loop n c) (enqueue_loop n c').
Proof.
  induction n as [|n IH]; intros c c' T; pose proof T as (Q&hs&us&ha&L&E); cbn [enqueue_loop]; cbv zeta;
    (assert (c_s c' = c_s c) as -> by (subst c'; reflexivity)); (assert (as_lits (c_as c') = as_lits (c_as c)) as -> by (subst c'; reflexivity));
    (destruct (nth_error _ _) as [a|]; [|tt; exact T]);
    (destruct (lfalse (c_s c) a); [apply tw_bind1; [apply tw_assumption, T|]; intros d d' D; tt; exact D|]);
    (destruct (ltrue (c_s c) a); [|subst c'; tt; sh Q]); [tt|]. apply IH. subst c'. sh Q.
Qed.
Lemma tw_enqueue c c' : twin c c' -> tw twin2 (enqueue_assumption c) (enqueue_assumption c').
Proof. intros T. unfold enqueue_assumption. assert (as_lits (c_as c') = as_lits (c_as c)) as -> by (dt T; reflexivity). apply tw_enqueue_loop, T. Qed.
Lemma twin_decision c c' : twin c c' -> twin2 (make_decision c) (make_decision c').
Proof.
  intros (Q&hs&us&ha&L&->). unfold make_decision. cbn [shade c_s c_vs]. destruct (find_decision _ _ _) as [vs [v|]]; (split; [|reflexivity]); cbn [fst]; sh Q.
Qed.
Lemma tw_find n : forall c c', twin c c' -> tw twin2 (find_conflict n c) (find_conflict n c').
Proof.
  induction n as [|n IH]; intros c c' T; cbn [find_conflict]; [exact Logic.I|]. pose proof T as (Q&hs&us&ha&L&E).
  assert (c_s c' = c_s c) as -> by (subst c'; reflexivity). assert (c_v c' = c_v c) as -> by (subst c'; reflexivity).
  assert (c_d c' = c_d c) as -> by (subst c'; reflexivity). assert (c_bin c' = c_bin c) as -> by (subst c'; reflexivity).
  destruct (propagate _ _ _ _) as [s r].
  assert (A : forall k, tw twin2 (do (c, new_unit) <- prove_units (cw_s c s) ;
        match k with
        | Some k => Ret (c, FConflict k)
        | None => do c <- (if new_unit then unit_simplify c else Ret c) ;
             do (c, e) <- enqueue_assumption c ;
             match e with
             | Enqueued => find_conflict n c
             | Failed => Ret (c, FAssumption)
             | Done => match make_decision c with (c, true) => find_conflict n c | (c, false) => Ret (c, FModel) end
             end
        end)
     (do (c, new_unit) <- prove_units (cw_s c' s) ;
        match k with
        | Some k => Ret (c, FConflict k)
        | None => do c <- (if new_unit then unit_simplify c else Ret c) ;
             do (c, e) <- enqueue_assumption c ;
             match e with
             | Enqueued => find_conflict n c
             | Failed => Ret (c, FAssumption)
             | Done => match make_decision c with (c, true) => find_conflict n c | (c, false) => Ret (c, FModel) end
             end
        end)).
  { intros k. apply tw_bind2; [apply tw_prove_units; subst c'; sh Q|]. intros c1 c1' nu T1. destruct k as [k|]; [tt; exact T1|].
    apply tw_bind1; [destruct nu; [apply tw_unit_simplify, T1|exact T1]|]. intros c2 c2' T2. apply tw_bind2; [apply tw_enqueue, T2|]. intros c3 c3' e T3.
    destruct e; [|apply IH, T3|tt; exact T3]. destruct (twin_decision _ _ T3) as [X1 X2]. destruct (make_decision c3) as [c4 b], (make_decision c3') as [c4' b']. cbn [fst snd] in *. subst b'.
    destruct b; [apply IH, X1|tt; exact X1]. }
  destruct r as [|k| |]; [exact (A None)|exact (A (Some k))|tt|tt].
Qed.
Lemma tw_db_add h l c c' : twin c c' -> tw twin2 (db_add_clause h l c) (db_add_clause h l c').
Proof. intros (Q&hs&us&ha&L&->). unfold db_add_clause. cbn [shade c_s c_d]. destruct (add_long _ _ _ _) as [[s d] cref]. destruct (d_full d); [tt|]. tt. sh Q. Qed.
Lemma tw_learn cl c c' : twin c c' -> tw twin (learn_clause cl c) (learn_clause cl c').
Proof.
  intros (Q&hs&us&ha&L&->). unfold learn_clause. destruct cl as [|a [|b [|d cl]]]; [tt; sh Q|tt; sh Q|tt; sh Q|]. cbn [shade c_s c_tmp].
  destruct (assess_learned _ _ _) as [fl h]. apply tw_bind2; [apply tw_db_add; sh Q|]. intros e e' x X. dt X. tt. sh Q0.
Qed.
Lemma tw_model c c' : twin c c' -> tw twin (reconstruct_global_model c) (reconstruct_global_model c').
Proof.
  intros T. pose proof T as (Q&hs&us&ha&L&E). unfold reconstruct_global_model. cbv zeta.
  assert (MV : forall g, model_value c' g = model_value c g) by (intros g; subst c'; reflexivity).
  assert (V : c_v c' = c_v c) by (subst c'; reflexivity). rewrite V.
  set (m := map _ _). replace (map _ _) with m by (unfold m; apply map_ext; intros g; rewrite MV; reflexivity).
  set (ls := flat_map _ _). replace (flat_map _ _) with ls by (unfold ls; apply flat_map_ext; intros g; rewrite MV; reflexivity). clearbody m ls.
  assert (T1 : twin (cw_model c m) (cw_model c' m)) by (subst c'; sh Q).
  assert (N : p_native (c_pf (cw_model c' m)) = true) by (subst c'; reflexivity). rewrite N.
  apply tw_bind1; [|intros d d' D; dt D; tt; sh Q0].
  destruct (p_native (c_pf (cw_model c m))) eqn:N0; [apply tw_same, T1|]. clear N. subst c'.
  pose proof Q as [Q1 Q2 Q3 Q4]. unfold add_step. change (c_st (cw_model (shade hs us ha L c) m)) with (c_st c). rewrite Q4.
  change (p_active (c_pf (cw_model (shade hs us ha L c) m))) with true. cbn iota. change (p_format (c_pf (cw_model (shade hs us ha L c) m))) with (p_format (c_pf c)).
  cbn [cw_model c_pf] in N0. unfold p_native in N0. rewrite Q2 in N0. cbn [orb] in N0.
  change (c_pf (cw_model (shade hs us ha L c) m)) with (pf_on L (c_pf c)).
  assert (W : match p_format (c_pf c) with Some FVarisat => False | None => False | _ => True end) by (destruct (p_format (c_pf c)) as [[]|]; auto; discriminate).
  destruct (p_format (c_pf c)) as [[]|] eqn:F; try contradiction; cbn [bind Lrat.drat_write_step Lrat.drat_write_binary_step Lrat.drat_step flat_map];
    unfold Lrat.drat_write_step, Lrat.drat_write_binary_step; cbn [bind Lrat.drat_step flat_map p_write pf_on p_format p_io p_out p_checker]; rewrite F, Q3;
    unfold ask_checker; cbn [handle_check cw_pf cw_model c_pf p_push p_judge p_log shade]; cbn [tw];
    (split; [apply (quiet_eq c); [reflexivity|reflexivity|exact Q]|]); exists hs, us, ha, (L ++ [EvStep (Model ls)]);
    unfold shade, pf_on, p_push, p_write; cbn; rewrite app_nil_r, F; reflexivity.
Qed.
Lemma tw_conflict n c c' : twin c c' -> tw twin (conflict_step n c) (conflict_step n c').
Proof.
  intros T. unfold conflict_step. apply tw_bind2; [apply tw_find, T|]. clear c c' T. intros c c' f T. destruct f as [| |k].
  - apply tw_model, T.
  - dt T. tt. sh Q.
  - destruct T as (Q&hs&us&ha&L&->). cbn [shade c_s c_vs c_an c_pf c_v]. change (p_native (pf_on L (c_pf c))) with true.
    assert (X : exists h u, analyze_conflict (v_slen (c_v c)) true (c_s c) (c_vs c) (remark (c_an c) hs us) k =
       (fst (fst (analyze_conflict (v_slen (c_v c)) (p_native (c_pf c)) (c_s c) (c_vs c) (c_an c) k)), remark (snd (fst (analyze_conflict (v_slen (c_v c)) (p_native (c_pf c)) (c_s c) (c_vs c) (c_an c) k))) h u,
        snd (analyze_conflict (v_slen (c_v c)) (p_native (c_pf c)) (c_s c) (c_vs c) (c_an c) k)) /\
       (p_native (c_pf c) = true -> h = a_hashes (snd (fst (analyze_conflict (v_slen (c_v c)) (p_native (c_pf c)) (c_s c) (c_vs c) (c_an c) k))))).
    { destruct (p_native (c_pf c)).
      - set (r := analyze_conflict (v_slen (c_v c)) true (c_s c) (c_vs c) (c_an c) k).
        exists (a_hashes (snd (fst r))), (a_unordered (snd (fst r))). split; [|reflexivity].
        change (analyze_conflict (v_slen (c_v c)) true (c_s c) (c_vs c) (remark (c_an c) hs us) k) with r. destruct r as [[vs a] bt]. cbn [fst snd]. destruct a. reflexivity.
      - destruct (twin_analyze false true (v_slen (c_v c)) (c_s c) (c_vs c) (c_an c) k hs us) as (h&u&E). exists h, u. split; [exact E|discriminate]. }
    destruct X as (h&u&->&Hh). destruct (analyze_conflict _ _ _ _ _ _) as [[vs a] bt]. cbn [fst snd] in *.
    change (a_fuel (remark a h u)) with (a_fuel a). destruct (a_fuel a); [exact Logic.I|]. cbv zeta.
    change (a_involved (remark a h u)) with (a_involved a). change (a_clause (remark a h u)) with (a_clause a). change (a_hashes (remark a h u)) with h.
    cbn [cw_an cw_vs c_s c_d c_tmp]. destruct (bump_clauses _ _ _ _) as [d fl].
    match goal with |- tw _ (bind (add_step _ _ ?x) _) (bind (add_step _ _ ?y) _) => assert (T2 : twin x y) end.
    { apply twin_back. split; [eapply quiet_eq; [| |exact Q]; reflexivity|]. exists h, u, ha, L. reflexivity. }
    apply tw_bind1; [|intros e e' X; apply tw_learn, X]. apply tw_step; [exact T2|reflexivity|]. unfold backtrack_to. destruct (backtrack _ _ _). cbn [cw_vs cw_s c_pf cw_tmp cw_d cw_an]. intros N. rewrite (Hh N). reflexivity.
Qed.
Lemma tw_schedule n c c' : twin c c' -> tw twin2 (schedule_step n c) (schedule_step n c').
Proof.
  intros T. pose proof T as (Q&hs&us&ha&L&E). unfold schedule_step. assert (c_st c' = c_st c) as -> by (subst c'; reflexivity).
  destruct (st_sat (c_st c)); try (tt; exact T). destruct (st_error (c_st c)); [tt; exact T|]. cbv zeta.
  assert (c_sc c' = c_sc c) as -> by (subst c'; reflexivity). assert (CF : c_cfg c' = c_cfg c) by (subst c'; reflexivity).
  set (c1 := if sc_next (c_sc c) =? sc_conflicts (c_sc c) then _ else c). set (c1' := if sc_next (c_sc c) =? sc_conflicts (c_sc c) then _ else c').
  assert (T1 : twin c1 c1').
  { unfold c1, c1'. destruct (_ =? _); [|exact T]. destruct (luby_advance _). rewrite CF. pose proof (twin_restart _ _ T) as R.
    revert R. generalize (restart c) (restart c'). intros e e' R. dt R. sh Q0. }
  clearbody c1 c1'. clear CF.
  assert (c_cfg c1' = c_cfg c1) as -> by (dt T1; reflexivity).
  apply tw_bind1.
  { destruct (_ =? _); [|exact T1]. assert (c_s c1' = c_s c1) as -> by (dt T1; reflexivity). assert (c_d c1' = c_d c1) as -> by (dt T1; reflexivity).
    destruct (reduce_locals _ _) as [[s d] out]. apply tw_steps. dt T1. sh Q0. }
  intros c2 c2' T2. assert (c_cfg c2' = c_cfg c2) as -> by (dt T2; reflexivity).
  set (c3 := if _ =? _ then cw_d c2 _ else c2). set (c3' := if _ =? _ then cw_d c2' _ else c2').
  assert (T3 : twin c3 c3') by (unfold c3, c3'; destruct (_ =? _); [dt T2; sh Q0|exact T2]). clearbody c3 c3'.
  assert (c_s c3' = c_s c3) as -> by (dt T3; reflexivity). assert (c_d c3' = c_d c3) as -> by (dt T3; reflexivity).
  destruct (collect_garbage _ _) as [[s d]|]; [|tt]. destruct (d_full d); [tt|].
  apply tw_bind1; [apply tw_conflict; dt T3; sh Q0|]. intros c4 c4' T4. assert (c_sc c4' = c_sc c4) as -> by (dt T4; reflexivity). tt. dt T4. sh Q0.
Qed.
Lemma tw_schedule_loop n m : forall c c', twin c c' -> tw twin (schedule_loop n m c) (schedule_loop n m c').
Proof.
  induction m as [|m IH]; intros c c' T; cbn [schedule_loop]; [exact Logic.I|]. apply tw_bind2; [apply tw_schedule, T|]. intros d d' [] D; [apply IH, D|exact D].
Qed.
Lemma tw_user1 u b c c' : twin c c' -> tw twin2 (global_from_user1 u b c) (global_from_user1 u b c').
Proof.
  intros T. pose proof T as (Q&hs&us&ha&L&E). unfold global_from_user1. assert (c_v c' = c_v c) as -> by (subst c'; reflexivity). cbv zeta.
  destruct (v_gu (c_v c) u); [destruct (_ && _); tt; exact T|].
  apply tw_bind1; [apply tw_same; subst c'; sh Q|]. intros d d' D. tt. exact D.
Qed.
Lemma tw_fill n : forall c c', twin c c' -> tw twin (fill_users n c) (fill_users n c').
Proof.
  induction n as [|n IH]; intros c c' T; cbn [fill_users]; [exact T|]. assert (c_v c' = c_v c) as -> by (dt T; reflexivity).
  apply tw_bind2; [apply tw_user1, T|]. intros d d' _ D. apply IH, D.
Qed.
Lemma tw_user u b c c' : twin c c' -> tw twin2 (global_from_user u b c) (global_from_user u b c').
Proof.
  intros T. unfold global_from_user. assert (c_v c' = c_v c) as -> by (dt T; reflexivity). apply tw_bind1; [apply tw_fill, T|]. intros d d' D. apply tw_user1, D.
Qed.
Lemma tw_init x g c c' : twin c c' -> tw twin (initialize_solver_var x g c) (initialize_solver_var x g c').
Proof. intros (Q&hs&us&ha&L&->). unfold initialize_solver_var. cbv zeta. cbn [shade c_v c_s c_vs]. destruct (vsids_reset _ _); [|tt]. tt. sh Q. Qed.
Lemma tw_solver g c c' : twin c c' -> tw twin2 (solver_from_global g c) (solver_from_global g c').
Proof.
  intros T. pose proof T as (Q&hs&us&ha&L&E). unfold solver_from_global. assert (c_v c' = c_v c) as -> by (subst c'; reflexivity). cbv zeta.
  destruct (v_sg (c_v c) g); [tt; exact T|]. apply tw_bind1; [apply tw_init; subst c'; sh Q|]. intros d d' D. apply tw_bind1; [apply tw_same, D|]. intros e e' X. tt. exact X.
Qed.
Lemma tw_lits b l : forall c c', twin c c' -> tw twin2 (solver_from_user_lits l b c) (solver_from_user_lits l b c').
Proof.
  induction l as [|x l IH]; intros c c' T; cbn [solver_from_user_lits]; [tt; exact T|].
  apply tw_bind2; [unfold solver_from_user; apply tw_bind2; [apply tw_user, T|]; intros d d' g D; apply tw_solver, D|]. intros d d' y D.
  apply tw_bind2; [apply IH, D|]. intros e e' r X. tt. exact X.
Qed.
Lemma tw_new c c' : twin c c' -> tw twin2 (new_user_var c) (new_user_var c').
Proof. intros T. unfold new_user_var. cbv zeta. assert (c_v c' = c_v c) as -> by (dt T; reflexivity). apply tw_bind2; [apply tw_user, T|]. intros d d' _ D. tt. exact D. Qed.
Lemma tw_mode g m c c' : twin c c' -> tw twin2 (set_sampling_mode g m c) (set_sampling_mode g m c').
Proof.
  intros T. pose proof T as (Q&hs&us&ha&L&E). unfold set_sampling_mode. assert (c_v c' = c_v c) as -> by (subst c'; reflexivity). cbv zeta.
  destruct (vd_deleted _); [tt|]. destruct (vd_assumed _); [tt|]. destruct (smode_eqb _ m); [tt; exact T|].
  apply tw_bind1; [destruct (smode_eqb m Hide); [subst c'; tt; sh Q|apply tw_same; subst c'; sh Q]|]. clear Q hs us ha L E. intros d d' D. pose proof D as (Q&hs&us&ha&L&E).
  assert (c_v d' = c_v d) as -> by (subst d'; reflexivity).
  destruct (smode_eqb _ Hide).
  - apply tw_bind1; [apply tw_same; subst d'; sh Q|]. intros e e' X. tt. exact X.
  - destruct (smode_eqb m Hide); [|tt; exact D]. apply tw_bind1; [apply tw_same; subst d'; sh Q|]. intros e e' X. apply tw_bind1; [apply tw_delete, X|]. intros f f' Y. tt. exact Y.
Qed.
Lemma tw_change u m c c' : twin c c' -> tw twin (change_mode u m c) (change_mode u m c').
Proof. intros T. unfold change_mode. apply tw_bind2; [apply tw_user, T|]. intros d d' g D. apply tw_bind2; [apply tw_mode, D|]. intros e e' _ X. exact X. Qed.
Lemma tw_observe_loop n : forall g c c', twin c c' -> tw twin2 (observe_loop n g c) (observe_loop n g c').
Proof.
  induction n as [|n IH]; intros g c c' T; cbn [observe_loop]; [tt; exact T|]. cbv zeta. assert (c_v c' = c_v c) as -> by (dt T; reflexivity).
  destruct (_ && _); [|apply IH, T]. apply tw_bind2; [apply tw_mode, T|]. intros d d' [u|] D; [|tt]. apply tw_bind2; [apply IH, D|]. intros e e' r X. tt. exact X.
Qed.
Lemma tw_load cl c c' : twin c c' -> tw twin (load_clause cl c) (load_clause cl c').
Proof.
  intros T. unfold load_clause. assert (c_st c' = c_st c) as -> by (dt T; reflexivity).
  assert (K : forall d d', twin d d' -> tw twin (do (c, lits) <- solver_from_user_lits cl true (full_restart (set_empty d false)) ;
      let lits := dedup_n (sort_n lits) in
      do c <- proof_add_clause lits c ;
      if tautology lits then Ret c
      else
        do c <- (if Nat.ltb 1 (length lits) then map_data_lits lits (fun d => vd_set_isolated d false) c
                 else Ret c) ;
        let '(kept, false_lits, clause_is_true) := scan_lits (c_s c) lits in
        let will_conflict := match kept with [] => true | _ => false end in
        let c := cw_s c (fold_left (fun s l => resurrect_unit s (lnot l)) false_lits (c_s c)) in
        let lits := kept ++ false_lits in
        if clause_is_true then
          if Nat.ltb 1 (length lits) then add_step true (DeleteClause lits DSatisfied) c else Ret c
        else
          match lits with
          | [] => Ret (set_sat c Unsat)
          | [lit] => if will_conflict then Ret (set_sat c Unsat)
                     else Ret (cw_s c (enqueue (c_s c) lit RUnit))
          | [l0; l1] => Ret (add_binary_clause l0 l1 c)
          | _ => do (c, _) <- db_add_clause (set_tier hdr_new Irred) lits c ; Ret c
          end) (do (c, lits) <- solver_from_user_lits cl true (full_restart (set_empty d' false)) ;
      let lits := dedup_n (sort_n lits) in
      do c <- proof_add_clause lits c ;
      if tautology lits then Ret c
      else
        do c <- (if Nat.ltb 1 (length lits) then map_data_lits lits (fun d => vd_set_isolated d false) c
                 else Ret c) ;
        let '(kept, false_lits, clause_is_true) := scan_lits (c_s c) lits in
        let will_conflict := match kept with [] => true | _ => false end in
        let c := cw_s c (fold_left (fun s l => resurrect_unit s (lnot l)) false_lits (c_s c)) in
        let lits := kept ++ false_lits in
        if clause_is_true then
          if Nat.ltb 1 (length lits) then add_step true (DeleteClause lits DSatisfied) c else Ret c
        else
          match lits with
          | [] => Ret (set_sat c Unsat)
          | [lit] => if will_conflict then Ret (set_sat c Unsat)
                     else Ret (cw_s c (enqueue (c_s c) lit RUnit))
          | [l0; l1] => Ret (add_binary_clause l0 l1 c)
          | _ => do (c, _) <- db_add_clause (set_tier hdr_new Irred) lits c ; Ret c
          end)).
  { clear T c c'. intros c c' T. apply tw_bind2; [apply tw_lits, twin_full; dt T; sh Q|]. clear c c' T. intros c c' ls T. cbv zeta. generalize (dedup_n (sort_n ls)). clear ls. intros ls.
    apply tw_bind1; [apply tw_proof_add, T|]. clear c c' T. intros c c' T. destruct (tautology ls); [exact T|].
    apply tw_bind1; [destruct (Nat.ltb 1 (length ls)); [apply tw_data_lits, T|exact T]|]. clear c c' T. intros c c' T.
    assert (c_s c' = c_s c) as -> by (dt T; reflexivity). destruct (scan_lits (c_s c) ls) as [[kept fl] tr].
    set (c1 := cw_s c _). set (c1' := cw_s c' _). assert (T1 : twin c1 c1') by (dt T; sh Q). clearbody c1 c1'. clear T c c'.
    generalize (kept ++ fl). intros l2. destruct tr; [destruct (Nat.ltb 1 (length l2)); [apply tw_same, T1|exact T1]|].
    pose proof T1 as (Q&hs&us&ha&L&E).
    destruct l2 as [|a [|b [|d l2]]].
    - subst c1'. tt. sh Q.
    - destruct kept; subst c1'; tt; sh Q.
    - subst c1'. tt. sh Q.
    - apply tw_bind2; [apply tw_db_add, T1|]. intros e e' _ X. exact X. }
  destruct (st_sat (c_st c)); [apply K, T|apply K; dt T; sh Q|exact T|apply K, T].
Qed.
Lemma tw_assume l c c' : twin c c' -> tw twin (set_assumptions l c) (set_assumptions l c').
Proof.
  intros T. unfold set_assumptions. cbv zeta. pose proof (twin_full _ _ T) as T0. revert T0. generalize (full_restart c) (full_restart c'). clear c c' T. intros c c' T.
  assert (c_st c' = c_st c) as -> by (dt T; reflexivity).
  set (c1 := match st_sat (c_st c) with Unsat => c | _ => _ end). set (c1' := match st_sat (c_st c) with Unsat => c' | _ => _ end).
  assert (T1 : twin c1 c1') by (unfold c1, c1'; pose proof T as (Q&hs&us&ha&L&E); destruct (st_sat (c_st c)); [subst c'; sh Q|subst c'; sh Q|exact T|subst c'; sh Q]). clearbody c1 c1'. clear T c c'.
  assert (as_lits (c_as c1') = as_lits (c_as c1)) as -> by (dt T1; reflexivity).
  apply tw_bind1; [apply tw_data_lits, T1|]. intros c2 c2' T2. apply tw_bind2; [apply tw_lits, T2|]. intros c3 c3' ls T3.
  apply tw_bind1; [|intros c4 c4' T4; apply tw_same, T4]. apply tw_data_lits. dt T3.
  split; [eapply quiet_eq; [| |exact Q]; reflexivity|]. exists hs, us, ha, L. reflexivity.
Qed.
Lemma flush_quiet c : quiet c -> flush_proof c = c.
Proof. intros [A B C D]. unfold flush_proof, handle_io. destruct (p_format (c_pf c)); [rewrite C|]; reflexivity. Qed.
Lemma flush_shade hs us ha L c : quiet c -> flush_proof (shade hs us ha L c) = shade hs us ha L c.
Proof. intros [A B C D]. unfold flush_proof, handle_io. cbn [shade c_pf pf_on p_format p_io p_out]. destruct (p_format (c_pf c)); [rewrite C|]; reflexivity. Qed.
Lemma tw_solve n c c' : twin c c' -> tw twin2 (solve n c) (solve n c').
Proof.
  intros T. unfold solve. cbv zeta. assert (T0 : twin (set_invoked c true) (set_invoked c' true)) by (dt T; sh Q). revert T0. generalize (set_invoked c true) (set_invoked c' true). clear c c' T. intros c c' T.
  assert (c_st c' = c_st c) as -> by (dt T; reflexivity). destruct (st_invalid (c_st c)); [tt|].
  apply tw_bind1; [apply tw_schedule_loop, T|]. clear c c' T. intros c c' (Q&hs&us&ha&L&->). unfold solve_finished. cbv zeta. rewrite flush_quiet, flush_shade by exact Q. rewrite (q_off _ Q).
  change (p_checker (c_pf (shade hs us ha L c))) with true. cbn iota. cbn [bind]. unfold ask_checker. cbn [handle_check cw_pf c_pf p_push p_judge pf_on p_log shade bind].
  unfold take_error. cbn [c_st]. rewrite (q_err _ Q). change (c_st (cw_pf (shade hs us ha L c) (p_push (pf_on L (c_pf c)) EvDelayed))) with (c_st c). rewrite (q_err _ Q). apply tw_ret2. split; [exact Q|]. exists hs, us, ha, (L ++ [EvDelayed]). reflexivity.
Qed.
Definition lasting (k : call) : bool := match k with CWriteProof _ | CCloseProof | CCheck => false | _ => true end.
Lemma tw_run n k c c' : lasting k = true -> twin c c' -> tw twin2 (run n k c) (run n k c').
Proof.
  intros HK T. destruct k; try discriminate; cbn [run].
  - apply tw_bind1; [apply tw_load, T|]. intros d d' D. tt. exact D.
  - apply tw_bind2; [apply tw_new; dt T; sh Q|]. intros d d' v D. tt. exact D.
  - apply tw_bind1; [apply tw_change, T|]. intros d d' D. tt. exact D.
  - apply tw_bind1; [apply tw_change, T|]. intros d d' D. tt. exact D.
  - apply tw_bind1; [apply tw_change, T|]. intros d d' D. tt. exact D.
  - apply tw_bind2; [unfold observe_internal_vars; assert (c_v c' = c_v c) as -> by (dt T; reflexivity); apply tw_observe_loop, T|]. intros d d' v D. tt. exact D.
  - apply tw_bind1; [apply tw_assume, T|]. intros d d' D. tt. exact D.
  - apply tw_solve, T.
  - pose proof T as (Q&hs&us&ha&L&E). assert (c_cfg c' = c_cfg c) as -> by (subst c'; reflexivity). destruct (update_apply u (c_cfg c)) as [ok cf]. destruct ok; [|tt; exact T]. destruct (_ && _); [|tt]. cbv zeta. subst c'. tt. sh Q.
Qed.
Lemma tw_run_all n ks : forall c c', forallb lasting ks = true -> twin c c' -> tw twin2 (run_all n ks c) (run_all n ks c').
Proof.
  induction ks as [|k ks IH]; intros c c' HK T; cbn [run_all]; [tt; exact T|]. cbn [forallb] in HK. apply andb_prop in HK as [H1 H2].
  apply tw_bind2; [apply tw_run; [exact H1|exact T]|]. intros d d' a D. apply tw_bind2; [apply IH; [exact H2|exact D]|]. intros e e' r X. tt. exact X.
Qed.
