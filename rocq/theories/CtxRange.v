(** The numbers in what the solver hands to the checker: variables are below the counts of
    variables, hashes have 64 bits. *)
From Coq Require Import Lia Arith ZArith ZifyBool ZifyNat ZifyN.
From Verif Require Import Spec Lit LitProofs BinFormat Hash HashProofs F32 Vsids VsidsProofs Luby Config Search SearchBase ClauseDb
  Analyze SolverCtx CtxFrame Solver.
From Verif Require CheckerRun.
Local Open Scope N_scope.

(** * Hashes *)
Notation small h := (h < 2^64).
Lemma lxor_small a b : small a -> small b -> small (N.lxor a b).
Proof.
  intros A B. destruct (N.eq_dec (N.lxor a b) 0) as [->|NZ]; [reflexivity|]. apply N.log2_lt_pow2; [lia|].
  pose proof (N.log2_lxor a b) as L. assert (H : forall x, small x -> N.log2 x < 64).
  { intros x X. destruct (N.eq_dec x 0) as [->|NX]; [reflexivity|]. apply N.log2_lt_pow2; [lia|exact X]. }
  pose proof (H a A). pose proof (H b B). lia.
Qed.
Lemma lit_hash_small l : small (lit_hash l).
Proof. apply lit_code_hash_lt. Qed.
Lemma clause_hash_small l : small (clause_hash l).
Proof.
  unfold clause_hash. assert (H : forall l h, small h -> small (fold_left (fun hash x => N.lxor hash (lit_hash x)) l h)).
  { clear l. induction l as [|x l IH]; intros h H; [exact H|]. cbn [fold_left]. apply IH, lxor_small; [exact H|apply lit_hash_small]. }
  apply H. reflexivity.
Qed.
Lemma reason_small lits l : small (N.lxor (clause_hash lits) (lit_hash l)).
Proof. apply lxor_small; [apply clause_hash_small|apply lit_hash_small]. Qed.

Definition hsmall (a : analyze) : Prop := Forall (fun h => small h) (a_hashes a) /\ Forall (fun p => small (snd p)) (a_unordered a).
Lemma hsmall_same a a' : a_hashes a' = a_hashes a -> a_unordered a' = a_unordered a -> hsmall a -> hsmall a'.
Proof. intros E1 E2 [A B]. split; [rewrite E1; exact A|rewrite E2; exact B]. Qed.
Lemma add_small s lits : forall vs a, hsmall a -> hsmall (snd (add_literals s (vs, a) lits)).
Proof.
  unfold add_literals. induction lits as [|l lits IH]; intros vs a H; [exact H|]. cbn [fold_left].
  assert (X : exists vs' a', add_literal s (vs, a) l = (vs', a') /\ hsmall a').
  { unfold add_literal. destruct (_ && _); [|eauto]. destruct (Nat.eqb _ _); do 2 eexists; (split; [reflexivity|]); apply (hsmall_same a); auto. }
  destruct X as (vs'&a'&->&H'). apply IH, H'.
Qed.
Lemma resolve_small hr s tr : forall vs a, hsmall a -> hsmall (snd (resolve_loop hr s (vs, a) tr)).
Proof.
  induction tr as [|l tr IH]; intros vs a H; cbn [resolve_loop]; [exact H|]. destruct (a_flags a (lit_var l)); [|apply IH, H]. cbv zeta.
  set (a1 := with_cnt _ _). assert (H1 : hsmall a1) by (apply (hsmall_same a); auto). clearbody a1. destruct (a_count a1); [apply (hsmall_same a1); auto|].
  set (a2 := if hr && _ then _ else a1). assert (H2 : hsmall a2).
  { unfold a2. destruct (hr && _); [|exact H1]. destruct H1 as [A B]. split; [|exact B]. apply Forall_app. split; [exact A|]. constructor; [apply reason_small|constructor]. }
  clearbody a2. pose proof (add_small s (reason_lits s (s_reason s (lit_var l))) vs a2 H2) as H3. destruct (add_literals _ _ _) as [vs3 a3]. cbn [snd] in H3.
  destruct (s_reason s (lit_var l)); apply IH; exact H3.
Qed.
Lemma visit_small s bits lits : forall a st, hsmall a -> hsmall (fst (visit_reason s bits a st lits)).
Proof.
  induction lits as [|l lits IH]; intros a st H; cbn [visit_reason]; cbv zeta; [exact H|]. destruct (_ && _); [|apply IH, H]. destruct (_ || _); [exact H|]. apply IH. apply (hsmall_same a); auto.
Qed.
Lemma dfs_small hr s bits n : forall a st, hsmall a -> hsmall (fst (dfs n hr s bits a st)).
Proof.
  induction n as [|n IH]; intros a [|l st] H; cbn [dfs]; try exact H. cbv zeta.
  set (a1 := if hr && _ then _ else a). assert (H1 : hsmall a1).
  { unfold a1. destruct (hr && _); [|exact H]. destruct H as [A B]. split; [exact A|]. apply Forall_app. split; [exact B|]. constructor; [apply reason_small|constructor]. }
  clearbody a1. pose proof (visit_small s bits (reason_lits s (s_reason s (lit_var l))) a1 st H1) as H2. destruct (visit_reason _ _ _ _ _) as [a2 [st2|]]; [apply IH; exact H2|exact H2].
Qed.
Lemma minimize_small hr s bits n lits : forall a, hsmall a -> hsmall (fst (minimize_loop n hr s bits a lits)).
Proof.
  induction lits as [|l lits IH]; intros a H; cbn [minimize_loop]; [exact H|].
  destruct (is_unit_reason _); [specialize (IH a H); destruct (minimize_loop _ _ _ _ a lits); exact IH|]. cbv zeta.
  pose proof (dfs_small hr s bits n a [lnot l] H) as D. destruct (dfs _ _ _ _ _ _) as [a1 []]; cbn [fst] in D; [apply IH, D|].
  match goal with |- context [minimize_loop _ _ _ _ ?x lits] => set (a2 := x) end.
  assert (H2 : hsmall a2). { destruct D as [A B]. split; [exact A|]. apply Forall_forall. intros x I. rewrite Forall_forall in B. apply B. eapply In_nth_error in I as (k&I). 
    assert (J : In x (firstn (length (a_unordered a)) (a_unordered a1))) by (eapply nth_error_In; exact I). rewrite <- (firstn_skipn (length (a_unordered a)) (a_unordered a1)). apply in_or_app. left. exact J. }
  clearbody a2. specialize (IH a2 H2). destruct (minimize_loop _ _ _ _ a2 lits); exact IH.
Qed.
Lemma insert_depth_in x y l : In y (insert_depth x l) -> y = x \/ In y l.
Proof. induction l as [|z l IH]; cbn [insert_depth]; [intros [<-|[]]; auto|]. destruct (Nat.leb _ _); [intros [<-|H]; auto|]. intros [<-|H]; [right; left; reflexivity|]. destruct (IH H); [auto|right; right; assumption]. Qed.
Lemma sort_depth_in y l : In y (sort_depth l) -> In y l.
Proof. induction l as [|x l IH]; cbn [sort_depth fold_right]; [auto|]. intros H. apply insert_depth_in in H as [->|H]; [left; reflexivity|right; apply IH, H]. Qed.
Lemma dedup_depth_in y l : In y (dedup_depth l) -> In y l.
Proof.
  induction l as [|x l IH]; cbn [dedup_depth]; [auto|]. destruct (dedup_depth l) as [|z r]; [intros [<-|[]]; left; reflexivity|].
  destruct (Nat.eqb _ _); intros [<-|H]; try (left; reflexivity); right; apply IH; [right; exact H|exact H].
Qed.
Lemma analyze_small n hr s vs a k : Forall (fun h => small h) (a_hashes (snd (fst (analyze_conflict n hr s vs a k)))).
Proof.
  unfold analyze_conflict. cbv zeta. set (a0 := if hr then _ else _).
  assert (H0 : hsmall a0). { unfold a0. destruct hr; split; try constructor; [apply clause_hash_small|constructor]. }
  clearbody a0. destruct (Nat.eqb _ 0); [apply H0|].
  pose proof (add_small s (conflict_lits s k) vs a0 H0) as H1. destruct (add_literals _ _ _) as [vs1 a1]. cbn [snd] in H1.
  set (a2 := match k with CLong _ => _ | _ => _ end). assert (H2 : hsmall a2) by (unfold a2; destruct k; try exact H1; apply (hsmall_same a1); auto). clearbody a2.
  pose proof (resolve_small hr s (rev (s_trail s)) vs1 a2 H2) as H3. destruct (resolve_loop _ _ _ _) as [vs3 a3]. cbn [snd] in H3.
  assert (H4 : hsmall (minimize_clause n hr s a3)).
  { unfold minimize_clause. destruct (a_clause a3) as [|f rest]; [exact H3|]. match goal with |- context [minimize_loop ?m ?h ?x ?b ?y rest] => pose proof (minimize_small h x b m rest y H3) as H4; destruct (minimize_loop m h x b y rest) end.
    apply (hsmall_same a4); auto. }
  set (a4 := minimize_clause n hr s a3) in *. clearbody a4.
  set (a5 := if hr then _ else a4). assert (H5 : Forall (fun h => small h) (a_hashes a5)).
  { unfold a5. destruct hr; [|apply H4]. cbn [with_hashes a_hashes]. apply Forall_rev, Forall_app. split; [apply H4|]. apply Forall_forall. intros h I. apply in_map_iff in I as (p&<-&I).
    apply dedup_depth_in, sort_depth_in in I. destruct H4 as [_ B]. rewrite Forall_forall in B. apply B, I. }
  clearbody a5. match goal with |- context [a_clause ?x] => destruct (a_clause x) as [|l0 [|l1 rest]]; [exact H5|exact H5|] end.
  destruct (pick_level _ _ _ _) as [[x b] r]. exact H5.
Qed.
Lemma failed_small hr s tr : forall flags n core hs, Forall (fun h => small h) hs -> Forall (fun h => small h) (snd (failed_loop hr s flags n core hs tr)).
Proof.
  induction tr as [|l tr IH]; intros flags n core hs H; cbn [failed_loop]; [exact H|]. destruct (flags (lit_var l)); [|apply IH, H]. cbv zeta.
  assert (K : forall r, Forall (fun h => small h) (if hr then hs ++ [N.lxor (clause_hash r) (lit_hash l)] else hs)).
  { intros r. destruct hr; [|exact H]. apply Forall_app. split; [exact H|]. constructor; [apply reason_small|constructor]. }
  destruct (s_reason s (lit_var l)).
  - destruct (Nat.eqb _ 0); [exact H|apply IH, H].
  - destruct (fold_left _ _ _) as [f2 n2]. destruct (Nat.eqb _ 0); [apply K|apply IH, K].
  - destruct (fold_left _ _ _) as [f2 n2]. destruct (Nat.eqb _ 0); [apply K|apply IH, K].
Qed.
Lemma core_small hr s flags a : Forall (fun h => small h) (snd (failed_core_of hr s flags a)).
Proof.
  unfold failed_core_of. pose proof (failed_small hr s (rev (s_trail s)) (upd flags (lit_var a) true) 1 [a] [] ltac:(constructor)) as H.
  destruct (failed_loop _ _ _ _ _ _ _) as [[f co] h]. cbn [snd] in *. apply Forall_rev, H.
Qed.
Lemma unit_proofs_small tr : forall s, Forall (fun p => small (snd p)) (snd (unit_proofs s tr)).
Proof.
  induction tr as [|l tr IH]; intros s; cbn [unit_proofs]; [constructor|]. cbv zeta. specialize (IH (update_removed_unit s (lit_var l))). destruct (unit_proofs _ tr) as [s' ps]. cbn [snd] in *.
  apply Forall_app. split; [|exact IH]. destruct (is_unit_reason _); constructor; [apply reason_small|constructor].
Qed.

(** * What is in range *)
Definition step_in (v : vars) (s : proof_step) : Prop :=
  let var g := g < v_glen v in
  let lits := Forall (fun l => lit_var l < v_glen v) in
  match s with
  | SolverVarName g x => var g /\ match x with Some x => x < v_slen v | None => True end
  | UserVarName g u => var g /\ match u with Some u => u < v_ulen v | None => True end
  | DeleteVar g | ChangeSamplingMode g _ => var g
  | AddClause c | DeleteClause c _ | Model c | Assumptions c => lits c
  | AtClause _ c hs | FailedAssumptions c hs => lits c /\ Forall (fun h => small h) hs
  | UnitClauses us => Forall (fun p => lit_var (fst p) < v_glen v /\ small (snd p)) us
  | ChangeHashBits _ => False
  | End => True
  end.
Definition event_in (v : vars) (e : pevent) : Prop :=
  match e with EvLoad cl => Forall (fun l => lit_var l < v_glen v) cl | EvStep s => step_in v s | EvDelayed => True end.
Definition wider (v v' : vars) : Prop := v_glen v <= v_glen v' /\ v_slen v <= v_slen v' /\ v_ulen v <= v_ulen v'.
Lemma wider_refl v : wider v v.
Proof. unfold wider. lia. Qed.
Lemma wider_trans a b c : wider a b -> wider b c -> wider a c.
Proof. unfold wider. lia. Qed.
Lemma step_wider v v' s : wider v v' -> step_in v s -> step_in v' s.
Proof.
  intros (G&X&U). assert (L : forall l, Forall (fun l => lit_var l < v_glen v) l -> Forall (fun l => lit_var l < v_glen v') l) by (intros l; apply Forall_impl; intros; lia).
  destruct s as [g [x|]|g [x|]| | | | | | | | | | |]; cbn [step_in]; try tauto; try lia; try apply L; try (intros [A B]; split; [apply L, A|exact B]).
  apply Forall_impl. intros [a b]. cbn [fst snd]. lia.
Qed.
Lemma event_wider v v' e : wider v v' -> event_in v e -> event_in v' e.
Proof. intros W. destruct e; cbn [event_in]; [|apply step_wider; exact W|auto]. apply Forall_impl. intros a H. destruct W. lia. Qed.
Record ranged (c : ctx) : Prop := {
  rg_gs : forall x g, v_gs (c_v c) x = Some g -> g < v_glen (c_v c) /\ x < v_slen (c_v c);
  rg_gu : forall u g, v_gu (c_v c) u = Some g -> g < v_glen (c_v c) /\ u < v_ulen (c_v c);
  rg_log : Forall (event_in (c_v c)) (p_log (c_pf c)) }.
Definition rg (c c' : ctx) : Prop := ranged c -> ranged c' /\ wider (c_v c) (c_v c').

Lemma rg_refl c : rg c c.
Proof. intros H. split; [exact H|apply wider_refl]. Qed.
Lemma rg_trans a b c : rg a b -> rg b c -> rg a c.
Proof. intros H K R. destruct (H R) as [R1 W1]. destruct (K R1) as [R2 W2]. split; [exact R2|eapply wider_trans; eassumption]. Qed.
(** Nothing relevant changes *)
Definition still (c c' : ctx) : Prop :=
  p_log (c_pf c') = p_log (c_pf c) /\ v_gs (c_v c') = v_gs (c_v c) /\ v_gu (c_v c') = v_gu (c_v c) /\
  v_glen (c_v c') = v_glen (c_v c) /\ v_slen (c_v c') = v_slen (c_v c) /\ v_ulen (c_v c') = v_ulen (c_v c).
Lemma rg_still c c' : still c c' -> rg c c'.
Proof.
  intros (E1&E2&E3&E4&E5&E6) [A B L]. assert (W : wider (c_v c) (c_v c')) by (unfold wider; lia). split; [|exact W]. constructor; rewrite ?E1, ?E2, ?E3, ?E4, ?E5, ?E6; auto.
  eapply Forall_impl; [|exact L]. intros e. apply event_wider, W.
Qed.
Ltac sm := apply rg_still; repeat split; reflexivity.
Ltac smt := repeat split; reflexivity.
Lemma rg_then c c1 c' : rg c c1 -> still c1 c' -> rg c c'.
Proof. intros A B. eapply rg_trans; [exact A|apply rg_still; exact B]. Qed.
Lemma still_trans a b c : still a b -> still b c -> still a c.
Proof. unfold still. intros (?&?&?&?&?&?) (?&?&?&?&?&?). repeat split; congruence. Qed.
Lemma still_refl c : still c c.
Proof. smt. Qed.

(** Steps given with the names of the solver are in range once they are mapped. *)
Definition sent_in (sv : bool) (v : vars) (s : proof_step) : Prop :=
  if sv then match s with
    | AtClause _ _ hs | FailedAssumptions _ hs => Forall (fun h => small h) hs
    | UnitClauses us => Forall (fun p => small (snd p)) us
    | AddClause _ | DeleteClause _ _ | Assumptions _ | Model _ | End => True
    | _ => False
    end
  else step_in v s.
Lemma lit_of_var' x p : lit_var (lit_of x p) = x.
Proof. unfold lit_of. rewrite lit_var_div. apply div2_val. Qed.
Lemma map_lit_in c l y : ranged c -> map_lit (v_gs (c_v c)) l = Some y -> lit_var y < v_glen (c_v c).
Proof. intros R E. unfold map_lit in E. destruct (v_gs (c_v c) (lit_var l)) as [g|] eqn:G; [|discriminate]. injection E as <-. rewrite lit_of_var'. apply (rg_gs _ R _ _ G). Qed.
Lemma map_lits_in c l : forall r, ranged c -> map_lits (v_gs (c_v c)) l = Some r -> Forall (fun l => lit_var l < v_glen (c_v c)) r.
Proof.
  induction l as [|x l IH]; intros r R E; cbn [map_lits] in E; [injection E as <-; constructor|]. destruct (map_lit _ x) eqn:M; [|discriminate]. destruct (map_lits _ l); [|discriminate]. injection E as <-.
  constructor; [eapply map_lit_in; eassumption|apply IH; auto].
Qed.
Lemma map_units_in c l : forall r, ranged c -> Forall (fun p => small (snd p)) l -> map_units (v_gs (c_v c)) l = Some r -> Forall (fun p => lit_var (fst p) < v_glen (c_v c) /\ small (snd p)) r.
Proof.
  induction l as [|[x h] l IH]; intros r R F E; cbn [map_units] in E; [injection E as <-; constructor|]. destruct (map_lit _ x) eqn:M; [|discriminate]. destruct (map_units _ l); [|discriminate]. injection E as <-.
  inversion F; subst. constructor; [split; [eapply map_lit_in; eassumption|assumption]|apply IH; auto].
Qed.
Lemma sent_mapped sv c s s' : ranged c -> sent_in sv (c_v c) s -> (if sv then map_step (v_gs (c_v c)) s else Some s) = Some s' -> step_in (c_v c) s'.
Proof.
  intros R H E. destruct sv; [|injection E as <-; exact H]. destruct s; cbn [sent_in map_step] in *; try contradiction;
    try (injection E as <-; exact Logic.I); match type of E with option_map _ ?m = _ => destruct m eqn:M; [|discriminate] end; cbn [option_map] in E; injection E as <-; cbn [step_in];
    try (eapply map_lits_in; eassumption); try (split; [eapply map_lits_in; eassumption|exact H]). eapply map_units_in; eassumption.
Qed.
Lemma ask_rg e c c' : event_in (c_v c) e -> ask_checker c e = Ret c' -> rg c c'.
Proof.
  intros V E R. unfold ask_checker, handle_check in E. cbv zeta in E. destruct (p_judge _ _); try discriminate; injection E as <-; (split; [|apply wider_refl]); destruct R as [A B L]; constructor; auto;
    cbn [cw_pf c_pf p_push p_log proof_reset] in *; apply Forall_app; auto.
Qed.
Lemma step_rg sv s c c' : (ranged c -> sent_in sv (c_v c) s) -> add_step sv s c = Ret c' -> rg c c'.
Proof.
  intros V E R. specialize (V R). revert R. change (rg c c'). unfold add_step in E. destruct (st_error (c_st c)); [injection E as <-; apply rg_refl|]. destruct (p_active (c_pf c)); [|injection E as <-; apply rg_refl].
  destruct (if sv then map_step (v_gs (c_v c)) s else Some s) as [s'|] eqn:M; [|discriminate].
  assert (K : forall p bytes, p_log p = p_log (c_pf c) ->
    (let p := p_write p bytes in
     let failed := match p_format p with Some _ => p_io p (p_out p) | None => false end in
     let c := cw_pf c p in
     if failed then Ret (handle_io c true) else if p_checker p then ask_checker c (EvStep s') else Ret c) = Ret c' -> rg c c').
  { intros p bytes L E1. cbv zeta in E1. assert (S : still c (cw_pf c (p_write p bytes))) by (repeat split; try reflexivity; exact L).
    destruct (match p_format (p_write p bytes) with Some _ => _ | None => _ end).
    - injection E1 as <-. eapply rg_trans; [apply rg_still; exact S|]. sm.
    - destruct (p_checker (p_write p bytes)); [|injection E1 as <-; apply rg_still; exact S]. intros R. destruct (rg_still _ _ S R) as [R1 W1].
      revert R. change (rg c c'). eapply rg_trans; [apply rg_still; exact S|]. intros R2. eapply ask_rg; [|exact E1|exact R2]. cbn [event_in cw_pf c_v]. eapply sent_mapped; [|exact V|exact M].
      destruct R1; constructor; auto. cbn [cw_pf c_pf p_write p_log c_v] in *. rewrite L in *. assumption. }
  destruct (p_format (c_pf c)) as [[]|]; cbn [bind] in E.
  - destruct (write_varisat_step _ _ _) as [[p bytes]|] eqn:Wr; [|discriminate]. cbn [bind] in E. eapply K; [|exact E]. unfold write_varisat_step in Wr. cbv zeta in Wr. destruct (64 <? _); [discriminate|]. injection Wr as <- <-. reflexivity.
  - destruct (Lrat.drat_write_step _); [|discriminate]. cbn [bind] in E. eapply K; [|exact E]. reflexivity.
  - destruct (Lrat.drat_write_binary_step _); [|discriminate]. cbn [bind] in E. eapply K; [|exact E]. reflexivity.
  - eapply K; [|exact E]. reflexivity.
Qed.

Definition epost (m : out ctx) (c : ctx) : Prop := post m (fun c' => rg c c').
Definition epost2 {A} (m : out (ctx * A)) (c : ctx) : Prop := post m (fun r => rg c (fst r)).
Lemma t_ret c c' : rg c c' -> epost (Ret c') c.
Proof. intros Q. apply post_ret. exact Q. Qed.
Lemma t_ret2 {A} c c' (a : A) : rg c c' -> epost2 (Ret (c', a)) c.
Proof. intros Q. apply post_ret. exact Q. Qed.
Lemma t_bind {B} (m : out ctx) (f : ctx -> out B) c (Q : B -> Prop) :
  epost m c -> (forall c', rg c c' -> post (f c') Q) -> post (bind m f) Q.
Proof. intros H K. eapply post_bind; [exact H|]. exact K. Qed.
Lemma t_bind2 {A B} (m : out (ctx * A)) (f : ctx * A -> out B) c (Q : B -> Prop) :
  epost2 m c -> (forall c' a, rg c c' -> post (f (c', a)) Q) -> post (bind m f) Q.
Proof. intros H K. eapply post_bind; [exact H|]. intros [c' a] X. apply K. exact X. Qed.
Lemma t_seq (m : out ctx) c c0 : rg c0 c -> epost m c -> epost m c0.
Proof. intros Q H. eapply post_weaken; [exact H|]. intros c' Q'. eapply rg_trans; eassumption. Qed.
Lemma t_seq2 {A} (m : out (ctx * A)) c c0 : rg c0 c -> epost2 m c -> epost2 m c0.
Proof. intros Q H. eapply post_weaken; [exact H|]. intros c' Q'. eapply rg_trans; eassumption. Qed.
(** What is shown about a state in range *)
Lemma t_in (m : out ctx) c : (ranged c -> epost m c) -> epost m c.
Proof. intros H c' E R. exact (H R c' E R). Qed.
Lemma t_in2 {A} (m : out (ctx * A)) c : (ranged c -> epost2 m c) -> epost2 m c.
Proof. intros H [c' a] E R. exact (H R (c', a) E R). Qed.

Lemma t_add_step sv s c : (ranged c -> sent_in sv (c_v c) s) -> epost (add_step sv s c) c.
Proof. intros V c' E. eapply step_rg; eassumption. Qed.
Lemma t_add_step_at sv s c c0 : still c0 c -> (ranged c -> sent_in sv (c_v c) s) -> epost (add_step sv s c) c0.
Proof. intros S V. eapply t_seq; [apply rg_still; exact S|]. apply t_add_step; assumption. Qed.
Lemma t_add_steps sv l : (forall s c, In s l -> sent_in sv (c_v c) s) -> forall c, epost (add_steps sv l c) c.
Proof.
  induction l as [|s l IH]; intros H c; cbn [add_steps]; [apply t_ret; apply rg_refl|].
  eapply t_bind; [apply t_add_step; intros _; apply H; left; reflexivity|]. intros c' Q. eapply t_seq; [exact Q|].
  apply IH. intros s' c2 I. apply H. right. exact I.
Qed.
Lemma t_proof_add_clause cl c : epost (proof_add_clause cl c) c.
Proof.
  apply t_in. intros R. unfold proof_add_clause. destruct (st_invoked (c_st c)) eqn:Inv; [apply t_add_step; intros _; exact Logic.I|].
  eapply t_bind with (c := c).
  - destruct (p_checker (c_pf c)) eqn:P; [|apply t_ret; apply rg_refl].
    destruct (map_lits (v_gs (c_v c)) cl) eqn:M; [|apply post_panic]. intros c' E. eapply ask_rg; [|exact E]. cbn [event_in]. eapply map_lits_in; eassumption.
  - intros c' Q. apply t_ret. destruct (Nat.ltb 1 (length cl)); [|exact Q]. eapply rg_then; [exact Q|smt].
Qed.

(** * Simplification *)
Lemma backtrack_still n c : still c (backtrack_to n c).
Proof. unfold backtrack_to. destruct (backtrack _ _ _). smt. Qed.
Lemma full_restart_still c : still c (full_restart c).
Proof. unfold full_restart. exact (backtrack_still 0 (set_levels 0 c)). Qed.
Lemma restart_still c : still c (restart c).
Proof. unfold restart. apply backtrack_still. Qed.

Lemma t_delete g c : g < v_glen (c_v c) -> epost (delete_global_if_unused g c) c.
Proof.
  intros Hg. unfold delete_global_if_unused. cbv zeta.
  destruct (v_ug _ _); [apply t_ret; apply rg_refl|]. destruct (v_sg _ _); [apply t_ret; apply rg_refl|].
  destruct (negb (smode_eqb _ _)); [apply post_panic|]. destruct (negb _); [apply t_ret; apply rg_refl|].
  eapply t_bind with (c := c); [apply t_add_step_at; [smt|intros _; exact Hg]|]. intros c' Q. apply t_ret.
  eapply rg_then; [exact Q|smt].
Qed.
Lemma t_remove x c : epost (remove_solver_var x c) c.
Proof.
  apply t_in. intros R. unfold remove_solver_var. cbv zeta. cbn [cw_vs c_v]. destruct (v_gs (c_v c) x) as [g|] eqn:G; [|apply post_panic].
  destruct (rg_gs _ R _ _ G) as [Hg _].
  match goal with |- epost (bind (add_step _ _ ?c1) _) _ => set (c1' := c1) end.
  assert (Q0 : rg c c1').
  { intros _. split; [|unfold wider; cbn [c1' cw_v c_v v_glen v_slen v_ulen]; lia]. destruct R as [A B L]. constructor; auto. cbn [c1' cw_v cw_vs c_v v_gs v_glen v_slen]. intros y h E. unfold upd in E. destruct (y =? x); [discriminate|]. apply (A y h E). }
  eapply t_bind with (c := c).
  - eapply t_seq; [exact Q0|]. apply t_add_step. intros _. split; [exact Hg|exact Logic.I].
  - intros c2 Q2. eapply t_seq; [exact Q2|]. apply t_delete. destruct (Q2 R) as [_ (W&_)]. lia.
Qed.
Lemma t_data x f c : epost (map_data_solver x f c) c.
Proof. unfold map_data_solver. destruct (v_gs (c_v c) x); [|apply post_panic]. apply t_ret. sm. Qed.
Lemma t_data_lits f l : forall c, epost (map_data_lits l f c) c.
Proof.
  induction l as [|x l IH]; intros c; cbn [map_data_lits]; [apply t_ret; apply rg_refl|].
  eapply t_bind; [apply t_data|]. intros c' Q. eapply t_seq; [exact Q|apply IH].
Qed.
Lemma t_simplify_var x c : epost (simplify_var x c) c.
Proof.
  unfold simplify_var. destruct (v_gs (c_v c) x) as [g|]; [|apply t_ret; apply rg_refl]. cbv zeta.
  destruct (vd_isolated _ && negb _); [eapply t_seq; [|apply t_remove]; sm|apply t_ret; sm].
Qed.
Lemma t_simplify_vars l : forall c, epost (simplify_vars l c) c.
Proof.
  induction l as [|x l IH]; intros c; cbn [simplify_vars]; [apply t_ret; apply rg_refl|].
  eapply t_bind; [apply t_simplify_var|]. intros c' Q. eapply t_seq; [exact Q|apply IH].
Qed.
Lemma t_simplify_clause x c : epost2 (simplify_clause x c) c.
Proof.
  unfold simplify_clause. cbv zeta. destruct (open_lits _ _) as [ls|].
  - destruct (Nat.ltb _ _); [|apply t_ret2; apply rg_refl].
    eapply t_bind; [apply t_add_step; intros _; constructor; [apply clause_hash_small|constructor]|]. intros c1 Q1.
    eapply t_bind; [apply t_add_step; intros _; exact Logic.I|]. intros c2 Q2.
    pose proof (rg_trans _ _ _ Q1 Q2) as Q.
    destruct ls as [|a [|b [|d ls]]]; try apply post_panic; apply t_ret2; (eapply rg_then; [exact Q|smt]).
  - eapply t_bind; [apply t_add_step; intros _; exact Logic.I|]. intros c1 Q1. apply t_ret2. exact Q1.
Qed.
Lemma t_filter_loop l : forall c, epost2 (filter_loop l c) c.
Proof.
  induction l as [|x l IH]; intros c; cbn [filter_loop]; [apply t_ret2; apply rg_refl|].
  destruct (deleted (c_d c) x); [apply IH|].
  eapply t_bind2; [apply t_simplify_clause|]. intros c' keep Q. cbv zeta.
  eapply t_bind2; [apply IH|]. intros c2 r Q2. apply t_ret2. eapply rg_trans; [exact Q|].
  destruct keep; [exact Q2|]. eapply rg_trans; [|exact Q2]. sm.
Qed.
Lemma t_unit_simplify c : epost (unit_simplify c) c.
Proof.
  unfold unit_simplify. eapply t_bind with (c := c).
  - unfold simplify_binary. cbv zeta. eapply t_bind.
    { apply t_add_steps. intros s c0 I. apply in_flat_map in I. destruct I as (l & _ & I). unfold binary_steps in I.
      apply in_map_iff in I. destruct I as (o & <- & _). exact Logic.I. }
    intros c' Q. apply t_ret. eapply rg_then; [exact Q|smt].
  - intros c1 Q1. eapply t_bind with (c := c1).
    + unfold filter_clauses. cbv zeta. eapply t_bind2; [apply t_filter_loop|]. intros c' r Q. apply t_ret.
      eapply rg_trans; [|eapply rg_then; [exact Q|smt]]. sm.
    + intros c2 Q2. eapply t_seq; [eapply rg_trans; eassumption|apply t_simplify_vars].
Qed.
Lemma t_prove_units c : epost2 (prove_units c) c.
Proof.
  unfold prove_units. destruct (Nat.eqb _ _); [|apply t_ret2; apply rg_refl]. cbv zeta. pose proof (unit_proofs_small (s_trail (c_s c)) (c_s c)) as U.
  destruct (unit_proofs _ _) as [s ps]. cbn [snd] in U. destruct (trail_clear s) as [s'|]; [|apply post_panic].
  eapply t_bind with (c := c).
  - destruct ps; [apply t_ret; sm|]. apply t_add_step_at; [smt|intros _; exact U].
  - intros c' Q. apply t_ret2. exact Q.
Qed.

(** * Search *)
Lemma t_enqueue_loop n : forall c, epost2 (enqueue_loop n c) c.
Proof.
  induction n as [|n IH]; intros c; cbn [enqueue_loop]; cbv zeta; destruct (nth_error _ _) as [a|];
    try (apply t_ret2; apply rg_refl).
  all: destruct (lfalse _ _).
  1,3: eapply t_bind with (c := c); [|intros c' Q; apply t_ret2; exact Q];
       unfold analyze_assumption_conflict; match goal with |- context [failed_core_of ?h ?s ?f ?x] => pose proof (core_small h s f x) as U end; destruct (failed_core_of _ _ _ _) as [[? ?] ?];
       eapply post_bind with (P := fun _ => True); [intros ? ?; exact Logic.I|];
       intros us _; cbv zeta; apply t_add_step_at; [smt|intros _; exact U].
  all: destruct (ltrue _ _); [|apply t_ret2; sm].
  - apply post_nofuel.
  - eapply t_seq2; [|apply IH]. sm.
Qed.
Lemma make_decision_still c : still c (fst (make_decision c)).
Proof. unfold make_decision. destruct (find_decision _ _ _) as [? [?|]]; smt. Qed.
Lemma t_find_conflict n : forall c, epost2 (find_conflict n c) c.
Proof.
  induction n as [|n IH]; intros c; cbn [find_conflict]; [apply post_nofuel|].
  destruct (propagate _ _ _ _) as [s r].
  assert (A : epost2 (do (c0, new_unit) <- prove_units (cw_s c s) ;
      match r with PConflict k => Ret (c0, FConflict k)
      | _ => do c1 <- (if new_unit then unit_simplify c0 else Ret c0) ;
             do (c2, e) <- enqueue_assumption c1 ;
             match e with
             | Done => let (c3, b) := make_decision c2 in if b then find_conflict n c3 else Ret (c3, FModel)
             | Enqueued => find_conflict n c2
             | Failed => Ret (c2, FAssumption)
             end
      end) c).
  { eapply t_bind2 with (c := c); [eapply t_seq2 with (c := cw_s c s); [sm|apply t_prove_units]|]. intros c0 nu Q0.
    assert (B : epost2 (do c1 <- (if nu then unit_simplify c0 else Ret c0) ;
             do (c2, e) <- enqueue_assumption c1 ;
             match e with
             | Done => let (c3, b) := make_decision c2 in if b then find_conflict n c3 else Ret (c3, FModel)
             | Enqueued => find_conflict n c2
             | Failed => Ret (c2, FAssumption)
             end) c).
    { eapply t_bind with (c := c0); [destruct nu; [apply t_unit_simplify|apply t_ret; apply rg_refl]|].
      intros c1 Q1. eapply t_bind2; [apply t_enqueue_loop|]. intros c2 e Q2.
      pose proof (rg_trans _ _ _ Q0 (rg_trans _ _ _ Q1 Q2)) as Q.
      destruct e; [|eapply t_seq2; [exact Q|apply IH]|apply t_ret2; exact Q].
      pose proof (make_decision_still c2) as V. destruct (make_decision c2) as [c3 b]. cbn [fst] in V.
      assert (Q3 : rg c c3) by (eapply rg_then; eassumption).
      destruct b; [eapply t_seq2; [exact Q3|apply IH]|apply t_ret2; exact Q3]. }
    destruct r; try exact B. apply t_ret2. exact Q0. }
  destruct r; try exact A; [apply post_panic|apply post_nofuel].
Qed.
Lemma t_db_add h l c : epost2 (db_add_clause h l c) c.
Proof.
  unfold db_add_clause. destruct (add_long _ _ _ _) as [[s d] cref]. destruct (d_full d); [apply post_panic|].
  apply t_ret2. sm.
Qed.
Lemma rg_sat c c' x : rg c c' -> rg c (set_sat c' x).
Proof. intros H. eapply rg_then; [exact H|smt]. Qed.
Ltac sat := apply rg_sat.
Lemma t_learn cl c : epost (learn_clause cl c) c.
Proof.
  unfold learn_clause. destruct cl as [|a [|b [|d cl]]]; [apply t_ret; sat; sm|apply t_ret; sm|apply t_ret; sm|].
  destruct (assess_learned _ _ _) as [fl h]. eapply t_bind2 with (c := c); [eapply t_seq2; [|apply t_db_add]; sm|].
  intros c' x Q. apply t_ret. eapply rg_then; [exact Q|smt].
Qed.
Lemma codes_below n : forall i g, In g (codes n i) -> g < i + N.of_nat n.
Proof. induction n as [|n IH]; intros i g I; cbn [codes] in I; [destruct I|]. destruct I as [<-|I]; [lia|]. specialize (IH _ _ I). lia. Qed.
Lemma t_conflict_step n c : epost (conflict_step n c) c.
Proof.
  unfold conflict_step. eapply t_bind2; [apply t_find_conflict|]. intros c1 f Q1. destruct f.
  - unfold reconstruct_global_model. cbv zeta. eapply t_bind with (c := c1).
    + destruct (p_native _); [apply t_add_step_at; [smt|]|apply t_ret; sm]. intros _. cbn [sent_in step_in cw_model c_v].
      apply Forall_forall. intros l I. apply in_flat_map in I as (g&I&J). unfold global_vars in I. apply filter_In in I as [I _]. apply codes_below in I.
      destruct (model_value c1 g); [|destruct J]. destruct J as [<-|[]]. rewrite lit_of_var'. lia.
    + intros c2 Q2. apply t_ret. sat. eapply rg_trans; [exact Q1|exact Q2].
  - apply t_ret. sat. exact Q1.
  - match goal with |- context [analyze_conflict ?a ?b ?c ?d ?e ?f] => pose proof (analyze_small a b c d e f) as U end. destruct (analyze_conflict _ _ _ _ _ _) as [[vs a] bt]. cbn [fst snd] in U. destruct (a_fuel a); [apply post_nofuel|]. cbv zeta.
    destruct (bump_clauses _ _ _ _) as [d fl].
    eapply t_bind with (c := c1).
    + apply t_add_step_at; [eapply still_trans; [|apply backtrack_still]; smt|]. intros _. exact U.
    + intros c2 Q2. eapply t_seq; [eapply rg_trans; [exact Q1|exact Q2]|apply t_learn].
Qed.
Lemma t_schedule_step n c : epost2 (schedule_step n c) c.
Proof.
  unfold schedule_step.
  destruct (st_sat (c_st c)); try (apply t_ret2; apply rg_refl).
  destruct (st_error (c_st c)); [apply t_ret2; apply rg_refl|]. cbv zeta.
  set (c1 := if sc_next (c_sc c) =? sc_conflicts (c_sc c) then _ else c).
  assert (E1 : still c c1).
  { unfold c1. destruct (_ =? _); [|apply still_refl]. destruct (luby_advance _).
    eapply still_trans; [apply restart_still|smt]. }
  clearbody c1. eapply t_bind with (c := c1).
  { destruct (_ =? _); [|apply t_ret; apply rg_refl]. destruct (reduce_locals _ _) as [[s d] out].
    eapply t_seq with (c := cw_d (cw_s c1 s) d); [sm|]. apply t_add_steps.
    intros st c0 I. apply in_map_iff in I. destruct I as (x & <- & _). exact Logic.I. }
  intros c2 Q2.
  set (c3 := if _ =? _ then cw_d c2 _ else c2).
  assert (E3 : still c2 c3) by (unfold c3; destruct (_ =? _); smt). clearbody c3.
  destruct (collect_garbage _ _) as [[s d]|]; [|apply post_panic]. destruct (d_full d); [apply post_panic|].
  eapply t_bind with (c := c3); [eapply t_seq; [|apply t_conflict_step]; sm|]. intros c4 Q4.
  apply t_ret2. eapply rg_trans; [apply rg_still; exact E1|]. eapply rg_trans; [exact Q2|].
  eapply rg_trans; [apply rg_still; exact E3|]. eapply rg_then; [exact Q4|smt].
Qed.
Lemma t_schedule_loop n m : forall c, epost (schedule_loop n m c) c.
Proof.
  induction m as [|m IH]; intros c; cbn [schedule_loop]; [apply post_nofuel|].
  eapply t_bind2; [apply t_schedule_step|]. intros c' [] Q; [eapply t_seq; [exact Q|apply IH]|apply t_ret; exact Q].
Qed.

(** * The other calls *)
(** The variable that is returned is in range, too. *)
Definition vpost (m : out (ctx * N)) (c : ctx) : Prop := post m (fun r => ranged c -> ranged (fst r) /\ wider (c_v c) (c_v (fst r)) /\ snd r < v_glen (c_v (fst r))).
Lemma vpost_weak m c : vpost m c -> epost2 m c.
Proof. intros H r E R. destruct (H r E R) as (A&B&_). auto. Qed.
Lemma t_global_from_user1 u rs c : vpost (global_from_user1 u rs c) c.
Proof.
  unfold global_from_user1. destruct (v_gu _ _) as [g|] eqn:G.
  - destruct (rs && _); [apply post_panic|]. apply post_ret. intros R. split; [exact R|]. split; [apply wider_refl|apply (rg_gu _ R _ _ G)].
  - cbv zeta. match goal with |- vpost (bind (add_step _ (UserVarName ?h _) ?c1) _) _ => set (c1' := c1); set (g := h) in * end.
    assert (Q0 : rg c c1').
    { intros R. assert (W : wider (c_v c) (c_v c1')) by (unfold wider; cbn [c1' cw_v c_v v_glen v_slen v_ulen bind_user]; lia). split; [|exact W]. destruct R as [A B L]. constructor.
      - intros x h E. destruct (A x h E). destruct W as (W1&W2&_). lia.
      - cbn [c1' cw_v c_v v_gu bind_user v_glen v_ulen]. intros y h E. unfold upd in E. destruct (N.eqb_spec y u) as [->|NE]; [injection E as <-; lia|]. destruct (B y h E). lia.
      - eapply Forall_impl; [|exact L]. intros e. apply event_wider, W. }
    assert (Gg : g < v_glen (c_v c1') /\ u < v_ulen (c_v c1')) by (cbn [c1' cw_v c_v v_glen v_ulen bind_user]; lia).
    eapply post_bind with (P := fun c2 => rg c1' c2).
    + apply t_add_step. intros _. exact Gg.
    + intros c2 Q2. apply post_ret. intros R. cbn [fst snd]. destruct (Q0 R) as [R1 W1]. destruct (Q2 R1) as [R2 W2]. split; [exact R2|]. split; [eapply wider_trans; eassumption|]. destruct W2. lia.
Qed.
Lemma t_fill_users n : forall c, epost (fill_users n c) c.
Proof.
  induction n as [|n IH]; intros c; cbn [fill_users]; [apply t_ret; apply rg_refl|].
  eapply t_bind2; [apply vpost_weak, t_global_from_user1|]. intros c' a Q. eapply t_seq; [exact Q|apply IH].
Qed.
Lemma t_global_from_user u rs c : vpost (global_from_user u rs c) c.
Proof.
  unfold global_from_user. eapply t_bind; [apply t_fill_users|]. intros c' Q. eapply post_weaken; [apply t_global_from_user1|]. intros [c2 g] H R. destruct (Q R) as [R1 W1]. destruct (H R1) as (R2&W2&Hg).
  split; [exact R2|]. split; [eapply wider_trans; eassumption|exact Hg].
Qed.
Lemma t_solver_from_global g c : g < v_glen (c_v c) -> epost2 (solver_from_global g c) c.
Proof.
  intros Hg. unfold solver_from_global. destruct (v_sg (c_v c) g) eqn:E; [apply t_ret2; apply rg_refl|]. cbv zeta.
  match goal with |- epost2 (bind (initialize_solver_var _ _ ?c1) _) _ => set (c1' := c1) end. set (x := next_solver (c_v c)) in *.
  assert (Gx : g < v_glen (c_v c1') /\ x < v_slen (c_v c1')) by (cbn [c1' cw_v c_v v_glen v_slen]; lia).
  assert (Q0 : rg c c1').
  { intros R. assert (W : wider (c_v c) (c_v c1')) by (unfold wider; cbn [c1' cw_v c_v v_glen v_slen v_ulen]; lia). split; [|exact W]. destruct R as [A B L]. constructor.
    - cbn [c1' cw_v c_v v_gs v_glen v_slen]. intros y h Ey. unfold upd in Ey. destruct (N.eqb_spec y x) as [->|NE]; [injection Ey as <-; lia|]. destruct (A y h Ey). lia.
    - intros y h Ey. destruct (B y h Ey). destruct W as (W1&W2&W3). lia.
    - eapply Forall_impl; [|exact L]. intros e. apply event_wider, W. }
  eapply post_bind with (P := fun c2 => still c1' c2).
  - unfold initialize_solver_var. cbv zeta. destruct (vsids_reset _ _); [|apply post_panic]. apply post_ret. smt.
  - intros c2 S. eapply t_bind with (c := c); [|intros c' Q; apply t_ret2; exact Q]. eapply t_seq; [exact Q0|]. apply t_add_step_at; [exact S|]. intros _. destruct S as (_&_&_&S4&S5&_). split; lia.
Qed.
Lemma t_solver_from_user_lits rs l : forall c, epost2 (solver_from_user_lits l rs c) c.
Proof.
  induction l as [|x l IH]; intros c; cbn [solver_from_user_lits]; [apply t_ret2; apply rg_refl|].
  eapply t_bind2 with (c := c).
  - unfold solver_from_user. apply t_in2. intros R. eapply post_bind; [apply t_global_from_user|]. intros [c' g] H. destruct (H R) as (R1&W1&Hg). cbn [fst snd] in *.
    eapply t_seq2; [intros _; split; [exact R1|exact W1]|apply t_solver_from_global; exact Hg].
  - intros c1 y Q1. eapply t_bind2; [apply IH|]. intros c2 r Q2. apply t_ret2. eapply rg_trans; eassumption.
Qed.
Lemma t_load l c : epost (load_clause l c) c.
Proof.
  unfold load_clause.
  assert (R : forall c1 : ctx, rg c c1 -> epost
    (do (c, lits) <- solver_from_user_lits l true c1 ;
      let lits := dedup_n (sort_n lits) in
      do c <- proof_add_clause lits c ;
      if tautology lits then Ret c
      else
        do c <- (if Nat.ltb 1 (length lits) then map_data_lits lits (fun d => vd_set_isolated d false) c
                 else Ret c) ;
        let '(kept, false_lits, clause_is_true) := scan_lits (c_s c) lits in
        let will_conflict := match kept with [] => true | _ => false end in
        let c := cw_s c (fold_left (fun s l => resurrect_unit s (lnot l)) false_lits (c_s c)) in
        let lits := kept ++ false_lits in
        if clause_is_true then
          if Nat.ltb 1 (length lits) then add_step true (DeleteClause lits DSatisfied) c else Ret c
        else
          match lits with
          | [] => Ret (set_sat c Unsat)
          | [lit] => if will_conflict then Ret (set_sat c Unsat)
                     else Ret (cw_s c (enqueue (c_s c) lit RUnit))
          | [l0; l1] => Ret (add_binary_clause l0 l1 c)
          | _ => do (c, _) <- db_add_clause (set_tier hdr_new Irred) lits c ; Ret c
          end) c).
  { intros c0 E0. eapply t_bind2 with (c := c); [eapply t_seq2; [exact E0|apply t_solver_from_user_lits]|]. intros c1 lits Q1.
    cbv zeta. eapply t_bind; [apply t_proof_add_clause|]. intros c2 Q2.
    pose proof (rg_trans _ _ _ Q1 Q2) as Q. destruct (tautology _); [apply t_ret; exact Q|].
    eapply t_bind with (c := c2); [destruct (Nat.ltb 1 _); [apply t_data_lits|apply t_ret; apply rg_refl]|].
    intros c3 Q3. pose proof (rg_trans _ _ _ Q Q3) as Q4. destruct (scan_lits _ _) as [[kept fl] found].
    set (c4 := cw_s c3 _). assert (Q5 : rg c c4) by (eapply rg_then; [exact Q4|smt]). clearbody c4.
    destruct found; [destruct (Nat.ltb _ _); [eapply t_seq; [exact Q5|apply t_add_step; intros _; exact Logic.I]|apply t_ret; exact Q5]|].
    destruct (kept ++ fl) as [|a [|b [|d r]]].
    - apply t_ret. sat. exact Q5.
    - destruct kept; apply t_ret; [sat; exact Q5|eapply rg_then; [exact Q5|smt]].
    - apply t_ret. eapply rg_then; [exact Q5|smt].
    - eapply t_bind2; [apply t_db_add|]. intros c5 x Q6. apply t_ret. eapply rg_trans; [exact Q5|exact Q6]. }
  destruct (st_sat (c_st c)); [| |apply t_ret; apply rg_refl|]; apply R.
  all: refine (rg_trans _ _ _ _ (rg_still _ _ (full_restart_still _))); sm.
Qed.
Lemma t_assume l c : epost (set_assumptions l c) c.
Proof.
  unfold set_assumptions. cbv zeta.
  set (c1 := match st_sat (c_st (full_restart c)) with Unsat => _ | _ => _ end).
  assert (E1 : rg c c1).
  { assert (E : rg c (full_restart c)) by (apply rg_still; apply full_restart_still).
    unfold c1. destruct (st_sat _); [sat; exact E|sat; exact E|exact E|sat; exact E]. }
  clearbody c1. eapply t_bind; [apply t_data_lits|]. intros c2 Q2.
  eapply t_bind2; [apply t_solver_from_user_lits|]. intros c3 lits Q3.
  eapply t_bind with (c := c3); [eapply t_seq; [|apply t_data_lits]; sm|]. intros c4 Q4.
  eapply t_seq; [|apply t_add_step; intros _; exact Logic.I].
  eapply rg_trans; [exact E1|]. eapply rg_trans; [exact Q2|]. eapply rg_trans; eassumption.
Qed.
Lemma t_set_mode g m c : g < v_glen (c_v c) -> epost2 (set_sampling_mode g m c) c.
Proof.
  intros Hg. apply t_in2. intros R. unfold set_sampling_mode. cbv zeta. destruct (vd_deleted _); [apply post_panic|]. destruct (vd_assumed _); [apply post_panic|].
  destruct (smode_eqb _ m); [apply t_ret2; apply rg_refl|].
  eapply t_bind with (c := c).
  { destruct (smode_eqb m Hide); [apply t_ret; sm|apply t_add_step_at; [smt|intros _; exact Hg]]. }
  intros c1 Q1. destruct (Q1 R) as [R1 W1]. assert (Hg1 : g < v_glen (c_v c1)) by (destruct W1; lia). destruct (smode_eqb _ Hide).
  - eapply t_bind with (c := c1); [|intros c2 Q2; apply t_ret2; eapply rg_trans; eassumption].
    set (u := next_user (c_v c1)). assert (W : wider (c_v c1) (bind_user (c_v c1) u g)) by (unfold wider; cbn [bind_user v_glen v_slen v_ulen]; lia).
    eapply t_seq with (c := cw_v c1 (bind_user (c_v c1) u g)).
    + intros [A B L]. split; [|exact W]. constructor; [exact A| |].
      * cbn [cw_v c_v bind_user v_gu v_glen v_ulen]. intros y h E. unfold upd in E. destruct (N.eqb_spec y u) as [->|NE]; [injection E as <-; lia|]. destruct (B y h E). lia.
      * eapply Forall_impl; [|exact L]. intros e. apply event_wider, W.
    + apply t_add_step. intros _. cbn [sent_in step_in cw_v c_v bind_user v_glen v_ulen]. split; [exact Hg1|lia].
  - destruct (smode_eqb m Hide); [|apply t_ret2; exact Q1].
    match goal with |- post (bind (add_step _ _ ?c2) _) _ => set (c2' := c2) end.
    assert (Q0 : rg c1 c2').
    { intros [A B L]. unfold c2'. destruct (v_ug (c_v c1) g) as [u|]; [|split; [constructor; assumption|apply wider_refl]]. split; [|unfold wider; cbn [cw_v c_v v_glen v_slen v_ulen]; lia]. constructor; [exact A| |exact L].
      cbn [cw_v c_v v_gu v_glen v_ulen]. intros y h E. unfold upd in E. destruct (N.eqb_spec y u) as [->|NE]; [discriminate|]. apply (B y h E). }
    assert (Hg2 : g < v_glen (c_v c2')) by (destruct (Q0 R1) as [_ [W _]]; lia).
    eapply t_bind with (c := c1); [eapply t_seq; [exact Q0|apply t_add_step; intros _; split; [exact Hg2|exact Logic.I]]|].
    intros c3 Q3. eapply t_bind; [apply t_delete; destruct (Q3 R1) as [_ [W _]]; lia|]. intros c4 Q4. apply t_ret2.
    eapply rg_trans; [exact Q1|]. eapply rg_trans; eassumption.
Qed.
Lemma t_observe n : forall g c, g + N.of_nat n <= v_glen (c_v c) -> epost2 (observe_loop n g c) c.
Proof.
  induction n as [|n IH]; intros g c H; cbn [observe_loop]; [apply t_ret2; apply rg_refl|]. cbv zeta.
  destruct (negb _ && _); [|apply IH; lia]. apply t_in2. intros R. eapply t_bind2; [apply t_set_mode; lia|]. intros c1 u Q1. destruct (Q1 R) as [_ [W _]].
  destruct u as [u|]; [|apply post_panic]. eapply t_bind2; [apply IH; lia|]. intros c2 r Q2. apply t_ret2.
  eapply rg_trans; eassumption.
Qed.
Lemma t_mode u m c : epost (change_mode u m c) c.
Proof.
  unfold change_mode. apply t_in. intros R. eapply post_bind; [apply t_global_from_user|]. intros [c1 g] H. destruct (H R) as (R1&W1&Hg). cbn [fst snd] in *.
  eapply t_bind2; [apply t_set_mode; exact Hg|]. intros c2 r Q2. apply t_ret. eapply rg_trans; [|exact Q2]. intros _. split; [exact R1|exact W1].
Qed.
Lemma flush_still c : still c (flush_proof c).
Proof. unfold flush_proof, handle_io. destruct (match p_format (c_pf c) with Some _ => _ | None => _ end); smt. Qed.
Lemma take_still c : still c (fst (take_error c)).
Proof. unfold take_error. destruct (st_error (c_st c)); smt. Qed.

Lemma t_finished c : epost (solve_finished c) c.
Proof.
  unfold solve_finished. eapply t_seq; [apply rg_still, flush_still|].
  destruct (p_checker _); [|apply t_ret; apply rg_refl]. intros c' E. eapply ask_rg; [|exact E]. exact Logic.I.
Qed.
Lemma t_run fuel k c : epost2 (run fuel k c) c.
Proof.
  destruct k; cbn [run].
  - eapply t_bind; [apply t_load|]. intros c' Q. apply t_ret2. exact Q.
  - eapply t_bind2 with (c := c).
    + unfold new_user_var. cbv zeta. eapply t_bind2 with (c := c); [eapply t_seq2; [|apply vpost_weak, t_global_from_user]; sm|].
      intros c' g Q. apply t_ret2. exact Q.
    + intros c' v Q. apply t_ret2. exact Q.
  - eapply t_bind; [apply t_mode|]. intros c' Q. apply t_ret2. exact Q.
  - eapply t_bind; [apply t_mode|]. intros c' Q. apply t_ret2. exact Q.
  - eapply t_bind; [apply t_mode|]. intros c' Q. apply t_ret2. exact Q.
  - eapply t_bind2; [apply t_observe; lia|]. intros c' l Q. apply t_ret2. exact Q.
  - eapply t_bind; [apply t_assume|]. intros c' Q. apply t_ret2. exact Q.
  - unfold solve. cbv zeta. destruct (st_invalid _); [apply post_panic|]. eapply t_bind with (c := c); [eapply t_seq; [|apply t_schedule_loop]; sm|]. intros c1 Q1.
    eapply t_bind; [apply t_finished|]. intros c2 Q2. pose proof (rg_trans _ _ _ Q1 Q2) as Q. pose proof (take_still c2) as T. destruct (take_error c2) as [c3 [e|]]; cbn [fst] in T; apply t_ret2; eapply rg_then; eassumption.
  - destruct (st_empty _); [|apply post_panic]. apply t_ret2. sm.
  - eapply t_bind with (c := c).
    + unfold close_proof. eapply t_bind; [apply t_add_step; intros _; exact Logic.I|]. intros c1 Q1. apply t_ret.
      eapply rg_then; [exact Q1|]. eapply still_trans; [apply flush_still|smt].
    + intros c2 Q. pose proof (take_still c2) as T. destruct (take_error c2) as [c3 [e|]]; cbn [fst] in T; apply t_ret2; eapply rg_then; eassumption.
  - destruct (st_empty _); [|apply post_panic]. apply t_ret2. cbv zeta. intros [A B L]. split; [|apply wider_refl]. constructor; auto.
    cbn [cw_pf c_pf p_log c_v]. destruct (p_checker _); [exact L|constructor].
  - destruct (update_apply u (c_cfg c)) as [[] cfg] eqn:Eu; [|apply t_ret2; apply rg_refl].
    destruct (_ && _); [|apply post_panic]. apply t_ret2. sm.
Qed.
Lemma t_run_all fuel ks : forall c, epost2 (run_all fuel ks c) c.
Proof.
  induction ks as [|k ks IH]; intros c; cbn [run_all]; [apply t_ret2; apply rg_refl|].
  eapply t_bind2; [apply t_run|]. intros c1 a Q1. eapply t_bind2; [apply IH|]. intros c2 r Q2. apply t_ret2. eapply rg_trans; eassumption.
Qed.
Lemma default_ranged pick judge io : ranged (ctx_default pick judge io).
Proof. constructor; [intros x g E; discriminate E|intros x g E; discriminate E|constructor]. Qed.
(** Every history from a new solver leaves only names, literals and hashes in range in the log. *)
Lemma log_ranged fuel ks pick judge io c r : run_all fuel ks (ctx_default pick judge io) = Ret (c, r) -> ranged c.
Proof. intros E. exact (proj1 (t_run_all fuel ks _ _ E (default_ranged pick judge io))). Qed.

(** There are at most [Var::max_count] names of each kind. *)
Definition few_vars (c : ctx) : Prop := v_glen (c_v c) <= max_count /\ v_slen (c_v c) <= max_count /\ v_ulen (c_v c) <= max_count.
Lemma few_wider c c' : wider (c_v c) (c_v c') -> few_vars c' -> few_vars c.
Proof. unfold wider, few_vars. lia. Qed.
