(** The checker follows the proofs of units (prove_units) and the simplification at level 0. *)
From Coq Require Import Lia Arith PeanoNat Permutation Sorted ZArith ZifyBool ZifyNat ZifyN.
From Verif Require Import Spec Lit LitProofs BinFormat Hash HashProofs SortedLits F32 Vsids VsidsProofs VsidsWf Luby Config Search SearchBase
  Propagate P_Search ClauseDb DbProofs Analyze AnalyzeProofs Rup AnalyzeHints P_Hints SolverCtx CtxFrame VarsProofs Solver SolverInv SolverSimplify SolverAdd
  SolverLoad SolverSearch CtxEvents P_Proof ProofLog ProofSim ProofDerive.
From Verif Require SortedLitsProofs Checker CheckerSteps CheckerRun CheckerSafe CheckerNames CheckerUsers CheckerCount CheckerValid.
Local Open Scope N_scope.

(** Units whose proof has been written: literals fixed without a reason *)
Definition pfix (v : vars) (s : search) (l : N) : Prop :=
  match v_sg v (lit_var l) with
  | Some x => fixv s x (is_positive l) /\ s_reason s x = RUnit
  | None => vd_deleted (v_data v (lit_var l)) = false /\ vd_unit (v_data v (lit_var l)) = Some (is_positive l)
  end.
Definition waiting (A : list N) (c : ctx) (es : list event) : Prop :=
  names_rel (c_v c) es /\ db_rel (entries (c_v c) (c_s c) (c_d c) (c_bin c)) (pfix (c_v c) (c_s c)) A es.

Lemma gl_sg v x g : vars_ok v -> v_gs v (lit_var x) = Some g -> v_sg v (lit_var (gl v x)) = Some (lit_var x) /\ is_positive (gl v x) = is_positive x.
Proof. intros OK E. destruct (gl_named _ _ _ E) as [V S]. rewrite V, S. split; [apply (vo_sg _ OK); exact E|reflexivity]. Qed.
Lemma gfix_gl v s x : vars_ok v -> v_gs v (lit_var x) <> None -> (gfix v s (gl v x) <-> fixv s (lit_var x) (is_positive x)).
Proof.
  intros OK NM. destruct (v_gs v (lit_var x)) as [g|] eqn:E; [|congruence]. destruct (gl_sg v x g OK E) as [V S]. unfold gfix. rewrite V, S. reflexivity.
Qed.
Lemma pfix_gl v s x : vars_ok v -> v_gs v (lit_var x) <> None -> (pfix v s (gl v x) <-> fixv s (lit_var x) (is_positive x) /\ s_reason s (lit_var x) = RUnit).
Proof.
  intros OK NM. destruct (v_gs v (lit_var x)) as [g|] eqn:E; [|congruence]. destruct (gl_sg v x g OK E) as [V S]. unfold pfix. rewrite V, S. reflexivity.
Qed.
(** Literals with a solver variable come from literals of the solver *)
Lemma gl_back v l x : vars_ok v -> v_sg v (lit_var l) = Some x -> gl v (lit_of x (is_positive l)) = l.
Proof.
  intros OK E. unfold gl. rewrite lo_var, lo_pos. apply (vo_sg _ OK) in E. rewrite E. apply lo_eta.
Qed.

Lemma units_chain v es n s cls : vars_ok v -> names_rel v es -> fits es -> trail_ok n s -> s_decs s = [] ->
  (forall l, In l (s_trail s) -> v_gs v (lit_var l) <> None) ->
  (forall l, In l (s_trail s) -> s_reason s (lit_var l) <> RUnit -> used v cls (reason_clause s l)) ->
  forall l2 l1 d un, s_trail s = l1 ++ l2 -> Permutation (db_cls d) cls -> (forall x, In x (db_units d) <-> un x) -> db_unsat d = false ->
  (forall x, un x <-> pfix v s x \/ exists y, In y l1 /\ x = gl v y) ->
  let us := map (fun x => (gl v (fst x), snd x)) (flat_map (fun l => if is_unit_reason (s_reason s (lit_var l)) then [] else [(l, rhash s l)]) l2) in
  let d' := fold_left (fun d u => CheckerValid.db_store d [fst u] false) us d in
  CheckerValid.derivable_units es d us /\ Permutation (db_cls d') cls /\ db_unsat d' = false /\
  (forall x, In x (db_units d') <-> pfix v s x \/ exists y, In y (s_trail s) /\ x = gl v y).
Proof.
  intros OK N F K Z NM US. induction l2 as [|l l2 IH]; intros l1 d un ET P Q R HU; cbn [flat_map map fold_left].
  - rewrite app_nil_r in ET. subst l1. split; [exact Logic.I|]. split; [exact P|]. split; [exact R|]. intros x. rewrite Q. apply HU.
  - assert (IT : In l (s_trail s)) by (rewrite ET; apply in_or_app; right; left; reflexivity).
    assert (ET' : s_trail s = (l1 ++ [l]) ++ l2) by (rewrite <- app_assoc; exact ET).
    assert (TL : istrue s l) by (apply (tk_true _ _ K); exact IT).
    destruct (is_unit_reason (s_reason s (lit_var l))) eqn:ER; cbn [map app fold_left].
    + apply (IH (l1 ++ [l]) d un ET' P Q R). intros x. rewrite HU. split.
      * intros [H|(y&I&->)]; [left; exact H|right]. exists y. split; [apply in_or_app; left; exact I|reflexivity].
      * intros [H|(y&I&->)]; [left; exact H|]. apply in_app_or in I. destruct I as [I|[<-|[]]]; [right; exists y; auto|]. left.
        apply (pfix_gl v s l OK (NM l IT)). split; [|destruct (s_reason s (lit_var l)); [reflexivity|discriminate|discriminate]].
        apply (assigned_fixed _ _ _ _ K Z). exact TL.
    + assert (NU : s_reason s (lit_var l) <> RUnit) by (intros X; rewrite X in ER; discriminate).
      cbn [fst snd].
      assert (NN : ~ un (lnot (gl v l))).
      { rewrite HU, <- gl_not. intros [H|(y&I&E)].
        - apply pfix_gl in H; [|exact OK|rewrite lnot_var; apply NM; exact IT]. destruct H as [[H _] _]. rewrite lnot_var, pos_lnot in H. unfold istrue in TL. rewrite H in TL. destruct (is_positive l); discriminate.
        - assert (IY : In y (s_trail s)) by (rewrite ET; apply in_or_app; left; exact I).
          assert (V : lit_var (lnot l) = lit_var y) by (apply (gl_inj v _ _ OK); [rewrite lnot_var; apply NM; exact IT|apply NM; exact IY|rewrite E; reflexivity]).
          rewrite lnot_var in V. pose proof (tk_true _ _ K y IY) as TY. pose proof (same_true _ _ _ TL TY V) as <-.
          pose proof (f_equal is_positive E) as X. rewrite gl_not, pos_lnot in X. destruct (is_positive (gl v l)); discriminate. }
      assert (D0 : CheckerValid.db_store d [gl v l] false = CheckerValid.DB (db_cls d) (db_units (CheckerValid.db_store d [gl v l] false)) false /\
                  forall x, In x (db_units (CheckerValid.db_store d [gl v l] false)) <-> x = gl v l \/ un x).
      { cbn [CheckerValid.db_store]. destruct (CheckerCount.mem (gl v l) (db_units d)) eqn:M1.
        - split; [destruct d; cbn in *; congruence|]. intros x. rewrite Q. split; [auto|]. intros [->|H]; [apply Q, mem_in, M1|exact H].
        - destruct (CheckerCount.mem (lnot (gl v l)) (db_units d)) eqn:M2; [exfalso; apply NN, Q, mem_in, M2|]. cbn [db_units]. split; [rewrite R; reflexivity|].
          intros x. cbn [In]. rewrite Q. split; intros [H|H]; auto. }
      destruct D0 as [D1 D2].
      destruct (IH (l1 ++ [l]) (CheckerValid.db_store d [gl v l] false) (fun x => x = gl v l \/ un x) ET') as (X1&X2&X3&X4).
      * rewrite D1. exact P.
      * exact D2.
      * rewrite D1. reflexivity.
      * intros x. rewrite HU. split.
        -- intros [->|[H|(y&I&->)]]; [right; exists l|left; exact H|right; exists y]; (split; [apply in_or_app; cbn [In]; auto|reflexivity]).
        -- intros [H|(y&I&->)]; [auto|]. apply in_app_or in I. destruct I as [I|[<-|[]]]; [right; right; exists y; auto|left; reflexivity].
      * split; [|split; [exact X2|split; [exact X3|exact X4]]]. cbn [CheckerValid.derivable_units]. split; [|exact X1].
        assert (HP : nth_error (s_trail s) (length l1) = Some l) by (rewrite ET, nth_error_app2, Nat.sub_diag by lia; reflexivity).
        rewrite <- (canon_one (gl v l)). change [gl v l] with (gls v [l]).
        apply (derive_in v es d cls [l] _ [reason_clause s l] (lnot l :: firstn (length l1) (s_trail s)) OK N F).
        -- intros e I. eapply Permutation_in; [apply Permutation_sym, P|exact I].
        -- intros D [<-|[]]. apply (US l IT NU).
        -- cbn [map]. f_equal. apply (rhash_clause n s l K IT NU).
        -- apply (unit_hints n s _ l K); [unfold clevel; rewrite Z; reflexivity|exact HP|exact NU].
        -- intros x [<-|I]; [left; rewrite lnot_invol; left; reflexivity|right]. apply Q, HU. right. exists x. split; [|reflexivity].
           rewrite ET, firstn_app, Nat.sub_diag, firstn_all, app_nil_r in I. exact I.
Qed.

Definition orel (A : list N) (c : ctx) (es : list event) : Prop :=
  names_rel (c_v c) es /\ db_rel (entries (c_v c) (c_s c) (c_d c) (c_bin c)) (gfix (c_v c) (c_s c)) A es.
Lemma rel_open A c es : st_sat (c_st c) <> Unsat -> (rel A c es <-> orel A c es).
Proof. intros H. unfold rel, orel, srel. destruct (st_sat (c_st c)); tauto. Qed.
Lemma orel_frame A c c' es : frame c c' -> (orel A c' es <-> orel A c es).
Proof. intros (e&p&->). unfold orel. cbn [cw_pf set_error cw_st c_v c_s c_d c_bin]. reflexivity. Qed.
Lemma entries_lits v s s' d bin : s_lits s' = s_lits s -> entries v s' d bin = entries v s d bin.
Proof. intros E. unfold entries, long_entry. rewrite E. reflexivity. Qed.
Lemma entries_perm v s s' d bin : (forall x, Permutation (s_lits s x) (s_lits s' x)) -> entries v s' d bin = entries v s d bin.
Proof.
  intros E. unfold entries. f_equal. apply map_ext. intros x. unfold long_entry. f_equal. apply canon_gls. intros l.
  split; intros I; eapply Permutation_in; try exact I; [apply Permutation_sym|]; apply E.
Qed.

(** The clauses a reason or a conflict points to are stored *)
Lemma core_used f F A c D : core f F A c -> is_stored (ClauseDb.live (c_d c)) (c_bin c) (c_s c) D -> used (c_v c) (entries (c_v c) (c_s c) (c_d c) (c_bin c)) D.
Proof.
  intros K. pose proof (in_store _ _ _ _ _ (iv_search _ _ _ _ K)) as ST. apply stored_used; [exact (b_vars _ (iv_base _ _ _ _ K))|exact ST| |].
  - intros x l I J. apply in_use_named. apply (proj1 (iv_used _ _ _ _ K) x l I J).
  - intros l o I. destruct (bin_use _ _ _ _ l o (iv_used _ _ _ _ K)) as [U1 U2]; [intros; apply (so_bin _ _ _ _ ST); assumption|exact I|].
    split; apply in_use_named; assumption.
Qed.
Lemma fixv_zero n s s' x y : trail_ok n s -> s_val s' = s_val s -> s_trail s' = [] -> (fixv s' x y <-> s_val s x = Some y).
Proof. intros K E1 E2. unfold fixv. rewrite E1, E2. split; [intros [H _]; exact H|]. intros H. split; [exact H|left; intros []]. Qed.
Lemma units_gfix v n s s' : vars_ok v -> trail_ok n s -> s_decs s = [] -> s_val s' = s_val s -> s_trail s' = [] ->
  (forall l, In l (s_trail s) -> v_gs v (lit_var l) <> None) ->
  forall x, gfix v s' x <-> pfix v s x \/ exists y, In y (s_trail s) /\ x = gl v y.
Proof.
  intros OK K Z EV ET NM x. split.
  - unfold gfix, pfix. destruct (v_sg v (lit_var x)) as [w|] eqn:E; [|intros H; left; exact H]. rewrite (fixv_zero _ _ _ _ _ K EV ET). intros H.
    destruct (tk_assigned _ _ K w) as [I|[_ I]]; [congruence| |].
    + right. exists (lit_of w (is_positive x)). split; [|symmetry; apply (gl_back v x w OK E)].
      assert (I2 : In (lit_var (lit_of w (is_positive x))) (map lit_var (s_trail s))) by (rewrite lo_var; exact I).
      apply in_vars in I2. destruct I2 as [I2|I2]; [exact I2|]. apply (tk_true _ _ K) in I2. unfold istrue in I2. rewrite lnot_var, pos_lnot, lo_var, lo_pos, H in I2. destruct (is_positive x); discriminate.
    + left. split; [apply (assigned_fixed _ _ _ _ K Z H)|exact I].
  - intros [H|(y&I&->)].
    + revert H. unfold gfix, pfix. destruct (v_sg v (lit_var x)) as [w|] eqn:E; [|tauto]. intros [[H _] _]. apply (fixv_zero _ _ _ _ _ K EV ET). exact H.
    + apply (gfix_gl v s' y OK (NM y I)). apply (fixv_zero _ _ _ _ _ K EV ET). apply (tk_true _ _ K y I).
Qed.
Lemma prove_units_sim f F A c : core f F A c -> s_decs (c_s c) = [] -> live c (waiting A c) ->
  csim (prove_units c) (fun '(c', _) => live c' (orel A c')).
Proof.
  intros K Z LV. unfold prove_units, clevel. rewrite Z. cbn [length Nat.eqb].
  destruct (unit_proofs (c_s c) (s_trail (c_s c))) as [s1 ps] eqn:EU. pose proof (in_trail _ _ _ _ _ (iv_search _ _ _ _ K)) as TK.
  pose proof (unit_proofs_list _ _ _ _ (tk_nodup _ _ TK) EU) as EP.
  destruct (unit_proofs_spec _ _ _ _ EU) as [(r&dp&E1&_&_) _].
  destruct (trail_clear s1) as [s2|] eqn:EC; [|cbn [csim]; discriminate].
  assert (E2 : s_val s2 = s_val (c_s c) /\ s_lits s2 = s_lits (c_s c) /\ s_trail s2 = []).
  { unfold trail_clear in EC. destruct (s_decs s1) as [|? ?]; [|discriminate]. injection EC as <-. subst s1. repeat split. }
  destruct E2 as (EV&EL&ET). pose proof (b_vars _ (iv_base _ _ _ _ K)) as OK.
  assert (G : forall es, fits es -> waiting A c es -> let us := map (fun x => (gl (c_v c) (fst x), snd x)) ps in
    CheckerValid.derivable_units es (db_after es) us /\
    (fits (es ++ [Step (UnitClauses us)]) -> orel A (cw_s c s2) (es ++ [Step (UnitClauses us)])) /\ (ps = [] -> orel A (cw_s c s2) es)).
  { intros es FT [N R]. cbv zeta. rewrite EP.
    destruct (units_chain (c_v c) es _ (c_s c) (entries (c_v c) (c_s c) (c_d c) (c_bin c)) OK N FT TK Z (iv_trail _ _ _ _ K)) with (l2 := s_trail (c_s c)) (l1 := @nil BinNums.N) (d := db_after es) (un := pfix (c_v c) (c_s c)) as (X1&X2&X3&X4).
    - intros l I NU. apply (core_used f F A c _ K). apply (reason_stored _ _ _ _ l TK (in_store _ _ _ _ _ (iv_search _ _ _ _ K)) I NU).
    - reflexivity.
    - apply (dr_cls _ _ _ _ R).
    - apply (dr_units _ _ _ _ R).
    - apply (dr_unsat _ _ _ _ R).
    - intros x. split; [auto|]. intros [H|(y&[]&_)]. exact H.
    - pose proof (units_gfix (c_v c) _ (c_s c) s2 OK TK Z EV ET (iv_trail _ _ _ _ K)) as GF.
      split; [exact X1|]. split.
      + intros _. split; [apply names_plain; [exact Logic.I|exact N]|]. unfold orel. cbn [cw_s c_v c_s c_d c_bin]. rewrite (entries_lits _ _ _ _ _ EL).
        constructor; rewrite ?db_ev, ?as_keep by exact Logic.I; cbn [CheckerValid.db_event]; [exact X2| |exact X3|exact (dr_as _ _ _ _ R)].
        intros l. rewrite X4. symmetry. apply GF.
      + intros E0. split; [exact N|]. cbn [cw_s c_v c_s c_d c_bin]. rewrite (entries_lits _ _ _ _ _ EL).
        rewrite E0 in *. rewrite EP in *. cbn [map fold_left] in *. eapply db_ext; [apply Permutation_refl| |intros l; reflexivity|exact R].
        intros l. rewrite <- (dr_units _ _ _ _ R), X4. symmetry. apply GF. }
  assert (LV2 : live (cw_s c s2) (waiting A c)) by (eapply live_same; [reflexivity|reflexivity|exact LV]).
  destruct ps as [|p0 ps0].
  - apply csim_ret. eapply live_weaken; [exact LV2|]. intros es FT H. apply (G es FT H). reflexivity.
  - eapply csim_bind; [apply (step_live true _ _ _ (orel A (cw_s c s2)) LV2)|].
    + intros es H s' FT. cbn [cw_s c_v] in s'. subst s'. unfold gstep. destruct (G es (proj1 (fits_snoc _ _ FT)) H) as (X1&X2&_). split; [exact X1|apply X2; exact FT].
    + intros c' [FR L]. apply csim_ret. eapply live_weaken; [exact L|]. intros es _ H. apply (orel_frame A _ _ es FR). exact H.
Qed.

(** * Deleting clauses *)
Definition del_entry (v : vars) (q : list N * del_proof) : list N * bool := (canon (gls v (fst q)), CheckerSteps.is_red (snd q)).
Definition may_delete (v : vars) (un : N -> Prop) (q : list N * del_proof) : Prop :=
  CheckerSteps.taut (gls v (fst q)) = false /\ (snd q = DRedundant \/ snd q = DSatisfied /\ exists l, In l (fst q) /\ un (gl v l)).
Definition del_step (q : list N * del_proof) : proof_step := DeleteClause (fst q) (snd q).
Lemma delete_one v cls un A es q kept : names_rel v es -> db_rel cls un A es -> Permutation cls (del_entry v q :: kept) -> may_delete v un q ->
  let e := Step (DeleteClause (gls v (fst q)) (snd q)) in valid es e /\ names_rel v (es ++ [e]) /\ db_rel kept un A (es ++ [e]).
Proof.
  intros N R P [T H]. cbv zeta. split; [|split].
  - cbn [CheckerValid.valid]. split; [exact T|]. split.
    + eapply Permutation_in; [apply Permutation_sym, (dr_cls _ _ _ _ R)|]. eapply Permutation_in; [apply Permutation_sym, P|]. left. reflexivity.
    + destruct H as [->|[-> (l&I&U)]]; [exact Logic.I|]. exists (gl v l). split; [apply in_map; exact I|apply (dr_units _ _ _ _ R); exact U].
  - apply names_plain; [exact Logic.I|exact N].
  - eapply delete_rel; [exact P|exact R].
Qed.
Lemma delete_all un A kept : forall dels c, (forall q, In q dels -> may_delete (c_v c) un q) ->
  live c (fun es => names_rel (c_v c) es /\ db_rel (map (del_entry (c_v c)) dels ++ kept) un A es) ->
  csim (add_steps true (map del_step dels) c) (fun c' => frame c c' /\ live c' (fun es => names_rel (c_v c) es /\ db_rel kept un A es)).
Proof.
  induction dels as [|q dels IH]; intros c M L; cbn [map add_steps app] in *.
  - apply csim_ret. split; [apply frame_refl|exact L].
  - eapply csim_bind; [apply (step_live true _ _ _ (fun es => names_rel (c_v c) es /\ db_rel (map (del_entry (c_v c)) dels ++ kept) un A es) L)|].
    + intros es [N R] s' FT. subst s'. unfold del_step, gstep.
      apply (delete_one (c_v c) _ un A es q (map (del_entry (c_v c)) dels ++ kept) N R (Permutation_refl _) (M q (or_introl eq_refl))).
    + intros c1 [FR L1]. pose proof (frame_v _ _ FR) as EV. eapply csim_weaken; [apply IH|].
      * rewrite EV. intros r I. apply M. right. exact I.
      * rewrite EV. exact L1.
      * intros c' [F2 L2]. rewrite EV in L2. split; [eapply frame_trans; eassumption|exact L2].
Qed.

(** * Binary clauses *)
Definition dead_pair (s : search) (p : N * N) : bool := negb (lunk s (fst p) && lunk s (snd p)).
Lemma lunk_not s l : lunk s (lnot l) = lunk s l.
Proof.
  destruct (lunk s l) eqn:E; [apply lunk_iff in E; apply lunk_iff; rewrite lnot_var; exact E|]. apply lunk_false in E. apply lunk_false. rewrite lnot_var. exact E.
Qed.
Lemma filter_perm {B} (f : B -> bool) l : Permutation l (filter f l ++ filter (fun x => negb (f x)) l).
Proof.
  induction l as [|x l IH]; [constructor|]. cbn [filter]. destruct (f x); cbn [negb app]; [apply perm_skip; exact IH|]. apply Permutation_cons_app. exact IH.
Qed.
Lemma filter_flat {B C} (f : C -> bool) (g : B -> list C) l : filter f (flat_map g l) = flat_map (fun x => filter f (g x)) l.
Proof. induction l as [|x l IH]; [reflexivity|]. cbn [flat_map]. rewrite filter_app, IH. reflexivity. Qed.
Lemma filter_map {B C} (f : C -> bool) (g : B -> C) l : filter f (map g l) = map g (filter (fun x => f (g x)) l).
Proof. induction l as [|x l IH]; [reflexivity|]. cbn [map filter]. destruct (f (g x)); cbn [map]; rewrite IH; reflexivity. Qed.
Lemma map_flat {B C D} (f : C -> D) (g : B -> list C) l : map f (flat_map g l) = flat_map (fun x => map f (g x)) l.
Proof. induction l as [|x l IH]; [reflexivity|]. cbn [flat_map]. rewrite map_app, IH. reflexivity. Qed.
Lemma filter_filter {B} (f g : B -> bool) l : filter f (filter g l) = filter (fun x => g x && f x) l.
Proof. induction l as [|x l IH]; [reflexivity|]. cbn [filter]. destruct (g x); cbn [filter andb]; [destruct (f x)|]; rewrite IH; reflexivity. Qed.
Lemma pairs_kept s n bin : bin_pairs n (simplify_bin s bin) = filter (fun p => negb (dead_pair s p)) (bin_pairs n bin).
Proof.
  unfold bin_pairs. rewrite filter_flat. apply flat_map_ext. intros l. rewrite filter_map, filter_filter. unfold simplify_bin, dead_pair. cbn [fst snd]. rewrite lunk_not.
  destruct (lunk s l) eqn:E.
  - f_equal. rewrite filter_filter. apply filter_ext. intros o. cbn [andb]. rewrite negb_involutive. apply andb_comm.
  - cbn [filter map]. f_equal. symmetry. rewrite <- filter_filter. cbn [andb negb].
    induction (filter _ (bin l)) as [|x r IH]; [reflexivity|exact IH].
Qed.
Lemma pairs_dropped s n bin : flat_map (binary_steps s bin) (codes (N.to_nat (2 * n)) 0) =
  map del_step (map (fun p => ([fst p; snd p], DSatisfied)) (filter (dead_pair s) (bin_pairs n bin))).
Proof.
  unfold bin_pairs. rewrite filter_flat, !map_flat. apply flat_map_ext. intros l. unfold binary_steps. rewrite filter_map, filter_filter, !map_map. unfold dead_pair, del_step. cbn [fst snd].
  f_equal. apply filter_ext. intros o. rewrite lunk_not. apply andb_comm.
Qed.
Lemma simplify_binary_sim F A c : simp (ClauseDb.live (c_d c)) false F A c -> live c (orel A c) ->
  csim (simplify_binary c) (fun c' => live c' (orel A c')).
Proof.
  intros SP LV. unfold simplify_binary. cbv zeta. rewrite pairs_dropped. pose proof (b_vars _ (sp_base _ _ _ _ _ SP)) as OK.
  set (bin := simplify_bin (c_s c) (c_bin c)).
  set (dels := map (fun p => ([fst p; snd p], DSatisfied)) (filter (dead_pair (c_s c)) (bin_pairs (v_slen (c_v c)) (c_bin c)))).
  assert (BU : forall l o, In o (c_bin c l) -> v_gs (c_v c) (lit_var l) <> None /\ v_gs (c_v c) (lit_var o) <> None).
  { intros l o I. destruct (bin_use _ _ _ _ l o (sp_used _ _ _ _ _ SP)) as [U1 U2]; [intros; apply (sp_bin _ _ _ _ _ SP); assumption|exact I|]. split; apply in_use_named; assumption. }
  assert (TR : forall x, v_gs (c_v c) (lit_var x) <> None -> istrue (c_s c) x -> gfix (c_v c) (c_s c) (gl (c_v c) x)).
  { intros x NM T. apply (gfix_gl _ _ _ OK NM). apply (simp_fixed _ _ _ _ _ _ _ SP). exact T. }
  eapply csim_bind; [apply (delete_all (gfix (c_v c) (c_s c)) A (entries (c_v c) (c_s c) (c_d c) bin) dels c)|].
  - intros q I. apply in_map_iff in I. destruct I as ([a b]&<-&I). apply filter_In in I. destruct I as [I D].
    destruct (bin_pairs_in _ _ _ _ I) as (l&->&IB&_). destruct (BU l b IB) as [N1 N2]. destruct (sp_bin _ _ _ _ _ SP l b IB) as (L1&L2&NE&SY).
    cbn [fst snd]. split.
    + cbn [fst snd]. apply gls_taut; [exact OK| |].
      * intros y [<-|[<-|[]]]; rewrite ?lnot_var; assumption.
      * cbn [map]. rewrite lnot_var. constructor; [intros [X|[]]; congruence|]. constructor; [intros []|constructor].
    + right. cbn [fst snd]. split; [reflexivity|]. unfold dead_pair in D. cbn [fst snd] in D. rewrite lunk_not in D.
      pose proof (sp_binopen _ _ _ _ _ SP l b IB) as B1. pose proof (sp_binopen _ _ _ _ _ SP _ _ SY) as B2. cbn in B1, B2.
      destruct (value_cases (c_s c) l) as [T|[T|T]].
      * exists b. split; [right; left; reflexivity|]. apply TR; auto.
      * exists (lnot l). split; [left; reflexivity|]. apply TR; [rewrite lnot_var; exact N1|exact T].
      * destruct (value_cases (c_s c) b) as [T2|[T2|T2]].
        -- exists b. split; [right; left; reflexivity|]. apply TR; auto.
        -- exists (lnot l). split; [left; reflexivity|]. apply TR; [rewrite lnot_var; exact N1|apply B2; exact T2].
        -- apply lunk_iff in T. apply lunk_iff in T2. rewrite T, T2 in D. discriminate.
  - eapply live_weaken; [exact LV|]. intros es _ [NR R]. split; [exact NR|]. eapply db_ext; [|intros l; reflexivity|intros l; reflexivity|exact R].
    unfold entries. subst dels bin. rewrite pairs_kept, !map_map. unfold del_entry, bin_entry. cbn [fst snd CheckerSteps.is_red].
    eapply Permutation_trans; [apply Permutation_app_head; eapply Permutation_map; apply (filter_perm (dead_pair (c_s c)))|].
    rewrite map_app. rewrite !app_assoc. apply Permutation_app_tail. apply Permutation_app_comm.
  - intros c1 [FR L]. apply csim_ret. eapply live_same; [| |eapply live_weaken; [exact L|]]; [reflexivity|reflexivity|].
    intros es _ H. destruct FR as (e&p&->). exact H.
Qed.

(** * Long clauses *)
Lemma live_remove s d x : NoDup (ClauseDb.live d) -> In x (ClauseDb.live d) -> Permutation (ClauseDb.live d) (x :: ClauseDb.live (delete_header s d x)).
Proof.
  intros ND I. apply NoDup_Permutation; [exact ND| |].
  - constructor; [intros J; apply live_delete in J; tauto|]. unfold ClauseDb.live in ND |- *.
    change (d_clauses (delete_header s d x)) with (d_clauses d). clear I. induction (d_clauses d) as [|y l IH]; [constructor|]. cbn [filter] in *.
    rewrite deleted_delete. destruct (N.eqb_spec y x) as [E|E]; cbn [orb negb].
    + apply IH. destruct (negb (deleted d y)); [inversion ND; assumption|exact ND].
    + destruct (negb (deleted d y)); [|apply IH; exact ND]. inversion ND as [|? ? N1 N2]; subst. constructor; [|apply IH; exact N2].
      intros J. apply N1. apply filter_In in J. destruct J as [J1 J2]. apply filter_In. split; [exact J1|]. rewrite deleted_delete in J2.
      destruct (deleted d y); [|reflexivity]. rewrite orb_true_r in J2. discriminate.
  - intros y. cbn [In]. rewrite live_delete. destruct (N.eq_dec y x) as [->|NE]; [tauto|]. split; [tauto|]. intros [E|H]; [congruence|tauto].
Qed.
Lemma entries_delete v s d bin x : NoDup (ClauseDb.live d) -> In x (ClauseDb.live d) ->
  Permutation (entries v s d bin) (long_entry v s d x :: entries v s (delete_header s d x) bin).
Proof.
  intros ND I. unfold entries. eapply Permutation_trans; [apply Permutation_app_tail; apply Permutation_map; apply (live_remove s d x ND I)|].
  cbn [map app]. apply perm_skip. apply Permutation_app_tail. erewrite map_ext; [apply Permutation_refl|]. intros y. unfold long_entry. rewrite htier_delete. reflexivity.
Qed.
Lemma flat_map_ext_in' {B C} (f g : B -> list C) ls : (forall x, In x ls -> f x = g x) -> flat_map f ls = flat_map g ls.
Proof. induction ls as [|x ls IH]; intros H; [reflexivity|]. cbn [flat_map]. rewrite (H x) by (left; reflexivity). f_equal. apply IH. intros y I. apply H. right. exact I. Qed.
Lemma flat_upd {B C} (f f' : B -> list C) z a ls : NoDup ls -> In a ls -> (forall l, l <> a -> f' l = f l) -> f' a = f a ++ z ->
  Permutation (flat_map f' ls) (z ++ flat_map f ls).
Proof.
  intros ND I H E. induction ls as [|x ls IH]; [destruct I|]. inversion ND as [|? ? N1 N2]; subst. cbn [flat_map]. destruct I as [->|I].
  - rewrite E. erewrite (flat_map_ext_in' f' f ls) by (intros y J; apply H; intros ->; exact (N1 J)).
    rewrite <- app_assoc. rewrite (app_assoc z). rewrite app_assoc. apply Permutation_app_tail. apply Permutation_app_comm.
  - rewrite H by (intros ->; exact (N1 I)). eapply Permutation_trans; [apply Permutation_app_head; apply (IH N2 I)|].
    rewrite !app_assoc. apply Permutation_app_tail. apply Permutation_app_comm.
Qed.
Lemma pairs_upd n bin a b : a < 2 * n -> Permutation (bin_pairs n (upd bin a (bin a ++ [b]))) ((if lnot a <? b then [(lnot a, b)] else []) ++ bin_pairs n bin).
Proof.
  intros L. unfold bin_pairs. apply (flat_upd _ _ _ a); [apply codes_nodup|apply codes_in; lia| |].
  - intros l NE. rewrite upd_ne by exact NE. reflexivity.
  - rewrite upd_eq. rewrite filter_app, map_app. f_equal. cbn [filter]. destruct (lnot a <? b); reflexivity.
Qed.
Lemma var_lt l n : lit_var l < n -> l < 2 * n.
Proof. rewrite lit_var_div. intros H. pose proof (div2_odd_eq l). destruct (N.odd l); lia. Qed.
Lemma entries_bin v s d c l0 l1 : lit_var l0 < v_slen v -> lit_var l1 < v_slen v -> lit_var l0 <> lit_var l1 ->
  Permutation (entries v s d (c_bin (add_binary_clause l0 l1 c))) ((canon (gls v [l0; l1]), false) :: entries v s d (c_bin c)).
Proof.
  intros L0 L1 NE. unfold entries. eapply Permutation_trans; [|apply Permutation_sym, Permutation_middle]. apply Permutation_app_head.
  change (c_bin (add_binary_clause l0 l1 c)) with
    (let b := upd (c_bin c) (lnot l0) (c_bin c (lnot l0) ++ [l1]) in upd b (lnot l1) (b (lnot l1) ++ [l0])). cbv zeta.
  eapply Permutation_trans; [apply Permutation_map; apply pairs_upd; apply var_lt; rewrite lnot_var; exact L1|].
  rewrite map_app. eapply Permutation_trans; [apply Permutation_app_head; apply Permutation_map; apply pairs_upd; apply var_lt; rewrite lnot_var; exact L0|].
  rewrite map_app, app_assoc. change ((canon (gls v [l0; l1]), false) :: map (bin_entry v) (bin_pairs (v_slen v) (c_bin c))) with
    ([(canon (gls v [l0; l1]), false)] ++ map (bin_entry v) (bin_pairs (v_slen v) (c_bin c))).
  apply Permutation_app_tail. rewrite !lnot_invol.
  assert (l0 <> l1) by congruence.
  destruct (N.ltb_spec l1 l0) as [H1|H1], (N.ltb_spec l0 l1) as [H2|H2]; try lia; cbn [map app]; unfold bin_entry; cbn [fst snd].
  - erewrite (canon_gls v [l1; l0] [l0; l1]); [apply Permutation_refl|]. cbn [In]. tauto.
  - apply Permutation_refl.
Qed.
Lemma entries_shrink v s d bin x new : NoDup (ClauseDb.live d) -> In x (ClauseDb.live d) ->
  Permutation (entries v (with_lits s (upd (s_lits s) x new)) d bin) ((canon (gls v new), negb (tier_eqb (htier d x) Irred)) :: entries v s (delete_header s d x) bin).
Proof.
  intros ND I. unfold entries. eapply Permutation_trans; [apply Permutation_app_tail; apply Permutation_map; apply (live_remove s d x ND I)|].
  cbn [map app]. unfold long_entry at 1. cbn [with_lits s_lits]. rewrite upd_eq. apply perm_skip. apply Permutation_app_tail.
  erewrite map_ext_in; [apply Permutation_refl|]. intros y J. apply live_delete in J. unfold long_entry. cbn [with_lits s_lits]. rewrite upd_ne by tauto. rewrite htier_delete. reflexivity.
Qed.
Lemma simplify_clause_sim F A c x rest : simp (x :: rest) true F A c -> In x (ClauseDb.live (c_d c)) -> ~ In x rest -> live c (orel A c) ->
  csim (simplify_clause x c) (fun '(c', keep) => let c2 := if keep : bool then c' else cw_d c' (delete_header (c_s c') (c_d c') x) in live c2 (orel A c2)).
Proof.
  intros SP IX NX LV. unfold simplify_clause. cbv zeta. pose proof (b_vars _ (sp_base _ _ _ _ _ SP)) as OK.
  set (lits := s_lits (c_s c) x). set (red := negb (tier_eqb (h_tier (d_hdr (c_d c) x)) Irred)).
  pose proof (live_nodup _ _ _ (proj1 (sp_db _ _ _ _ _ SP))) as ND.
  assert (NM : named (c_v c) lits) by (intros l I; apply in_use_named; apply (proj1 (sp_used _ _ _ _ _ SP) x l IX I)).
  pose proof (sp_clause _ _ _ _ _ SP x IX) as (C3&CN&CB). fold lits in C3, CN, CB.
  assert (TA : CheckerSteps.taut (gls (c_v c) lits) = false) by (apply gls_taut; assumption).
  pose proof (entries_delete (c_v c) (c_s c) (c_d c) (c_bin c) x ND IX) as PD. unfold long_entry in PD. fold lits in PD. change (negb (tier_eqb (htier (c_d c) x) Irred)) with red in PD.
  assert (TR : forall y, v_gs (c_v c) (lit_var y) <> None -> istrue (c_s c) y -> gfix (c_v c) (c_s c) (gl (c_v c) y)).
  { intros y N T. apply (gfix_gl _ _ _ OK N). apply (simp_fixed _ _ _ _ _ _ _ SP). exact T. }
  pose proof (open_lits_spec (c_s c) lits) as OL. destruct (open_lits (c_s c) lits) as [new|].
  2:{ destruct OL as (y&IY&TY). set (p := if red then DRedundant else DSatisfied).
    assert (IR : CheckerSteps.is_red p = red) by (subst p; destruct red; reflexivity).
    eapply csim_bind; [apply (step_live true _ _ _ (orel A (cw_d c (delete_header (c_s c) (c_d c) x))) LV)|].
    - intros es [NR R] s' FT. subst s'. unfold gstep. unfold orel. cbn [cw_d c_v c_s c_d c_bin].
      apply (delete_one (c_v c) (entries (c_v c) (c_s c) (c_d c) (c_bin c)) _ A es (lits, p) _ NR R).
      + unfold del_entry. cbn [fst snd]. rewrite IR. exact PD.
      + split; [exact TA|]. cbn [fst snd]. subst p. destruct red; [left; reflexivity|right]. split; [reflexivity|]. exists y. split; [exact IY|apply TR; auto].
    - intros c' [FR L]. apply csim_ret. cbv zeta. destruct FR as (e&q&->). eapply live_same; [| |exact L]; reflexivity. }
  destruct OL as [EN NT].
  destruct (Nat.ltb_spec (length new) (length lits)) as [SH|SH]; [|apply csim_ret; exact LV].
  assert (ST : settled0 (c_s c) lits) by (apply (proj1 (sp_rest _ _ _ _ _ SP x IX)); left; reflexivity).
  destruct ST as [(y&IY&TY)|(y&z&IY&IZ&NE&VY&VZ)]; [exfalso; exact (NT _ IY TY)|].
  assert (TW : (2 <= length new)%nat) by (subst new; apply filter_two with (x := y) (y := z); auto; [congruence| |]; apply lunk_iff; assumption).
  assert (IN : forall l, In l new <-> In l lits /\ s_val (c_s c) (lit_var l) = None) by (intros l; subst new; rewrite filter_In, lunk_iff; tauto).
  assert (NN : NoDup (map lit_var new)) by (subst new; apply NoDup_map_filter; exact CN).
  assert (NMN : named (c_v c) new) by (intros l I; apply NM, IN, I).
  set (red' := red && Nat.ltb 2 (length new)).
  pose proof (canon_len _ _ OK NMN NN) as LN.
  set (P1 := fun es => names_rel (c_v c) es /\ db_rel ((canon (gls (c_v c) new), red') :: entries (c_v c) (c_s c) (c_d c) (c_bin c)) (gfix (c_v c) (c_s c)) A es /\
              (red = false -> CheckerRun.last_irred es = Some (gls (c_v c) new))).
  eapply csim_bind; [apply (step_live true _ _ _ P1 LV)|].
  { intros es [NR R] s' FT. subst s'. unfold gstep. split; [|split; [|split]].
    - cbn [CheckerValid.valid]. split; [apply gls_taut; assumption|]. pose proof (proj1 (fits_snoc _ _ FT)) as FT0.
      apply (derive (c_v c) es _ _ A new _ [lits] (map lnot lits) OK NR FT0 R).
      + intros D [<-|[]]. split; [exact NM|]. split; [exact CN|]. exists red. eapply Permutation_in; [apply Permutation_sym, PD|]. left. reflexivity.
      + reflexivity.
      + apply rup_conflict. intros l I. apply in_map. exact I.
      + intros l I. apply in_map_iff in I. destruct I as (w&<-&I). rewrite lnot_invol.
        destruct (value_cases (c_s c) w) as [T|[T|T]]; [exfalso; exact (NT _ I T)| |left; apply IN; auto].
        right. apply TR; [rewrite lnot_var; apply NM; exact I|exact T].
    - apply names_plain; [exact Logic.I|exact NR].
    - apply at_long; [rewrite LN; exact TW|exact R].
    - intros RE. rewrite CheckerRun.last_irred_snoc. subst red'. rewrite RE. reflexivity. }
  intros c1 [FR1 L1]. pose proof (frame_v _ _ FR1) as EV1. set (p := if red then DRedundant else DSimplified).
  assert (IR : CheckerSteps.is_red p = red) by (subst p; destruct red; reflexivity).
  set (P2 := fun es => names_rel (c_v c) es /\ db_rel ((canon (gls (c_v c) new), red') :: entries (c_v c) (c_s c) (delete_header (c_s c) (c_d c) x) (c_bin c)) (gfix (c_v c) (c_s c)) A es).
  eapply csim_bind; [apply (step_live true _ _ _ P2 L1)|].
  { intros es (NR&R&LI) s' FT. cbv zeta in s', FT |- *. subst s'. rewrite EV1 in *. unfold gstep in *.
    assert (PE : Permutation ((canon (gls (c_v c) new), red') :: entries (c_v c) (c_s c) (c_d c) (c_bin c))
       ((canon (gls (c_v c) lits), red) :: (canon (gls (c_v c) new), red') :: entries (c_v c) (c_s c) (delete_header (c_s c) (c_d c) x) (c_bin c))).
    { eapply Permutation_trans; [apply perm_skip, PD|]. apply perm_swap. }
    split; [|split].
    - cbn [CheckerValid.valid]. split; [exact TA|]. rewrite IR. split.
      + eapply Permutation_in; [apply Permutation_sym, (dr_cls _ _ _ _ R)|]. eapply Permutation_in; [apply Permutation_sym, PE|]. left. reflexivity.
      + subst p. destruct red; [exact Logic.I|]. exists (gls (c_v c) new). split; [apply LI; reflexivity|]. split.
        * intros l I. apply gls_in in I. destruct I as (w&<-&I). apply in_map. apply IN. exact I.
        * intros IC. assert (LL : (length (gls (c_v c) lits) <= length (gls (c_v c) new))%nat).
          { apply NoDup_incl_length; [|exact IC]. apply nodup_of_vars, gls_nodup; assumption. }
          unfold gls in LL. rewrite !map_length in LL. lia.
    - apply names_plain; [exact Logic.I|exact NR].
    - eapply delete_rel; [|exact R]. rewrite IR. exact PE. }
  intros c2 [FR2 L2]. pose proof (frame_trans _ _ _ FR1 FR2) as (e&q&->). clear FR1 FR2.
  destruct new as [|l0 [|l1 [|l2 nr]]]; [cbn in TW; lia|cbn in TW; lia| |].
  - apply csim_ret. cbv zeta. eapply live_same; [| |eapply live_weaken; [exact L2|]]; [reflexivity|reflexivity|]. intros es _ [NR R]. split; [exact NR|].
    assert (RE : red' = false) by (subst red'; cbn; apply andb_false_r). rewrite RE in R.
    unfold orel. cbn [cw_d c_v c_s c_d c_bin add_binary_clause cw_bin cw_pf set_error cw_st].
    eapply db_ext; [|intros l; reflexivity|intros l; reflexivity|exact R]. apply Permutation_sym. apply entries_bin.
    + apply CB. apply IN. left. reflexivity.
    + apply CB. apply IN. right. left. reflexivity.
    + cbn [map] in NN. inversion NN as [|? ? N1 _]; subst. intros E. apply N1. left. symmetry. exact E.
  - apply csim_ret. cbv zeta. eapply live_same; [| |eapply live_weaken; [exact L2|]]; [reflexivity|reflexivity|]. intros es _ [NR R]. split; [exact NR|].
    assert (RE : red' = red) by (subst red'; cbn; apply andb_true_r). rewrite RE in R.
    cbn [cw_s c_v c_s c_d c_bin cw_pf set_error cw_st].
    eapply db_ext; [| |intros l; reflexivity|exact R].
    + apply Permutation_sym. apply entries_shrink; assumption.
    + intros l. unfold gfix, fixv. cbn [with_lits s_val s_trail s_level]. reflexivity.
Qed.

Lemma orel_same A c c' es : c_v c' = c_v c -> s_lits (c_s c') = s_lits (c_s c) -> s_val (c_s c') = s_val (c_s c) -> s_trail (c_s c') = s_trail (c_s c) ->
  s_level (c_s c') = s_level (c_s c) -> ClauseDb.live (c_d c') = ClauseDb.live (c_d c) -> (forall x, htier (c_d c') x = htier (c_d c) x) -> c_bin c' = c_bin c ->
  orel A c es -> orel A c' es.
Proof.
  intros E1 E2 E3 E4 E5 E6 E7 E8 [N R]. unfold orel. rewrite E1, E8. split; [exact N|]. eapply db_ext; [| |intros l; reflexivity|exact R].
  - unfold entries. rewrite E6. apply Permutation_app_tail. erewrite map_ext; [apply Permutation_refl|]. intros x. unfold long_entry. rewrite E2, E7. reflexivity.
  - intros l. unfold gfix, fixv. rewrite E3, E4, E5. reflexivity.
Qed.
Lemma filter_loop_sim F A : forall l c, NoDup l -> (forall x, In x l -> In x (d_clauses (c_d c))) ->
  simp l true F A c -> s_wen (c_s c) = false -> live c (orel A c) -> csim (filter_loop l c) (fun '(c', _) => live c' (orel A c')).
Proof.
  induction l as [|x l IH]; intros c ND SUB K WN LV; cbn [filter_loop]; [apply csim_ret; exact LV|].
  inversion ND as [|? ? NI ND']; subst. destruct (deleted (c_d c) x) eqn:DX.
  - apply IH; [exact ND'|intros y I; apply SUB; right; exact I| |exact WN|exact LV].
    eapply simp_perm; [|exact K]. intros y I. cbn [In]. split; [intros [->|H]; [|exact H]|tauto]. apply live_in in I as [_ I]. congruence.
  - assert (LX : In x (ClauseDb.live (c_d c))) by (apply live_in; split; [apply SUB; left; reflexivity|exact DX]).
    eapply csim_bind; [apply csim_spec; [apply (simplify_clause_spec F A c x l K LX NI WN)|apply (simplify_clause_sim F A c x l K LX NI LV)]|].
    intros [c1 keep]. cbv zeta. set (c2 := if keep then c1 else cw_d c1 (delete_header (c_s c1) (c_d c1) x)).
    intros [(K2&W2&EC2&ED2) L2].
    eapply csim_bind; [apply (IH c2 ND'); [intros y I; rewrite EC2; apply SUB; right; exact I|exact K2|exact W2|exact L2]|].
    intros [c3 r] L3. apply csim_ret. exact L3.
Qed.
Lemma filter_clauses_sim F A c : simp (ClauseDb.live (c_d c)) true F A c -> live c (orel A c) -> csim (filter_clauses c) (fun c' => live c' (orel A c')).
Proof.
  intros K LV. unfold filter_clauses. cbv zeta. set (c0 := cw_s c (disable_watchlists (c_s c))).
  assert (K0 : simp (d_clauses (c_d c0)) true F A c0).
  { eapply simp_perm with (rest := ClauseDb.live (c_d c)).
    - intros x I. unfold c0 in I. cbn [cw_s c_d] in I. split; [intros _; apply live_in in I; apply I|intros _; exact I].
    - pose proof (sp_base _ _ _ _ _ K) as Ba. destruct K. constructor; auto.
      + destruct Ba. constructor; assumption.
      + destruct sp_trail. constructor; assumption. }
  pose proof (dk_nodup _ _ _ (proj1 (sp_db _ _ _ _ _ K))) as ND.
  assert (L0 : live c0 (orel A c0)).
  { eapply live_same; [| |eapply live_weaken; [exact LV|]]; [reflexivity|reflexivity|]. intros es _. apply orel_same; reflexivity. }
  eapply csim_bind; [apply csim_spec; [apply (filter_loop_spec F A (d_clauses (c_d c0)) c0)|apply (filter_loop_sim F A (d_clauses (c_d c0)) c0)]|]; try exact ND; try exact K0; try exact L0; try reflexivity; auto.
  intros [c1 r] [(K1&W1&EC&ER&_) L1]. apply csim_ret.
  assert (El : r = ClauseDb.live (c_d c1)) by (rewrite ER; unfold ClauseDb.live; rewrite EC; reflexivity).
  eapply live_same; [| |eapply live_weaken; [exact L1|]]; [reflexivity|reflexivity|]. intros es _. apply orel_same; try reflexivity.
  rewrite El. unfold ClauseDb.live. cbn [cw_d c_d with_clauses d_clauses d_hdr deleted]. unfold deleted. cbn [with_clauses d_hdr].
  rewrite filter_filter. apply filter_ext. intros x. destruct (negb _); reflexivity.
Qed.

(** * Variables *)
Lemma simp_tidy rest done F A c : simp rest done F A c -> tidy c.
Proof.
  intros K. constructor.
  - apply base_base0. exact (sp_base _ _ _ _ _ K).
  - intros _ x l I J. apply in_use_named. apply (proj1 (sp_used _ _ _ _ _ K) x l I J).
  - intros _ l o I. destruct (bin_use _ _ _ _ l o (sp_used _ _ _ _ _ K)) as [U1 U2]; [intros; apply (sp_bin _ _ _ _ _ K); assumption|exact I|].
    split; apply in_use_named; assumption.
  - intros _ l I. rewrite (proj1 (sp_empty _ _ _ _ _ K)) in I. destruct I.
Qed.
Lemma put_orel F A c x g d es : simp [] true F A c -> v_gs (c_v c) x = Some g ->
  d = match s_val (c_s c) x with
      | Some b => vd_set_isolated (vd_set_unit (v_data (c_v c) g) (Some b)) true
      | None => v_data (c_v c) g end ->
  orel A c es -> orel A (cw_v c (v_put (c_v c) g d)) es.
Proof.
  intros K G ED [N R]. pose proof (b_vars _ (sp_base _ _ _ _ _ K)) as OK. unfold orel. cbn [cw_v c_v c_s c_d c_bin]. split.
  - apply (names_data (c_v c)); try reflexivity; [|exact N]. intros h. cbn [v_put set_data v_data]. unfold upd. destruct (N.eqb_spec h g) as [->|NE]; [|reflexivity].
    subst d. destruct (s_val (c_s c) x); reflexivity.
  - eapply db_ext; [| |intros l; reflexivity|exact R].
    + apply Permutation_refl.
    + intros l. unfold gfix. cbn [v_put set_data v_sg v_data]. destruct (v_sg (c_v c) (lit_var l)) as [w|] eqn:E; [reflexivity|].
      rewrite upd_ne; [reflexivity|]. intros E2. rewrite E2 in E. apply (vo_sg _ OK) in G. congruence.
Qed.
Lemma unuse_orel F A c x g es vs : simp [] true F A c -> v_gs (c_v c) x = Some g -> vd_isolated (v_data (c_v c) g) = true ->
  (forall y, s_val (c_s c) x = Some y -> vd_unit (v_data (c_v c) g) = Some y) -> orel A c es ->
  orel A (cw_v (cw_vs c vs) (v_unuse (c_v c) x g)) (es ++ [Step (SolverVarName g None)]).
Proof.
  intros K G IS UN [N R]. pose proof (b_vars _ (sp_base _ _ _ _ _ K)) as OK. pose proof (proj2 (vo_sg _ OK g x) G) as SG.
  destruct (simp_clause_var F A c x K) as [CL CB]; [left; intros h E; rewrite G in E; injection E as <-; exact IS|].
  unfold orel. cbn [cw_v cw_vs c_v c_s c_d c_bin]. split.
  - destruct N as [A0 B C D E F0 G0]. constructor; cbn [v_unuse v_sg v_ug v_data v_glen v_ulen].
    + intros h. rewrite names_ev. cbn [CheckerNames.names_after]. unfold upd. destruct (h =? g); [reflexivity|apply A0].
    + rewrite bits_ev. exact B.
    + intros h. rewrite user_ev. apply C.
    + intros h. rewrite mode_ev. apply D.
    + intros h L. apply ann_ev. apply E. exact L.
    + exact F0.
    + apply del_ev; [exact G0|discriminate].
  - apply db_silent; [exact Logic.I|]. eapply db_ext; [| |intros l; reflexivity|exact R].
    + unfold entries. cbn [v_unuse v_slen]. apply Permutation_app.
      * erewrite map_ext_in; [apply Permutation_refl|]. intros w I. unfold long_entry. f_equal. f_equal. apply gls_ext. intros l J. cbn [v_unuse v_gs]. symmetry. apply upd_ne. apply (CL w l I J).
      * erewrite map_ext_in; [apply Permutation_refl|]. intros [a b] I. destruct (bin_pairs_in _ _ _ _ I) as (l&->&IB&_). unfold bin_entry. cbn [fst snd]. f_equal. f_equal. apply gls_ext.
        destruct (CB l b IB) as [N1 N2]. intros y [<-|[<-|[]]]; cbn [v_unuse v_gs]; rewrite ?lnot_var; symmetry; apply upd_ne; assumption.
    + intros l. unfold gfix. cbn [v_unuse v_sg v_data]. unfold upd. destruct (N.eqb_spec (lit_var l) g) as [E|NE]; [|reflexivity].
      rewrite E, SG. rewrite (simp_fixed _ _ _ _ _ _ _ K). pose proof (vo_used _ OK _ _ SG) as AL. split.
      * intros V. split; [exact AL|apply UN; exact V].
      * intros [_ V]. apply (sp_unit _ _ _ _ _ K g x _ SG V).
Qed.
Lemma simplify_var_sim F A x c : simp [] true F A c -> s_wen (c_s c) = false -> st_sat (c_st c) <> Unsat -> live c (orel A c) ->
  csim (simplify_var x c) (fun c' => live c' (orel A c')).
Proof.
  intros K WN SA LV. unfold simplify_var. destruct (v_gs (c_v c) x) as [g|] eqn:G; [|apply csim_ret; exact LV]. cbv zeta.
  remember (match s_val (c_s c) x with Some b => _ | None => _ end) as d eqn:ED.
  pose proof (simp_put F A c x g d K G ED) as K1. pose proof (fun es => put_orel F A c x g d es K G ED) as P1. unfold v_put in K1, P1.
  set (c1 := cw_v c (set_data (c_v c) (upd (v_data (c_v c)) g d))) in *.
  assert (L1 : live c1 (orel A c1)) by (eapply live_same; [| |eapply live_weaken; [exact LV|intros es _; apply P1]]; reflexivity).
  destruct (vd_isolated d) eqn:ISO, (vd_assumed d) eqn:AS; cbn [andb negb]; try (apply csim_ret; exact L1).
  assert (G1 : v_gs (c_v c1) x = Some g) by exact G.
  assert (D1 : v_data (c_v c1) g = d) by (unfold c1; cbn [cw_v c_v set_data v_data]; apply upd_eq).
  assert (U1 : forall y, s_val (c_s c1) x = Some y -> vd_unit (v_data (c_v c1) g) = Some y).
  { intros y V. change (s_val (c_s c1) x) with (s_val (c_s c) x) in V. rewrite V in ED. rewrite D1, ED. reflexivity. }
  assert (KU : simp [] true F A (cw_v (cw_vs c1 (vsids_make_unavailable (c_vs c1) x)) (v_unuse (c_v c1) x g))).
  { apply simp_unuse; try assumption; rewrite ?D1; assumption. }
  unfold remove_solver_var. cbv zeta. cbn [cw_vs c_v]. rewrite G1.
  change (Vars (v_gu (c_v c1)) (v_ulen (c_v c1)) (v_ug (c_v c1)) (upd (v_sg (c_v c1)) g None) (upd (v_gs (c_v c1)) x None) (v_slen (c_v c1))
     (v_ufree (c_v c1)) (v_gfree (c_v c1)) (insert_n x (v_sfree (c_v c1))) (v_data (c_v c1)) (v_glen (c_v c1)) (v_pick (c_v c1))) with (v_unuse (c_v c1) x g).
  set (c2 := cw_v (cw_vs c1 (vsids_make_unavailable (c_vs c1) x)) (v_unuse (c_v c1) x g)) in *.
  assert (L2 : live c2 (orel A c1)) by (eapply live_same; [| |exact L1]; reflexivity).
  eapply csim_bind; [apply (step_live false (SolverVarName g None) c2 _ (orel A c2) L2)|].
  { intros es H s' FT. subst s'. split; [exact Logic.I|]. apply (unuse_orel F A c1 x g es _ K1 G1); [rewrite D1; exact ISO|exact U1|exact H]. }
  intros c3 [FR L3].
  assert (S3 : st_sat (c_st c3) <> Unsat) by (destruct FR as (e&p&->); exact SA).
  eapply csim_weaken; [apply csim_post; [apply (delete_global_post g c3)|apply (delete_sim A g c3)]|].
  - apply (simp_tidy [] true F A). eapply simp_frame; [exact FR|exact KU].
  - eapply live_weaken; [exact L3|]. intros es _ H. apply (rel_open A c3 es S3). apply (orel_frame A _ _ es FR). exact H.
  - destruct FR as (e&p&->). change (vd_deleted (v_data (c_v c1) g) = false). apply (vo_used _ (z_vars _ (td_base _ (simp_tidy _ _ _ _ _ K1))) g x). apply (vo_sg _ (z_vars _ (td_base _ (simp_tidy _ _ _ _ _ K1)))). exact G1.
  - intros c4 [P L4]. eapply live_weaken; [exact L4|]. intros es _ H. apply rel_open; [|exact H].
    destruct P as [(e&p&->)|(_&_&_&_&(e&p&->))]; exact S3.
Qed.
Lemma simplify_vars_sim F A : forall l c, simp [] true F A c -> s_wen (c_s c) = false -> st_sat (c_st c) <> Unsat -> live c (orel A c) ->
  csim (simplify_vars l c) (fun c' => live c' (orel A c')).
Proof.
  induction l as [|x l IH]; intros c K WN SA LV; cbn [simplify_vars]; [apply csim_ret; exact LV|].
  assert (PK : post (simplify_vars [x] c) (kept c)) by apply simplify_vars_kept. cbn [simplify_vars] in PK.
  eapply csim_bind; [apply csim_post; [|apply csim_spec; [apply (simplify_var_spec F A x c K WN)|apply (simplify_var_sim F A x c K WN SA LV)]]|].
  - intros c1 E. exact (PK c1 ltac:(rewrite E; reflexivity)).
  - intros c1 (KE&(K1&W1)&L1). apply IH; try assumption. rewrite (ke_sat _ _ KE). exact SA.
Qed.
Lemma unit_simplify_sim F A c : simp (ClauseDb.live (c_d c)) false F A c -> st_sat (c_st c) <> Unsat -> live c (orel A c) ->
  csim (unit_simplify c) (fun c' => live c' (orel A c')).
Proof.
  intros K SA LV. unfold unit_simplify.
  eapply csim_bind; [apply csim_post; [apply simplify_binary_kept|apply csim_spec; [apply (simplify_binary_spec F A c K)|apply (simplify_binary_sim F A c K LV)]]|].
  intros c1 (KE1&(K1&_&_)&L1).
  eapply csim_bind; [apply csim_post; [apply filter_clauses_kept|apply csim_spec; [apply (filter_clauses_spec F A c1 K1)|apply (filter_clauses_sim F A c1 K1 L1)]]|].
  intros c2 (KE2&(K2&W2)&L2). apply (simplify_vars_sim F A); try assumption. rewrite (ke_sat _ _ KE2), (ke_sat _ _ KE1). exact SA.
Qed.
