(** The number of binary clauses in the progress report (C53). *)
From Coq Require Import Lia Arith PeanoNat Permutation ZArith ZifyBool ZifyNat ZifyN Sorted.
From Verif Require Import Spec Lit LitProofs BinFormat Hash F32 Vsids VsidsProofs VsidsWf Luby Config Search SearchBase
  Propagate P_Search ClauseDb DbProofs Analyze AnalyzeProofs P_Analyze SolverCtx CtxFrame VarsProofs Solver SolverInv SolverSimplify
  SolverAdd SolverLoad SolverFailed FailedHints SolverSearch P_Solver Terminate Report P_Report.
From Verif Require P_Terminate TerminateLoop.
Local Open Scope nat_scope.

(** The lists of the binary clauses [P], in the order in which they were added: for each literal the other literals of the clauses with its negation. *)
Definition listed (P : list (N * N)) (l : N) : list N :=
  flat_map (fun p => (if (lnot (fst p) =? l)%N then [snd p] else []) ++ (if (lnot (snd p) =? l)%N then [fst p] else [])) P.
Definition bins (c : ctx) : Prop := exists P, length P = c_nbin c /\ forall l, c_bin c l = listed P l.
Lemma bins_as c c' : c_bin c' = c_bin c -> c_nbin c' = c_nbin c -> bins c -> bins c'.
Proof. intros E1 E2 (P & L & H). exists P. rewrite E1, E2. auto. Qed.
Lemma bins_add l0 l1 c : bins c -> bins (add_binary_clause l0 l1 c).
Proof.
  intros (P & L & H). exists (P ++ [(l0, l1)]). split; [rewrite app_length; cbn [length add_binary_clause cw_bin c_nbin]; lia|]. intros l.
  unfold listed. rewrite flat_map_app. cbn [flat_map fst snd]. rewrite app_nil_r. fold (listed P l). rewrite <- H. cbn [add_binary_clause cw_bin c_bin]. unfold upd.
  rewrite (N.eqb_sym (lnot l0) l), (N.eqb_sym (lnot l1) l).
  destruct (N.eqb_spec l (lnot l1)) as [E1|N1]; destruct (N.eqb_spec l (lnot l0)) as [E0|N0]; cbn [app].
  - subst l. rewrite <- E0, N.eqb_refl, <- app_assoc. reflexivity.
  - subst l. destruct (N.eqb_spec (lnot l1) (lnot l0)); [congruence|]. reflexivity.
  - subst l. reflexivity.
  - rewrite app_nil_r. reflexivity.
Qed.
Lemma lunk_not s l : lunk s (lnot l) = lunk s l.
Proof. unfold lunk. rewrite lnot_var. reflexivity. Qed.
Definition both (p : N * N) (l : N) : list N := (if (lnot (fst p) =? l)%N then [snd p] else []) ++ (if (lnot (snd p) =? l)%N then [fst p] else []).
Lemma both_simplify s p l : (if lunk s l then filter (lunk s) (both p l) else []) = if lunk s (fst p) && lunk s (snd p) then both p l else [].
Proof.
  unfold both. destruct p as [a b]. cbn [fst snd]. destruct (N.eqb_spec (lnot a) l) as [Ea|Na]; destruct (N.eqb_spec (lnot b) l) as [Eb|Nb]; cbn [app filter];
    try (assert (Qa : lunk s l = lunk s a) by (rewrite <- Ea; apply lunk_not); rewrite Qa); try (assert (Qb : lunk s l = lunk s b) by (rewrite <- Eb; apply lunk_not)).
  - rewrite <- Qb, <- Qa. destruct (lunk s l); reflexivity.
  - destruct (lunk s a); destruct (lunk s b); reflexivity.
  - rewrite Qb. destruct (lunk s a); destruct (lunk s b); reflexivity.
  - destruct (lunk s l); destruct (lunk s a && lunk s b); reflexivity.
Qed.
Lemma listed_simplify s l : forall P, (if lunk s l then filter (lunk s) (listed P l) else []) = listed (filter (fun p => lunk s (fst p) && lunk s (snd p)) P) l.
Proof.
  induction P as [|p P IH]; [destruct (lunk s l); reflexivity|]. change (listed (p :: P) l) with (both p l ++ listed P l). rewrite filter_app. cbn [filter].
  pose proof (both_simplify s p l) as B. destruct (lunk s (fst p) && lunk s (snd p)).
  - set (Q := filter _ P) in *. change (listed (p :: Q) l) with (both p l ++ listed Q l). rewrite <- IH. destruct (lunk s l); [rewrite B; reflexivity|]. rewrite <- B. reflexivity.
  - rewrite <- IH. destruct (lunk s l); [rewrite B|]; reflexivity.
Qed.
Lemma fold_sum {A} (f : A -> nat) : forall l n, fold_left (fun n x => n + f x) l n = n + list_sum (map f l).
Proof. induction l as [|x l IH]; intros n; cbn [fold_left map list_sum fold_right]; [lia|]. rewrite IH. unfold list_sum. lia. Qed.
Definition hit (k l : N) : nat := if (k =? l)%N then 1 else 0.
Lemma hit_once k : forall n i, (i <= k < i + N.of_nat n)%N -> list_sum (map (hit k) (codes n i)) = 1.
Proof.
  assert (Z : forall n i, (k < i)%N -> list_sum (map (hit k) (codes n i)) = 0).
  { induction n as [|n IH]; intros i H; [reflexivity|]. cbn [codes map list_sum fold_right]. unfold hit at 1. destruct (N.eqb_spec k i); [lia|]. apply IH. lia. }
  induction n as [|n IH]; intros i H; [lia|]. cbn [codes map list_sum fold_right]. unfold hit at 1. destruct (N.eqb_spec k i) as [E|NE].
  - fold (list_sum (map (hit k) (codes n (i + 1)))). rewrite Z by lia. reflexivity.
  - fold (list_sum (map (hit k) (codes n (i + 1)))). rewrite IH by lia. reflexivity.
Qed.
Lemma sum_plus {A} (f g : A -> nat) : forall l, list_sum (map (fun x => f x + g x) l) = list_sum (map f l) + list_sum (map g l).
Proof. induction l as [|x l IH]; [reflexivity|]. cbn [map list_sum fold_right] in *. unfold list_sum in *. lia. Qed.
Lemma listed_count n : forall P, (forall p, In p P -> (lnot (fst p) < N.of_nat n)%N /\ (lnot (snd p) < N.of_nat n)%N) ->
  list_sum (map (fun l => length (listed P l)) (codes n 0)) = 2 * length P.
Proof.
  induction P as [|[a b] P IH]; intros H.
  - clear H. generalize 0%N as i. induction n as [|n IHn]; intros i; [reflexivity|]. cbn [codes map list_sum fold_right]. apply IHn.
  - destruct (H (a, b) (or_introl eq_refl)) as [Ha Hb]. cbn [fst snd] in Ha, Hb.
    rewrite (map_ext _ (fun l => (hit (lnot a) l + hit (lnot b) l) + length (listed P l))).
    2: { intros l. cbn [listed flat_map fst snd]. fold (listed P l). rewrite !app_length. unfold hit. destruct (lnot a =? l)%N; destruct (lnot b =? l)%N; reflexivity. }
    rewrite sum_plus, (sum_plus (hit (lnot a)) (hit (lnot b))), !hit_once by lia. rewrite IH by (intros p I; apply H; right; exact I). cbn [length]. lia.
Qed.
Lemma in_listed P a b : In (a, b) P -> In b (listed P (lnot a)) /\ In a (listed P (lnot b)).
Proof.
  intros I. split; apply in_flat_map; exists (a, b); (split; [exact I|]); cbn [fst snd]; rewrite N.eqb_refl; apply in_or_app; [left|right]; left; reflexivity.
Qed.
Lemma var_code l n : (lit_var l < n)%N -> (l < 2 * n)%N.
Proof. unfold lit_var. rewrite N.shiftr_div_pow2. change (2 ^ 1)%N with 2%N. intros H. pose proof (N.div_mod l 2 ltac:(discriminate)). pose proof (N.mod_lt l 2 ltac:(discriminate)). lia. Qed.
Lemma simplify_bins c : (forall l o, In o (c_bin c l) -> (lit_var l < v_slen (c_v c))%N) -> bins c -> post (simplify_binary c) bins.
Proof.
  intros R (P & L & H). unfold simplify_binary. eapply post_bind; [apply add_steps_post|]. intros c' _. apply post_ret.
  exists (filter (fun p => lunk (c_s c) (fst p) && lunk (c_s c) (snd p)) P). cbn [cw_bin c_nbin c_bin].
  assert (E : forall l, simplify_bin (c_s c) (c_bin c) l = listed (filter (fun p => lunk (c_s c) (fst p) && lunk (c_s c) (snd p)) P) l).
  { intros l. unfold simplify_bin. rewrite H. apply listed_simplify. }
  split; [|exact E]. rewrite fold_sum, (map_ext _ _ (fun l => f_equal (@length N) (E l))), listed_count; [cbn [Nat.add]; rewrite Nat.div2_double; reflexivity|].
  intros [a b] I. apply filter_In in I as [I _]. destruct (in_listed P a b I) as [Ib Ia]. rewrite <- H in Ia, Ib. apply R in Ia, Ib. apply var_code in Ia, Ib. cbn [fst snd]. lia.
Qed.

(** * Calls that do not search *)
Definition frm {A} (c0 : ctx) (pr : A -> ctx) (m : out A) : Prop :=
  match m with Ret a => bins c0 -> bins (pr a) | _ => True end.
Notation self := (fun c : ctx => c).
Ltac same := solve [cbn [frm]; intros H; exact H | cbn [frm]; intros H; destruct H as (P & L & H); exists P; split; [exact L|exact H]].
Lemma frm_bind {A B} c0 (pa : A -> ctx) (pb : B -> ctx) m f : frm c0 pa m -> (forall a, frm (pa a) pb (f a)) -> frm c0 pb (bind m f).
Proof.
  intros H K. destruct m as [a|p|]; cbn [bind frm] in *; auto. specialize (K a). destruct (f a); cbn [frm] in *; auto.
Qed.
Lemma frm_as {A} c0 c1 (pa : A -> ctx) m : (bins c0 -> bins c1) -> frm c1 pa m -> frm c0 pa m.
Proof. intros E H. destruct m; cbn [frm] in *; auto. Qed.
Lemma frm_frame c m : ends m -> post m (frame c) -> frm c self m.
Proof. intros E P. destruct m as [c'|p|]; cbn [frm]; auto. destruct (P _ eq_refl) as (e & p & ->). same. Qed.
Lemma frm_step sv s c : frm c self (add_step sv s c).
Proof. apply frm_frame; [apply ends_step|apply add_step_post]. Qed.
Lemma frm_proof cl c : frm c self (proof_add_clause cl c).
Proof.
  apply frm_frame; [|apply proof_add_clause_post]. unfold proof_add_clause. destruct (st_invoked _); [apply ends_step|]. apply ends_bind; [|intros c1 _; discriminate].
  destruct (p_checker _); [|discriminate]. destruct (map_lits _ _); [apply ends_ask|discriminate].
Qed.
Lemma frm_gfu1 u rs c : frm c fst (global_from_user1 u rs c).
Proof.
  unfold global_from_user1. cbv zeta. destruct (v_gu (c_v c) u); [destruct (_ && _); [exact Logic.I|same]|].
  eapply (frm_bind _ self); [|intros c1; same]. eapply frm_as; [|apply frm_step]. same.
Qed.
Lemma frm_fill : forall n c, frm c self (fill_users n c).
Proof.
  induction n as [|n IH]; intros c; cbn [fill_users]; [same|]. eapply (frm_bind _ fst); [apply frm_gfu1|]. intros [c1 g]. apply IH.
Qed.
Lemma frm_gfu u rs c : frm c fst (global_from_user u rs c).
Proof. unfold global_from_user. eapply (frm_bind _ self); [apply frm_fill|]. intros c1. apply frm_gfu1. Qed.
Lemma frm_sfg g c : frm c fst (solver_from_global g c).
Proof.
  unfold solver_from_global. cbv zeta. destruct (v_sg (c_v c) g); [same|]. eapply (frm_bind _ self); [|intros c1; eapply (frm_bind _ self); [apply frm_step|intros c2; same]].
  unfold initialize_solver_var. cbv zeta. destruct (vsids_reset _ _); [|exact Logic.I]. same.
Qed.
Lemma frm_lits rs : forall l c, frm c fst (solver_from_user_lits l rs c).
Proof.
  induction l as [|x l IH]; intros c; cbn [solver_from_user_lits]; [same|]. eapply (frm_bind _ fst).
  - unfold solver_from_user. eapply (frm_bind _ fst); [apply frm_gfu|]. intros [c1 g]. apply frm_sfg.
  - intros [c1 y]. eapply (frm_bind _ fst); [apply IH|]. intros [c2 r]. same.
Qed.
Lemma frm_delete g c : frm c self (delete_global_if_unused g c).
Proof.
  unfold delete_global_if_unused. cbv zeta. destruct (v_ug (c_v c) g); [same|]. destruct (v_sg (c_v c) g); [same|].
  destruct (negb _); [exact Logic.I|]. destruct (negb _); [same|]. eapply (frm_bind _ self); [|intros c1; same]. eapply frm_as; [|apply frm_step]. same.
Qed.
Lemma frm_mode g m c : frm c fst (set_sampling_mode g m c).
Proof.
  unfold set_sampling_mode. cbv zeta. destruct (vd_deleted _); [exact Logic.I|]. destruct (vd_assumed _); [exact Logic.I|]. destruct (smode_eqb _ m); [same|].
  eapply (frm_bind _ self).
  - destruct (smode_eqb m Hide); [same|]. eapply frm_as; [|apply frm_step]. same.
  - intros c1. destruct (smode_eqb _ Hide).
    + eapply (frm_bind _ self); [|intros c2; same]. eapply frm_as; [|apply frm_step]. same.
    + destruct (smode_eqb m Hide); [|same]. eapply (frm_bind _ self); [eapply frm_as; [|apply frm_step]; destruct (v_ug _ _); same|].
      intros c2. eapply (frm_bind _ self); [apply frm_delete|]. intros c3. same.
Qed.
Lemma frm_observe : forall n g c, frm c fst (observe_loop n g c).
Proof.
  induction n as [|n IH]; intros g c; cbn [observe_loop]; [same|]. cbv zeta. destruct (_ && _); [|apply IH].
  eapply (frm_bind _ fst); [apply frm_mode|]. intros [c1 [u|]]; [|exact Logic.I]. eapply (frm_bind _ fst); [apply IH|]. intros [c2 r]. same.
Qed.
Lemma frm_data f : forall l c, frm c self (map_data_lits l f c).
Proof.
  induction l as [|x l IH]; intros c; cbn [map_data_lits]; [same|]. eapply (frm_bind _ self); [|intros c1; apply IH].
  unfold map_data_solver. destruct (v_gs _ _) as [g|]; [same|exact Logic.I].
Qed.
Lemma back_bins k c : c_bin (backtrack_to k c) = c_bin c /\ c_nbin (backtrack_to k c) = c_nbin c.
Proof. unfold backtrack_to. destruct (backtrack _ _ _) as [s vs]. split; reflexivity. Qed.
Lemma full_restart_bins c : bins c -> bins (full_restart c).
Proof. unfold full_restart. destruct (back_bins 0 (set_levels 0 c)) as [E1 E2]. apply bins_as; [rewrite E1|rewrite E2]; reflexivity. Qed.
Lemma frm_load l c : frm c self (load_clause l c).
Proof.
  unfold load_clause. destruct (st_sat (c_st c)) eqn:St; try same; cbv zeta.
  all: eapply (frm_bind _ fst); [eapply frm_as; [|apply frm_lits]; intros H; apply full_restart_bins; exact H|]; intros [c1 ls]; cbn [fst].
  all: eapply (frm_bind _ self); [apply frm_proof|]; intros c2; (destruct (tautology _); [same|]).
  all: eapply (frm_bind _ self); [destruct (Nat.ltb _ _); [apply frm_data|same]|]; intros c3; destruct (scan_lits _ _) as [[kept fl] tr].
  all: set (s' := fold_left _ fl (c_s c3)); clearbody s'.
  all: destruct tr; [destruct (Nat.ltb _ _); [eapply frm_as; [|apply frm_step]; same|same]|].
  all: destruct (kept ++ fl) as [|l0 [|l1 [|l2 r]]]; try same.
  all: try (destruct kept; same).
  all: try (cbn [frm]; intros H; apply bins_add; exact H).
  all: eapply (frm_bind _ fst); [|intros [c4 x]; same]; unfold db_add_clause, add_long; cbv zeta; (destruct (d_full _); [exact Logic.I|]); same.
Qed.
Lemma frm_assume l c : frm c self (set_assumptions l c).
Proof.
  unfold set_assumptions. cbv zeta. eapply (frm_bind _ self); [eapply frm_as; [|apply frm_data]; intros H; apply full_restart_bins in H; destruct (st_sat _); exact H|].
  intros c1. eapply (frm_bind _ fst); [apply frm_lits|]. intros [c2 ls]. eapply (frm_bind _ self); [eapply frm_as; [|apply frm_data]; same|]. intros c3. apply frm_step.
Qed.
Lemma frm_close c : frm c self (close_proof c).
Proof.
  unfold close_proof. eapply (frm_bind _ self); [apply frm_step|]. intros c1. cbv zeta. unfold flush_proof.
  destruct (handle_io_frame c1 (match p_format (c_pf c1) with Some _ => p_io (c_pf c1) (p_out (c_pf c1)) | None => false end)) as (e & p & ->). same.
Qed.
Lemma take_error_bins c : bins c -> bins (fst (take_error c)).
Proof. unfold take_error. destruct (st_error _); same. Qed.
Lemma frm_run fuel k c : k <> CSolve -> frm c fst (run fuel k c).
Proof.
  intros Nk. destruct k; cbn [run]; try congruence.
  - eapply (frm_bind _ self); [apply frm_load|]. intros c1. same.
  - eapply (frm_bind _ fst); [|intros [c1 u]; same]. unfold new_user_var. cbv zeta. eapply (frm_bind _ fst); [eapply frm_as; [|apply frm_gfu]; same|].
    intros [c1 g]. same.
  - eapply (frm_bind _ self); [|intros c1; same]. unfold change_mode. eapply (frm_bind _ fst); [apply frm_gfu|]. intros [c1 g]. eapply (frm_bind _ fst); [apply frm_mode|]. intros [c2 o]. same.
  - eapply (frm_bind _ self); [|intros c1; same]. unfold change_mode. eapply (frm_bind _ fst); [apply frm_gfu|]. intros [c1 g]. eapply (frm_bind _ fst); [apply frm_mode|]. intros [c2 o]. same.
  - eapply (frm_bind _ self); [|intros c1; same]. unfold change_mode. eapply (frm_bind _ fst); [apply frm_gfu|]. intros [c1 g]. eapply (frm_bind _ fst); [apply frm_mode|]. intros [c2 o]. same.
  - eapply (frm_bind _ fst); [apply frm_observe|]. intros [c1 l]. same.
  - eapply (frm_bind _ self); [apply frm_assume|]. intros c1. same.
  - destruct (st_empty _); [same|exact Logic.I].
  - eapply (frm_bind _ self); [apply frm_close|]. intros c1. pose proof (take_error_bins c1) as T. destruct (take_error c1) as [c2 [e|]]; exact T.
  - destruct (st_empty _); [same|exact Logic.I].
  - destruct (update_apply _ _) as [ok cfg]. destruct ok; [|same]. destruct (_ && _); [same|exact Logic.I].
Qed.


(** * The search *)
Lemma frm_steps b : forall l c, frm c self (add_steps b l c).
Proof. induction l as [|x l IH]; intros c; cbn [add_steps]; [same|]. eapply (frm_bind _ self); [apply frm_step|]. intros c1. apply IH. Qed.
Lemma frm_units c : frm c fst (prove_units c).
Proof.
  unfold prove_units. destruct (Nat.eqb _ _); [|same]. cbv zeta. destruct (unit_proofs _ _) as [s ps]. destruct (trail_clear s) as [s1|]; [|exact Logic.I].
  eapply (frm_bind _ self); [|intros c1; same]. destruct ps; [same|]. eapply frm_as; [|apply frm_step]. same.
Qed.
Lemma frm_clause x c : frm c fst (simplify_clause x c).
Proof.
  unfold simplify_clause. cbv zeta. destruct (open_lits _ _) as [r|].
  - destruct (Nat.ltb _ _); [|same]. eapply (frm_bind _ self); [apply frm_step|]. intros c1. eapply (frm_bind _ self); [apply frm_step|]. intros c2.
    destruct r as [|l0 [|l1 [|l2 r]]]; try exact Logic.I; [|same]. cbn [frm fst]. apply bins_add.
  - eapply (frm_bind _ self); [apply frm_step|]. intros c1. same.
Qed.
Lemma frm_loop : forall l c, frm c fst (filter_loop l c).
Proof.
  induction l as [|x l IH]; intros c; cbn [filter_loop]; [same|]. destruct (deleted _ _); [apply IH|]. eapply (frm_bind _ fst); [apply frm_clause|]. intros [c1 keep].
  eapply (frm_bind _ fst); [|intros [c2 r]; same]. eapply frm_as; [|apply IH]. destruct keep; same.
Qed.
Lemma frm_filter c : frm c self (filter_clauses c).
Proof. unfold filter_clauses. cbv zeta. eapply (frm_bind _ fst); [|intros [c1 r]; same]. eapply frm_as; [|apply frm_loop]. same. Qed.
Lemma frm_remove x c : frm c self (remove_solver_var x c).
Proof.
  unfold remove_solver_var. cbv zeta. cbn [cw_vs c_v]. destruct (v_gs (c_v c) x) as [g|]; [|exact Logic.I].
  eapply (frm_bind _ self); [eapply frm_as; [|apply frm_step]; same|]. intros c1. eapply frm_as; [|apply frm_delete]. same.
Qed.
Lemma frm_vars : forall l c, frm c self (simplify_vars l c).
Proof.
  induction l as [|x l IH]; intros c; cbn [simplify_vars]; [same|]. eapply (frm_bind _ self); [|intros c1; apply IH]. unfold simplify_var. destruct (v_gs (c_v c) x) as [g|]; [|same].
  cbv zeta. destruct (_ && _); [|same]. eapply frm_as; [|apply frm_remove]. same.
Qed.
Lemma unit_simplify_bins c : (forall l o, In o (c_bin c l) -> (lit_var l < v_slen (c_v c))%N) -> frm c self (unit_simplify c).
Proof.
  intros R. unfold unit_simplify. eapply (frm_bind _ self).
  - destruct (simplify_binary c) as [c1|p|] eqn:E; [|exact Logic.I|exact Logic.I]. intros B. exact (simplify_bins c R B _ E).
  - intros c1. eapply (frm_bind _ self); [apply frm_filter|]. intros c2. apply frm_vars.
Qed.
Lemma frm_enqueue : forall fuel c, frm c fst (enqueue_loop fuel c).
Proof.
  induction fuel as [|fuel IH]; intros c; cbn [enqueue_loop]; destruct (nth_error _ _) as [a|]; try same.
  all: destruct (lfalse (c_s c) a); [eapply (frm_bind _ self); [|intros c1; same]; unfold analyze_assumption_conflict; destruct (failed_core_of _ _ _ _) as [[fl core] hs];
    destruct (users_of _ _) as [u|p|]; cbn [bind]; try exact Logic.I; eapply frm_as; [|apply frm_step]; same|].
  all: destruct (ltrue (c_s c) a); [|same].
  - exact Logic.I.
  - eapply frm_as; [|apply IH]. same.
Qed.
Lemma decide_bins c : bins c -> bins (fst (make_decision c)).
Proof. unfold make_decision. destruct (find_decision _ _ _) as [vs [v|]]; intros H; exact H. Qed.
Lemma round_bins F A c : inv false F A c -> frm c fst (round c).
Proof.
  intros K. unfold round.
  destruct (propagate (v_slen (c_v c)) (live (c_d c)) (c_bin c) (c_s c)) as [s r] eqn:Ep.
  destruct (propagate_core F A c s r (proj1 K) Ep) as (K1 & D1 & L1 & R1). cbv zeta. set (c1 := cw_s c s) in *.
  apply (frm_as c c1); [intros H; exact H|].
  destruct r as [|k| |]; try exact Logic.I.
  2: { eapply (frm_bind _ fst); [apply frm_units|]. intros [c2 nu]. same. }
  assert (S2 : spec (prove_units c1) (fun '((c2, new) : ctx * bool) => new = true -> simp (live (c_d c2)) false F A c2)).
  { destruct (Nat.eq_dec (clevel (c_s c1)) 0) as [Z|NZ].
    - assert (D0 : s_decs (c_s c1) = []) by (apply length_zero_iff_nil; exact Z).
      eapply spec_weaken; [apply (prove_units_simp F A c1 K1 D0 R1)|]. intros [c2 new] Q ->. apply Q.
    - rewrite prove_units_high by lia. apply spec_ret. discriminate. }
  pose proof (frm_units c1) as U. destruct (prove_units c1) as [[c2 nu]|p|] eqn:E2; cbn [bind]; try exact Logic.I. pose proof (spec_get _ _ _ S2 eq_refl) as Q2. cbn [frm fst] in U.
  eapply frm_as; [exact U|]. eapply (frm_bind _ self).
  - destruct nu; [|same]. apply unit_simplify_bins. intros l o I. apply (sp_bin _ _ _ _ _ (Q2 eq_refl) l o I).
  - intros c3. eapply (frm_bind _ fst); [apply frm_enqueue|]. intros [c4 e]. cbn [fst]. destruct e; try same. pose proof (decide_bins c4) as Dc.
    destruct (make_decision c4) as [c5 []]; exact Dc.
Qed.
Lemma find_bins F A : forall fuel c, inv false F A c -> frm c fst (find_conflict fuel c).
Proof.
  induction fuel as [|fuel IH]; intros c K; [exact Logic.I|]. rewrite find_round. destruct (round_ends F A c K) as [_ P]. pose proof (round_bins F A c K) as G.
  destruct (round c) as [[c1 o]|p|] eqn:Er; cbn [bind]; try exact Logic.I. destruct (P _ eq_refl) as [_ Q]. cbn [frm fst snd] in *.
  destruct o as [g|]; [exact G|]. destruct (Q eq_refl) as [K1 _]. eapply frm_as; [exact G|]. exact (IH c1 K1).
Qed.
Lemma frm_learn cl c : frm c self (learn_clause cl c).
Proof.
  unfold learn_clause. destruct cl as [|l0 [|l1 [|l2 r]]]; try same; [cbn [frm]; apply bins_add|].
  destruct (assess_learned _ _ _) as [flags h]. unfold db_add_clause, add_long. destruct (d_full _); cbn [bind]; [exact Logic.I|]. same.
Qed.
Lemma conflict_bins F A fuel c : inv false F A c -> frm c self (conflict_step fuel c).
Proof.
  intros K. unfold conflict_step. eapply (frm_bind _ fst); [exact (find_bins F A fuel c K)|]. intros [c1 f]. cbn [fst]. destruct f as [| |k]; [|same|].
  - unfold reconstruct_global_model. cbv zeta. eapply (frm_bind _ self); [|intros c2; same]. destruct (p_native _); [|same]. eapply frm_as; [|apply frm_step]. same.
  - destruct (analyze_conflict _ _ _ _ _ _) as [[vs a] bt]. destruct (a_fuel a); [exact Logic.I|]. cbv zeta. destruct (bump_clauses _ _ _ _) as [d flags].
    match goal with |- context [backtrack_to bt ?X] => set (c2 := X) end. eapply (frm_bind _ self); [eapply frm_as; [|apply frm_step]|intros c3; apply frm_learn].
    destruct (back_bins bt c2) as [E1 E2]. apply bins_as; [exact E1|exact E2].
Qed.
Lemma step_bins t z w S0 U F A fuel c : progress t z w S0 U F A c -> frm c fst (schedule_step fuel c).
Proof.
  intros Pr. unfold schedule_step. destruct (st_sat (c_st c)) eqn:St; try same. destruct (st_error (c_st c)) as [e|] eqn:Er; [same|]. cbv zeta.
  destruct Pr as (B & Vi & Pr). rewrite St in Pr. destruct Pr as (K & Bd & Cl).
  match goal with |- context [reduce_locals (c_s ?X) _] => set (c1 := X) end.
  assert (K1 : inv false F A c1 /\ (bins c -> bins c1)).
  { unfold c1. destruct (_ =? _)%N; [|auto]. destruct (luby_advance _) as [x lb].
    destruct (backtrack_inv false F A c (as_levels (c_as c)) K) as (K1 & _); [discriminate|].
    split; [split; [apply core_sc; apply K1|apply K1]|]. destruct (back_bins (as_levels (c_as c)) c) as [E1 E2]. apply bins_as; [exact E1|exact E2]. }
  destruct K1 as (K1 & C1). clearbody c1. apply (frm_as c c1); [exact C1|]. clear C1.
  match goal with |- frm _ _ (bind ?m _) => set (m1 := m) end.
  assert (P1 : post m1 (fun c2 => inv false F A c2 /\ (bins c1 -> bins c2))).
  { unfold m1. destruct (_ =? _)%N; [|apply post_ret; split; [assumption|auto]].
    destruct (reduce_locals (c_s c1) (c_d c1)) as [[s d] out] eqn:Er2.
    destruct (reduce_locals_spec _ _ _ _ _ (iv_db _ _ _ _ (proj1 K1)) Er2) as (Db & Sw & Wo & R & _).
    pose proof (inv_reduced F A c1 s d out K1 Db Sw Wo R) as K2.
    eapply post_weaken; [apply add_steps_post|]. intros c2 Fr. split; [eapply inv_frame; eassumption|]. destruct Fr as (e & p & ->). apply bins_as; reflexivity. }
  clearbody m1. destruct m1 as [c2|p|]; cbn [bind]; try exact Logic.I. destruct (P1 _ eq_refl) as [K2 C2]. apply (frm_as c1 c2); [exact C2|]. clear c1 K1 P1 C2.
  match goal with |- context [collect_garbage (c_s ?X) _] => set (c3 := X) end.
  assert (K3 : inv false F A c3 /\ (bins c2 -> bins c3)).
  { unfold c3. destruct (_ =? _)%N; [|split; [assumption|auto]].
    destruct (reduce_mids_spec (c_s c2) (c_d c2) (iv_db _ _ _ _ (proj1 K2))) as (Db & R & Lv & _).
    split; [split; [|apply K2]|apply bins_as; reflexivity]. apply core_d; [apply K2|exact Db|exact Lv|apply (rd_irred _ _ _ _ R)]. }
  destruct K3 as (K3 & C3). clearbody c3. apply (frm_as c2 c3); [exact C3|]. clear C3. destruct (iv_search _ _ _ _ (proj1 K3)) as [T S W P].
  destruct (collect_spec (c_s c3) (c_d c3) (iv_db _ _ _ _ (proj1 K3)) (tk_nodup _ _ T)) as (s' & d' & ρ & Ec & M & Or & Db).
  { intros l y Il Ey. split; [exact (so_rlong _ _ _ _ S l y Il Ey)|]. apply In_nth_error in Il as (p & Hp). pose proof (tk_reason _ _ T _ _ Hp) as Q.
    unfold reason_ok in Q. rewrite Ey in Q. destruct Q as (_ & rest & Q & _). exists rest. exact Q. }
  rewrite Ec. destruct (d_full d') eqn:Fu; [exact Logic.I|].
  pose proof (inv_moved F A c3 s' d' ρ K3 M Or (Db eq_refl)) as K4. set (c4 := cw_d (cw_s c3 s') d') in *.
  eapply (frm_bind _ self); [|intros c5; same]. apply (frm_as c3 c4); [apply bins_as; reflexivity|]. exact (conflict_bins F A fuel c4 K4).
Qed.
Lemma loop_bins t z w S0 U F A fuel : forall n c, progress t z w S0 U F A c -> frm c self (schedule_loop fuel n c).
Proof.
  induction n as [|n IH]; intros c P; cbn [schedule_loop]; [exact Logic.I|]. pose proof (step_bins t z w S0 U F A fuel c P) as B.
  destruct (schedule_step fuel c) as [[c1 more]|p|] eqn:E1; cbn [bind]; try exact Logic.I. destruct (spec_get _ _ _ (schedule_step_spec t z w S0 U F A fuel c P) E1) as [P1 _].
  apply (frm_as c c1); [exact B|]. destruct more; [exact (IH c1 P1)|same].
Qed.
Lemma solve_bins t z w S0 U F A fuel c : progress t z w S0 U F A c -> frm c fst (run fuel CSolve c).
Proof.
  intros P. cbn [run]. unfold solve. cbv zeta. destruct (st_invalid _); [exact Logic.I|]. apply TerminateLoop.invoked_progress in P.
  eapply (frm_bind _ self); [eapply frm_as; [|apply (loop_bins t z w S0 U F A); exact P]; same|]. intros c1. eapply (frm_bind _ self).
  - unfold solve_finished. cbv zeta. unfold flush_proof. destruct (handle_io_frame c1 (match p_format (c_pf c1) with Some _ => p_io (c_pf c1) (p_out (c_pf c1)) | None => false end)) as (e & p & ->).
    destruct (p_checker _); [|same]. eapply frm_as; [|apply frm_frame; [apply ends_ask|apply ask_checker_post]]. same.
  - intros c2. pose proof (take_error_bins c2) as T. destruct (take_error c2) as [c3 [e|]]; exact T.
Qed.
Lemma history_bins fuel pick judge io : forall ks c answers, run_all fuel ks (ctx_default pick judge io) = Ret (c, answers) -> bins c.
Proof.
  induction ks as [|k ks IH] using rev_ind; intros c answers E.
  - injection E as <- _. exists []. split; [reflexivity|]. intros l. reflexivity.
  - assert (App : forall a b c0, run_all fuel (a ++ b) c0 = do (c1, r) <- run_all fuel a c0 ; do (c2, s) <- run_all fuel b c1 ; Ret (c2, r ++ s)).
    { clear. induction a as [|x a I]; intros b c0; cbn [app run_all bind].
      - destruct (run_all fuel b c0) as [[? ?]| |]; reflexivity.
      - destruct (run fuel x c0) as [[c1 y]| |]; cbn [bind]; try reflexivity. rewrite I. destruct (run_all fuel a c1) as [[c2 r]| |]; cbn [bind]; try reflexivity.
        destruct (run_all fuel b c2) as [[? ?]| |]; reflexivity. }
    rewrite App in E. destruct (run_all fuel ks _) as [[c1 r]|p|] eqn:E1; cbn [bind] in E; try discriminate. specialize (IH _ _ eq_refl).
    destruct (P_Terminate.history_progress _ _ _ _ _ _ _ E1) as (t & z & w & S & U & F & A & P). cbn [run_all] in E.
    assert (R : frm c1 fst (run fuel k c1)).
    { destruct k; try (apply frm_run; discriminate). apply (solve_bins t z w S U F A). exact P. }
    destruct (run fuel k c1) as [[c2 x]|p|]; cbn [bind] in E; try discriminate. injection E as <- _. exact (R IH).
Qed.

(** In every state of every [solve] of every history the binary clause count of the report is the number of binary clauses: there is a list of that many pairs of literals, and the
    literals found with each literal are exactly the other literals of the pairs with its negation, once for each; the two literals are of different variables. *)
Theorem C53_binary : forall fuel pick judge io ks c answers n c1, run_all fuel ks (ctx_default pick judge io) = Ret (c, answers) ->
  P_Terminate.stepped fuel n (set_invoked c true) = Ret c1 ->
  exists clauses : list (N * N), length clauses = r_bin (report_of c1) /\
    (forall l, c_bin c1 l = flat_map (fun p => (if (lnot (fst p) =? l)%N then [snd p] else []) ++ (if (lnot (snd p) =? l)%N then [fst p] else [])) clauses) /\
    (st_sat (c_st c1) = Unknown -> forall a b, In (a, b) clauses -> lit_var a <> lit_var b).
Proof.
  intros fuel pick judge io ks c answers n c1 R St. pose proof (history_bins _ _ _ _ _ _ _ R) as B.
  destruct (P_Terminate.history_progress _ _ _ _ _ _ _ R) as (t & z & w & S & U & F & A & P). apply TerminateLoop.invoked_progress in P.
  assert (B0 : bins (set_invoked c true)) by (revert B; apply bins_as; reflexivity).
  assert (G : forall n c0 c1, progress t z w S U F A c0 -> bins c0 -> P_Terminate.stepped fuel n c0 = Ret c1 -> bins c1 /\ progress t z w S U F A c1).
  { clear. induction n as [|n IH]; intros c0 c1 P B E; cbn [P_Terminate.stepped] in E; [injection E as <-; auto|].
    pose proof (step_bins t z w S U F A fuel c0 P) as Q. destruct (schedule_step fuel c0) as [[c2 b]|p|] eqn:E1; cbn [bind] in E; try discriminate.
    destruct (spec_get _ _ _ (schedule_step_spec t z w S U F A fuel c0 P) E1) as [P1 _]. exact (IH c2 c1 P1 (Q B) E). }
  destruct (G n _ _ P B0 St) as [(Q & L & H) P1]. exists Q. split; [exact L|]. split; [exact H|]. intros Un a b I.
  destruct P1 as (_ & _ & P1). rewrite Un in P1. destruct P1 as ([K _] & _). destruct (in_listed Q a b I) as [Ib _]. rewrite <- H in Ib.
  destruct (iv_search _ _ _ _ K) as [T So _ _]. destruct (so_bin _ _ _ _ So _ _ Ib) as (_ & _ & Ne & _). rewrite lnot_var in Ne. congruence.
Qed.
(** Three binary clauses are given; the unit satisfies one of them, which is removed, and makes a long clause binary. *)
Example C53_binary_case : let ks := map CAdd [[0; 2]; [20; 22]; [1; 4; 6]; [9; 5; 10]; [9; 5; 11]; [16; 18]; [0]]%N in
  match run_all 30 ks plain_ctx with
  | Ret (c, _) => map (fun n => match P_Terminate.stepped 30 n (set_invoked c true) with Ret c1 => Some (r_bin (report_of c1), map (fun l => (l, c_bin c1 l)) (filter (fun l => negb (Nat.eqb (length (c_bin c1 l)) 0)) (codes 40 0))) | _ => None end) [0; 1]
  | _ => []
  end = [Some (3, [(1, [2]); (3, [0]); (5, [6]); (7, [4]); (17, [18]); (19, [16])]%N); Some (3, [(5, [6]); (7, [4]); (9, [10]); (11, [8]); (17, [18]); (19, [16])]%N)].
Proof. vm_compute. reflexivity. Qed.

(** * No report is missing *)
Lemma step_over fuel c : st_sat (c_st c) <> Unknown \/ st_error (c_st c) <> None -> schedule_step fuel c = Ret (c, false).
Proof. intros H. unfold schedule_step. destruct (st_sat (c_st c)); try reflexivity. destruct (st_error (c_st c)); [reflexivity|]. destruct H; congruence. Qed.
Lemma loop_all t z w S0 U F A fuel : forall n c c' reps, progress t z w S0 U F A c -> schedule_loop_log fuel n c = Ret (c', reps) ->
  forall m c1, P_Terminate.stepped fuel m c = Ret c1 -> due c1 = true -> In (report_of c1) reps.
Proof.
  induction n as [|n IH]; intros c c' reps P E m c1 St Du; cbn [schedule_loop_log] in E; [discriminate|]. cbv zeta in E.
  destruct (schedule_step fuel c) as [[c2 more]|p|] eqn:E1; cbn [bind] in E; try discriminate.
  destruct (spec_get _ _ _ (schedule_step_spec t z w S0 U F A fuel c P) E1) as [P1 Ov].
  assert (Here : m = 0 -> In (report_of c1) (if due c then [report_of c] else [])).
  { intros ->. cbn [P_Terminate.stepped] in St. injection St as ->. rewrite Du. left. reflexivity. }
  destruct m as [|m].
  - destruct more; [destruct (schedule_loop_log fuel n c2) as [[c3 l]|p|]; cbn [bind] in E; try discriminate|]; injection E as _ <-; [apply in_or_app; left|]; apply Here; reflexivity.
  - cbn [P_Terminate.stepped] in St. rewrite E1 in St. cbn [bind] in St. destruct more.
    + destruct (schedule_loop_log fuel n c2) as [[c3 l]|p|] eqn:E2; cbn [bind] in E; try discriminate. injection E as _ <-. apply in_or_app. right. exact (IH c2 c3 l P1 E2 m c1 St Du).
    + exfalso. specialize (Ov eq_refl). assert (Q : forall k, P_Terminate.stepped fuel k c2 = Ret c2).
      { induction k as [|k Ik]; [reflexivity|]. cbn [P_Terminate.stepped]. rewrite (step_over fuel c2 Ov). exact Ik. }
      rewrite Q in St. injection St as <-. unfold due in Du. destruct (st_sat (c_st c2)); try discriminate. destruct (st_error (c_st c2)); [discriminate|]. destruct Ov; congruence.
Qed.
Lemma log_part fuel after : forall before s c0 answers0 c answers reps, run_all fuel before s = Ret (c0, answers0) -> run_all_log fuel (before ++ CSolve :: after) s = Ret (c, answers, reps) ->
  exists l c2, schedule_loop_log fuel fuel (set_invoked c0 true) = Ret (c2, l) /\ incl l reps.
Proof.
  induction before as [|k before IH]; intros s c0 answers0 c answers reps R E; cbn [app run_all_log] in E.
  - injection R as <- _. destruct (run_log fuel CSolve s) as [[[c1 a] l1]|p|] eqn:E1; cbn [bind] in E; try discriminate.
    destruct (run_all_log fuel after c1) as [[[c2 l2] l3]|p|]; cbn [bind] in E; try discriminate. injection E as _ _ <-.
    cbn [run_log] in E1. cbv zeta in E1. destruct (st_invalid _); [discriminate|].
    destruct (schedule_loop_log fuel fuel (set_invoked s true)) as [[c3 l]|p|]; cbn [bind] in E1; try discriminate.
    destruct (solve_finished c3) as [c4|p|]; cbn [bind] in E1; try discriminate.
    assert (El : l = l1) by (destruct (take_error c4) as [c5 [e|]]; injection E1 as _ _ <-; reflexivity). subst l1.
    exists l, c3. split; [reflexivity|]. intros r I. apply in_or_app. left. exact I.
  - cbn [run_all] in R. rewrite <- (run_erase fuel k s) in R. destruct (run_log fuel k s) as [[[c1 a] l1]|p|]; cbn [bind fst] in R, E; try discriminate.
    destruct (run_all fuel before c1) as [[c2 r2]|p|] eqn:E2; cbn [bind] in R; try discriminate. injection R as <- _.
    destruct (run_all_log fuel (before ++ CSolve :: after) c1) as [[[c3 l3] r3]|p|] eqn:E3; cbn [bind] in E; try discriminate. injection E as _ _ <-.
    destruct (IH _ _ _ _ _ _ E2 E3) as (l & c4 & Q & I). exists l, c4. split; [exact Q|]. intros r J. apply in_or_app. right. exact (I r J).
Qed.
(** Every state of every [solve] of every history whose number of conflicts is a positive multiple of 5000 is reported, unless the search is over there. *)
Theorem C53_complete : forall fuel pick judge io before after c0 answers0 c answers reps n c1 j, run_all fuel before (ctx_default pick judge io) = Ret (c0, answers0) ->
  run_all_log fuel (before ++ CSolve :: after) (ctx_default pick judge io) = Ret (c, answers, reps) -> P_Terminate.stepped fuel n (set_invoked c0 true) = Ret c1 ->
  st_sat (c_st c1) = Unknown -> st_error (c_st c1) = None -> sc_conflicts (c_sc c1) = (5000 * (j + 1))%N -> In (report_of c1) reps.
Proof.
  intros fuel pick judge io before after c0 answers0 c answers reps n c1 j R L St Un Er Cf.
  destruct (P_Terminate.history_progress _ _ _ _ _ _ _ R) as (t & z & w & S & U & F & A & P). apply TerminateLoop.invoked_progress in P.
  destruct (log_part fuel after before _ _ _ _ _ _ R L) as (l & c2 & E & I). apply I. apply (loop_all t z w S U F A fuel _ _ _ _ P E n c1 St).
  unfold due. rewrite Un, Er, Cf. apply andb_true_iff. split; [apply N.ltb_lt; lia|]. apply N.eqb_eq. rewrite N.mul_comm. apply N.mod_mul. discriminate.
Qed.
(** A history with a report; many calls are needed for 5000 conflicts. *)
Example C53_complete_case : match run_all_log 3 reuse plain_ctx with Ret (_, _, reps) => map (fun r => (r_kilo r, r_tiers r)) reps | _ => [] end = [(5%N, [0; 0; 0; 0])].
Proof. vm_compute. reflexivity. Qed.

Print Assumptions C53_binary.
Print Assumptions C53_complete.
