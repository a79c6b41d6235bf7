(** C41: the hashes the solver writes beside a proof step lead to a contradiction by unit
    propagation, clause by clause and in the order written. *)
From Coq Require Import Lia Arith PeanoNat Permutation.
From Verif Require Import Spec Lit LitProofs Hash HashProofs F32 Vsids VsidsProofs VsidsWf Search SearchBase Propagate P_Search
  ClauseDb Analyze AnalyzeProofs Rup AnalyzeHints SolverFailed FailedHints Config SolverCtx Solver.
Local Open Scope nat_scope.

(** The hashes of a learned clause: with the clause assumed false and the literals of level 0
    assumed true, each of the stored clauses hashed has at most one literal left open, which becomes
    true for the clauses after it, and one of them has none.  This holds at level 0 too, where the
    clause is empty. *)
Theorem C41_learned_hints : forall n L bin s s' c vs a vs' a' bt,
  sreach n L bin false s -> propagate n L bin s = (s', PConflict c) ->
  (forall v, a_flags a v = false) -> a_clean a = [] ->
  analyze_conflict n true s' vs a c = (vs', a', bt) ->
  exists cs, a_hashes a' = map clause_hash cs /\
    (forall d, In d cs -> is_stored L bin s' d) /\
    rup (map lnot (a_clause a') ++ filter (fun l => Nat.eqb (s_level s' (lit_var l)) 0) (s_trail s')) cs.
Proof.
  intros n L bin s s' c vs a vs' a' bt R E Fl Cl Ea. pose proof (sreach_inv _ _ _ _ _ R) as [K S W P].
  destruct (propagate_spec _ _ _ _ _ _ K S W P E) as (K' & S' & _ & _ & _ & _ & Ca).
  exact (analyze_hints n L bin s' vs a c vs' a' bt K' S' Ca Fl Cl Ea).
Qed.
Print Assumptions C41_learned_hints.

Ltac rup_step := intros x H; cbn [In] in H; repeat (destruct H as [<-|H]; [vm_compute; auto 8|]); destruct H.
Lemma ex_rup : rup [0%N] [[1; 2]; [1; 3; 4]; [3; 5; 6]; [1; 5; 7]]%N.
Proof.
  apply (rup_unit _ _ 2%N); [cbn; auto|rup_step|]. apply (rup_unit _ _ 4%N); [cbn; auto|rup_step|].
  apply (rup_unit _ _ 6%N); [cbn; auto|rup_step|]. apply rup_conflict. rup_step.
Qed.
(** The conflict of P_Search.v: four clauses, the learned clause is (-x0). *)
Example ex_learned_hints :
  let a := snd (fst (analyze_conflict 5 true ex_s2 vsids_default analyze_default (CLong 30))) in
  a_clause a = [1%N] /\
  a_hashes a = map clause_hash [[1; 2]; [1; 3; 4]; [3; 5; 6]; [1; 5; 7]]%N /\
  rup [0%N] [[1; 2]; [1; 3; 4]; [3; 5; 6]; [1; 5; 7]]%N.
Proof. split; [vm_compute; reflexivity|]. split; [vm_compute; reflexivity|exact ex_rup]. Qed.

(** The hash beside a unit: of a stored clause whose other literals are false by units given to the
    solver, or by units proved before in the same step. *)
Lemma unit_proofs_list : forall tr s s' ps, NoDup (map lit_var tr) -> unit_proofs s tr = (s', ps) ->
  ps = flat_map (fun l => if is_unit_reason (s_reason s (lit_var l)) then [] else [(l, rhash s l)]) tr.
Proof.
  induction tr as [|lit tr IH]; intros s s' ps Nd E; cbn [unit_proofs] in E; [injection E as <- <-; reflexivity|].
  cbv zeta in E. destruct (unit_proofs (update_removed_unit s (lit_var lit)) tr) as [s1 ps1] eqn:E1. injection E as <- <-.
  cbn [map] in Nd. inversion Nd as [|? ? Nl Nd']; subst. cbn [flat_map]. f_equal. rewrite (IH _ _ _ Nd' E1).
  assert (Q : forall x, In x tr -> s_reason (update_removed_unit s (lit_var lit)) (lit_var x) = s_reason s (lit_var x)).
  { intros x Hx. unfold update_removed_unit. cbn [with_depth with_reason s_reason]. apply upd_ne. intros Z. apply Nl. rewrite <- Z. apply in_map. exact Hx. }
  rewrite !flat_map_concat_map. f_equal. apply map_ext_in. intros x Hx. unfold rhash. rewrite (Q x Hx). reflexivity.
Qed.
Lemma flat_map_split {A B} (f : A -> list B) : (forall a, f a = [] \/ exists b, f a = [b]) -> forall l pre b post,
  flat_map f l = pre ++ b :: post -> exists l1 a l2, l = l1 ++ a :: l2 /\ f a = [b] /\ pre = flat_map f l1.
Proof.
  intros H. induction l as [|a l IH]; intros pre b post E; cbn [flat_map] in E; [destruct pre; discriminate|].
  destruct (H a) as [Ea|(b' & Ea)]; rewrite Ea in E; cbn [app] in E.
  - destruct (IH _ _ _ E) as (l1 & x & l2 & -> & Hx & ->). exists (a :: l1), x, l2. split; [reflexivity|]. split; [exact Hx|]. cbn [flat_map]. rewrite Ea. reflexivity.
  - destruct pre as [|p pre]; cbn [app] in E; injection E as -> E.
    + exists [], a, l. auto.
    + destruct (IH _ _ _ E) as (l1 & x & l2 & -> & Hx & ->). exists (a :: l1), x, l2. split; [reflexivity|]. split; [exact Hx|]. cbn [flat_map]. rewrite Ea. reflexivity.
Qed.

Theorem C41_unit_hints : forall n L bin s s' st ps pre l h post,
  sreach n L bin false s -> propagate n L bin s = (s', POk) -> clevel s' = 0 ->
  unit_proofs s' (s_trail s') = (st, ps) -> ps = pre ++ (l, h) :: post ->
  exists d, h = clause_hash d /\ is_stored L bin s' d /\ In l d /\
    forall x, In x d -> x = l \/ In (lnot x) (map fst pre) \/
                        (In (lnot x) (s_trail s') /\ s_reason s' (lit_var x) = RUnit).
Proof.
  intros n L bin s s' st ps pre l h post R E Z Eu Ep. pose proof (sreach_inv _ _ _ _ _ R) as [K S W P].
  destruct (propagate_spec _ _ _ _ _ _ K S W P E) as (K' & S' & _).
  rewrite (unit_proofs_list _ _ _ _ (tk_nodup _ _ K') Eu) in Ep.
  apply flat_map_split in Ep; [|intros a; destruct (is_unit_reason _); [left; reflexivity|right; eexists; reflexivity]].
  destruct Ep as (l1 & a & l2 & Et & Ea & ->). destruct (is_unit_reason (s_reason s' (lit_var a))) eqn:Er; [discriminate|]. injection Ea as -> <-.
  assert (Nu : s_reason s' (lit_var l) <> RUnit) by (intros Q; rewrite Q in Er; discriminate).
  assert (Hp : nth_error (s_trail s') (length l1) = Some l) by (rewrite Et, nth_error_app2, Nat.sub_diag by lia; reflexivity).
  assert (Il : In l (s_trail s')) by (eapply nth_error_In; exact Hp).
  exists (reason_clause s' l). split; [exact (rhash_clause n s' l K' Il Nu)|]. split; [exact (reason_stored n L bin s' l K' S' Il Nu)|].
  rewrite (reason_clause_lits n s' l K' Il Nu). split; [left; reflexivity|]. intros x [<-|Hx]; [left; reflexivity|right].
  destruct (reason_falselit _ _ _ _ _ K' Hp Hx) as [_ (q & Lq & Hq)]. assert (Ix : In (lnot x) l1).
  { rewrite Et, nth_error_app1 in Hq by exact Lq. eapply nth_error_In. exact Hq. }
  destruct (is_unit_reason (s_reason s' (lit_var x))) eqn:Ex.
  - right. split; [eapply nth_error_In; exact Hq|]. destruct (s_reason s' (lit_var x)); [reflexivity|discriminate|discriminate].
  - left. apply in_map_iff. exists (lnot x, rhash s' (lnot x)). split; [reflexivity|]. apply in_flat_map. exists (lnot x). split; [exact Ix|].
    rewrite lnot_var, Ex. left. reflexivity.
Qed.
Print Assumptions C41_unit_hints.

(** x0 as a unit with the clauses of P_Search.v: x1, x2 and x3 are proved in turn until the last
    clause conflicts; without that clause they are all proved. *)
Example ex_unit_hints :
  let s := fst (propagate 5 [10; 20]%N ex_bin (enqueue ex_search 0 RUnit)) in
  snd (propagate 5 [10; 20]%N ex_bin (enqueue ex_search 0 RUnit)) = POk /\ s_trail s = [0; 2; 4; 6]%N /\
  snd (unit_proofs s (s_trail s)) = [(2, clause_hash [1; 2]); (4, clause_hash [1; 3; 4]); (6, clause_hash [3; 5; 6])]%N.
Proof. vm_compute. auto. Qed.

(** The hashes of a failed core, for an assumption that is false: the core contains the negated
    assumption as well, or the assumption is false at level 0, or the stored clauses hashed lead to
    a contradiction from the core and the literals of level 0. *)
Theorem C41_failed_hints : forall n L bin s flags as_ flags' core h,
  sreach n L bin false s -> s_val s (lit_var as_) = Some (is_negative as_) ->
  In (lit_var as_) (map lit_var (s_trail s)) -> (forall v, flags v = false) ->
  failed_core_of true s flags as_ = (flags', core, h) ->
  (forall v, flags' v = false) /\
  exists cs, h = map clause_hash cs /\ (forall d, In d cs -> is_stored L bin s d) /\
    (In (lnot as_) core \/ (In (lnot as_) (s_trail s) /\ s_level s (lit_var as_) = 0) \/
     rup (core ++ filter (fun l => Nat.eqb (s_level s (lit_var l)) 0) (s_trail s)) cs).
Proof.
  intros n L bin s flags as_ flags' core h R Fa I Cl E. pose proof (sreach_inv _ _ _ _ _ R) as [K S W P].
  exact (failed_hints n L bin s flags as_ flags' core h K S (proj2 (isfalse_iff _ _) Fa) I Cl E).
Qed.
Print Assumptions C41_failed_hints.

(** x4 is assumed, then x0, in the second case of P_Analyze.v without its last clause; x2 cannot be assumed
    false then. *)
Example ex_failed_hints :
  let s0 := fst (propagate 5 [10; 20]%N ex_bin (enqueue (new_decision_level ex_search) 8 RUnit)) in
  let s := fst (propagate 5 [10; 20]%N ex_bin (enqueue (new_decision_level s0) 0 RUnit)) in
  s_trail s = [8; 0; 2; 4; 6]%N /\ s_val s (lit_var 7) = Some (is_negative 7) /\
  snd (fst (failed_core_of true s (fun _ => false) 7)) = [7; 0]%N /\
  snd (failed_core_of true s (fun _ => false) 7) = map clause_hash [[1; 2]; [1; 3; 4]; [3; 5; 6]]%N /\
  rup [7; 0]%N [[1; 2]; [1; 3; 4]; [3; 5; 6]]%N.
Proof.
  split; [vm_compute; reflexivity|]. split; [vm_compute; reflexivity|]. split; [vm_compute; reflexivity|]. split; [vm_compute; reflexivity|].
  apply (rup_unit _ _ 2%N); [cbn; auto|rup_step|]. apply (rup_unit _ _ 4%N); [cbn; auto|rup_step|]. apply rup_conflict. rup_step.
Qed.
