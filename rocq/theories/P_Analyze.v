(** C25: the clause learned from a conflict; C37: the glue of a clause. *)
From Coq Require Import Lia Arith PeanoNat Permutation.
From Verif Require Import Spec Lit LitProofs Hash F32 Vsids VsidsProofs VsidsWf Search SearchBase Propagate P_Search
  ClauseDb Analyze AnalyzeProofs Config SolverCtx Solver.
Local Open Scope nat_scope.

(** For every conflict found by propagation above level 0, whatever was recorded before
    and with or without hashes: the learned clause
    - follows from the stored clauses and the units of level 0,
    - has only false literals, of distinct variables and above level 0,
    - has exactly one literal of the current level, the first,
    - and the second has the level returned, which is that of no literal after the first exceeds;
      a unit clause goes back to level 0.
    The scratch data is clean afterwards, the bound of the search was not reached, and the clauses
    reported as involved are stored clauses. *)
Theorem C25_learned_clause : forall n L bin s s' c hr vs a vs' a' bt,
  sreach n L bin false s -> propagate n L bin s = (s', PConflict c) -> 0 < clevel s' ->
  (forall v, a_flags a v = false) -> a_clean a = [] ->
  analyze_conflict n hr s' vs a c = (vs', a', bt) ->
  exists u rest, a_clause a' = u :: rest /\
  (forall asg, (forall d, In d L -> clause_holds asg (s_lits s' d) = true) ->
               (forall l o, In o (bin l) -> clause_holds asg [lnot l; o] = true) ->
               (forall l, In l (s_trail s') -> s_reason s' (lit_var l) = RUnit -> s_level s' (lit_var l) = 0 ->
                          lit_holds asg l = true) ->
               clause_holds asg (u :: rest) = true) /\
  (forall x, In x (u :: rest) -> s_val s' (lit_var x) = Some (is_negative x)) /\
  NoDup (map lit_var (u :: rest)) /\
  s_level s' (lit_var u) = clevel s' /\
  (forall x, In x rest -> 0 < s_level s' (lit_var x) <= bt) /\ bt < clevel s' /\
  (rest = [] -> bt = 0) /\ (forall x r, rest = x :: r -> s_level s' (lit_var x) = bt) /\
  (forall v, a_flags a' v = false) /\ a_clean a' = [] /\ a_fuel a' = a_fuel a /\
  (forall d, In d (a_involved a') -> In d L).
Proof.
  intros n L bin s s' c hr vs a vs' a' bt R E Lv Fl Cl Ea.
  pose proof (sreach_inv _ _ _ _ _ R) as [K S W P].
  destruct (propagate_spec _ _ _ _ _ _ K S W P E) as (K' & S' & _ & _ & _ & _ & Ca).
  destruct (analyze_conflict_spec _ _ _ _ _ _ _ _ _ _ _ K' S' Lv Ca Fl Cl Ea) as (Le & F' & C' & Fu & Iv).
  destruct (le_clause _ _ _ _ _ Le) as (u & rest & Ec & Fu0 & Lu & Hr & Hb).
  exists u, rest. split; [exact Ec|]. split.
  { intros asg A B C. rewrite <- Ec. apply (le_implied _ _ _ _ _ Le). split; [split; assumption|exact C]. }
  split. { intros x [<-|Hx]; apply isfalse_iff; [apply Fu0|apply (Hr x Hx)]. }
  split. { rewrite <- Ec. apply Le. }
  split; [exact Lu|]. split; [intros x Hx; apply (Hr x Hx)|]. split; [apply Le|].
  split. { intros ->. exact Hb. }
  split. { intros x r ->. exact Hb. }
  auto.
Qed.
Print Assumptions C25_learned_clause.

(** The case of P_Search.v: the conflict there gives the clause (-x0), back to level 0. *)
Example ex_learned :
  let '(_, a, bt) := analyze_conflict 5 true ex_s2 vsids_default analyze_default (CLong 30) in
  a_clause a = [1%N] /\ bt = 0 /\ a_involved a = [30; 20; 10]%N /\ length (a_hashes a) = 4.
Proof. vm_compute. repeat split; reflexivity. Qed.

(** Another, with a second level in the clause: x4, then x5, with (-x4 v -x5 v x0) as well and no
    (-x0 v x1); what is learned is (-x0 v -x4) there, once x0 implies a contradiction with x4. *)
Definition ex2_lits (c : N) : list N :=
  match c with 10%N => [9; 11; 0]%N | 20%N => [9; 1; 2]%N | 30%N => [9; 3; 1]%N | _ => [] end.
Definition ex2_search : search :=
  Search (fun _ => None) (fun _ => false) [] 0 [] 0 (fun _ => RUnit) (fun _ => 0) (fun _ => Some 0)
         ex2_lits (fun _ => []) false.
Definition ex2_s1 := fst (propagate 6 ex_L (fun _ => []) (enqueue (new_decision_level ex2_search) 8 RUnit)).
Definition ex2_s2 := fst (propagate 6 ex_L (fun _ => []) (enqueue (new_decision_level ex2_s1) 10 RUnit)).
Example ex2_learned :
  snd (propagate 6 ex_L (fun _ => []) (enqueue (new_decision_level ex2_s1) 10 RUnit)) = PConflict (CLong 30) /\
  let '(_, a, bt) := analyze_conflict 6 false ex2_s2 vsids_default analyze_default (CLong 30) in
  a_clause a = [1; 9]%N /\ bt = 1.
Proof. vm_compute. repeat split; reflexivity. Qed.

(** * C37 *)
Definition levels_of (s : search) (lits : list N) : list nat := map (fun l => s_level s (lit_var l)) lits.

Lemma glue_count_spec s : forall lits f g f' g' (seen : list nat),
  (forall x, f (N.of_nat x) = true <-> In x seen) -> NoDup seen -> g = N.of_nat (length seen) ->
  glue_count s f g lits = (f', g') ->
  exists seen', NoDup seen' /\ (forall x, f' (N.of_nat x) = true <-> In x seen') /\ g' = N.of_nat (length seen') /\
    (forall x, In x seen' <-> In x seen \/ In x (levels_of s lits)).
Proof.
  induction lits as [|l lits IH]; intros f g f' g' seen Hf ND Hg E; cbn [glue_count] in E.
  - injection E as <- <-. exists seen. split; [exact ND|]. split; [exact Hf|]. split; [exact Hg|]. cbn. tauto.
  - cbv zeta in E. set (lv := s_level s (lit_var l)) in *. destruct (f (N.of_nat lv)) eqn:Ef.
    + apply (IH _ _ _ _ seen) in E; auto. destruct E as (q & A & B & C & D). exists q. split; [exact A|]. split; [exact B|].
      split; [exact C|]. intros x. rewrite D. cbn [levels_of map In]. fold lv. apply Hf in Ef. split; [tauto|].
      intros [H|[H|H]]; [auto| |auto]. left. rewrite <- H. exact Ef.
    + assert (Nl : ~ In lv seen) by (intros H; apply Hf in H; congruence).
      apply (IH _ _ _ _ (lv :: seen)) in E.
      * destruct E as (q & A & B & C & D). exists q. split; [exact A|]. split; [exact B|]. split; [exact C|].
        intros x. rewrite D. cbn [levels_of map In]. fold lv. tauto.
      * intros x. unfold upd. destruct (N.eqb_spec (N.of_nat x) (N.of_nat lv)) as [Eq|NE].
        -- apply Nat2N.inj in Eq. subst x. split; [left; reflexivity|auto].
        -- rewrite Hf. cbn [In]. split; [auto|]. intros [->|H]; [contradiction|exact H].
      * constructor; assumption.
      * rewrite Hg. cbn [length]. lia.
Qed.

Lemma clear_levels s : forall lits f v,
  fold_left (fun f l => upd f (N.of_nat (s_level s (lit_var l))) false) lits f v =
  if existsb (N.eqb v) (map N.of_nat (levels_of s lits)) then false else f v.
Proof.
  induction lits as [|l lits IH]; intros f v; cbn [fold_left]; [reflexivity|]. rewrite IH.
  cbn [levels_of map existsb]. unfold upd. destruct (N.eqb_spec v (N.of_nat (s_level s (lit_var l)))) as [->|NE]; cbn [orb].
  - destruct (existsb _ _); reflexivity.
  - reflexivity.
Qed.

(** With clean scratch flags the glue is the number of distinct levels, and the flags are clean
    again. *)
Theorem C37_compute_glue : forall s flags lits flags' glue,
  (forall x, flags x = false) -> compute_glue s flags lits = (flags', glue) ->
  glue = N.of_nat (length (nodup Nat.eq_dec (map (fun l => s_level s (lit_var l)) lits))) /\
  (forall x, flags' x = false).
Proof.
  intros s flags lits flags' glue Hf E. unfold compute_glue in E.
  destruct (glue_count s flags 0 lits) as [f g] eqn:Eg. injection E as <- <-.
  pose proof Eg as Eg0.
  apply glue_count_spec with (seen := []) in Eg; [|intros x; rewrite Hf; cbn; intuition discriminate|constructor|reflexivity].
  destruct Eg as (q & A & B & C & D). split.
  - rewrite C. f_equal. apply Permutation_length. apply NoDup_Permutation; [exact A|apply NoDup_nodup|].
    intros x. rewrite D, nodup_In. cbn. tauto.
  - intros x. rewrite clear_levels. destruct (existsb (N.eqb x) (map N.of_nat (levels_of s lits))) eqn:Ex; [reflexivity|].
    assert (Q : f (N.of_nat (N.to_nat x)) = true -> False).
    { intros H. apply B, D in H. destruct H as [[]|H]. assert (In x (map N.of_nat (levels_of s lits))).
      { apply in_map_iff. exists (N.to_nat x). split; [apply N2Nat.id|exact H]. }
      apply memb_in in H0. congruence. }
    rewrite N2Nat.id in Q. destruct (f x); [exfalso; auto|reflexivity].
Qed.
Print Assumptions C37_compute_glue.
Example ex_glue : snd (compute_glue ex2_s2 (fun _ => false) [9; 1; 2]%N) = 2%N /\
  map (fun l => s_level ex2_s2 (lit_var l)) [9; 1; 2]%N = [1; 2; 2].
Proof. vm_compute. auto. Qed.

(** But the solver shares these flags with the analysis of failed assumptions, which leaves one
    set if the assumption is false by a unit that is no longer on the trail; from then on the glue is
    too small.  Here: (-x0) is added, x0 assumed and the solver called; afterwards a clause with
    literals of levels 0 and 1 would count one level only. *)
Theorem C37_reachable_refuted : exists fuel calls c answers lits,
  run_all fuel calls (ctx_default (fun _ => 1) (fun _ => VOk) (fun _ => false)) = Ret (c, answers) /\
  snd (compute_glue (c_s c) (c_tmp c) lits)
    <> N.of_nat (length (nodup Nat.eq_dec (map (fun l => s_level (c_s c) (lit_var l)) lits))).
Proof.
  set (calls := [CAdd [1%N]; CAssume [0%N]; CSolve]).
  destruct (run_all 50 calls (ctx_default (fun _ => 1) (fun _ => VOk) (fun _ => false))) as [[c r]| |] eqn:E.
  - exists 50, calls, c, r, [0%N]. split; [exact E|].
    assert (Q : match run_all 50 calls (ctx_default (fun _ => 1) (fun _ => VOk) (fun _ => false)) with
                | Ret (c, _) => snd (compute_glue (c_s c) (c_tmp c) [0%N]) = 0%N
                | _ => False end) by (vm_compute; reflexivity).
    rewrite E in Q. rewrite Q. cbn [map nodup in_dec length]. discriminate.
  - exfalso. assert (Q : match run_all 50 calls (ctx_default (fun _ => 1) (fun _ => VOk) (fun _ => false)) with
                | Ret c => True | _ => False end) by (vm_compute; exact Logic.I). rewrite E in Q. exact Q.
  - exfalso. assert (Q : match run_all 50 calls (ctx_default (fun _ => 1) (fun _ => VOk) (fun _ => false)) with
                | Ret c => True | _ => False end) by (vm_compute; exact Logic.I). rewrite E in Q. exact Q.
Qed.
Print Assumptions C37_reachable_refuted.
