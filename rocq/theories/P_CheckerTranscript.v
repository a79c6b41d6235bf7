(** Property C42 for checkers with transcripts. *)
From Coq Require Import Arith ZArith ZifyBool ZifyNat ZifyN Permutation Sorted.
From Verif Require Import Spec Lit LitProofs Vec SortedLits SortedLitsProofs Hash HashProofs Vli BinFormat Checker CheckerStore CheckerInv CheckerOps CheckerRup CheckerSteps CheckerRun CheckerCount CheckerSafe CheckerNames CheckerUsers Rup CheckerAccept P_Checker P_CheckerSafe CheckerValid P_CheckerAccept CheckerTranscript.

(** [told_history es] (CheckerTranscript.v) says, with the history only, that the transcript has a name for every literal it must
    print and that the check of the step does not look at: the literals of a tautology belong to variables that were announced or occurred in
    a clause before and are not hidden, and so do the failed assumptions.  Then valid steps are accepted with transcripts as well.
    Without it the checker panics: [C19_transcript_tautology_refuted], [C19_transcript_hidden_assumption_refuted]. *)
Theorem C42_valid_transcript : forall procs trans pf tf sh es, (forall n l, Permutation (sh n l) l) -> (forall n, pf n = false) -> (forall n, tf n = false) ->
  Forall event_u32 es -> history_size es < 2^32 -> valid_history es -> told_history es ->
  exists c, run (checker_new procs trans pf tf sh) es = ROk tt c /\ exists c', self_check_delayed_steps c = ROk tt c'.
Proof.
  intros procs trans pf tf sh es SH PF TF U M V T. destruct (rt_run es [] _ (rt_new procs trans pf tf sh SH PF TF) U M V T) as (c&E&R).
  exists c. split; [exact E|]. apply (rt_delayed _ _ R).
Qed.
Print Assumptions C42_valid_transcript.

Theorem C42_valid_file_transcript : forall procs trans pf tf sh f ss file rest, (forall n l, Permutation (sh n l) l) -> (forall n, pf n = false) -> (forall n, tf n = false) ->
  Forall lits_u32 f -> ~ In End ss -> decodes_to file (ss ++ [End]) rest ->
  history_size (map Load f ++ map Step (ss ++ [End])) < 2^32 -> valid_history (map Load f ++ map Step (ss ++ [End])) ->
  told_history (map Load f ++ map Step (ss ++ [End])) ->
  exists c c', add_formula (checker_new procs trans pf tf sh) f = ROk tt c /\ check_proof c file = Some (ROk tt c').
Proof.
  intros procs trans pf tf sh f ss file rest SH PF TF U NE D M V T.
  assert (MF : history_size (map Load f) < 2^32) by (unfold history_size in *; rewrite map_app, sumN_app in M; lia).
  assert (VF : valid_history (map Load f)). { intros a e b E. apply (V a e (b ++ map Step (ss ++ [End]))). rewrite E, <- app_assoc. reflexivity. }
  assert (TT : told_history (map Load f)). { intros a e b E. apply (T a e (b ++ map Step (ss ++ [End]))). rewrite E, <- app_assoc. reflexivity. }
  assert (UF : Forall event_u32 (map Load f)) by (apply Forall_map; exact U).
  destruct (rt_run (map Load f) [] _ (rt_new procs trans pf tf sh SH PF TF) UF MF VF TT) as (c&E&R).
  exists c. rewrite add_formula_run. cbn [app] in R.
  assert (EN : s_ended (c_state c) = false).
  { assert (G : forall f c0 c, Inv c0 -> Forall event_u32 (map Load f) -> run c0 (map Load f) = ROk tt c -> s_ended (c_state c) = s_ended (c_state c0)).
    { clear. induction f as [|cl f IH]; intros c0 c I0 U R; cbn [map run] in R; [inversion R; reflexivity|]. inversion U as [|? ? U1 U2]; subst.
      destruct (exec c0 (Load cl)) as [[] c1| |] eqn:E; try discriminate. cbn [bind] in R. destruct (exec_spec _ _ _ _ I0 U1 E) as [I1 T].
      rewrite (IH _ _ I1 U2 R). cbn [tr] in T. destruct T as [E0 ->|E0 T' S1 V1 C1 EM|cl1 id r E0 T' S0 RR]; [reflexivity|rewrite S1; reflexivity|].
      destruct (store_eff_state _ _ _ _ _ _ _ _ S0) as [-> | ->]; reflexivity. }
    rewrite (G f _ _ (new_inv procs trans pf tf sh SH) UF E). reflexivity. }
  destruct (loop_told ss _ c file rest _ R EN NE D M V T (C19_check_proof_ends c file)) as [c' E']. exists c'. split; [exact E|exact E'].
Qed.
Print Assumptions C42_valid_file_transcript.

Fixpoint told_from (pre es : list event) : Prop :=
  match es with [] => True | e :: r => told pre e /\ told_from (pre ++ [e]) r end.
Lemma told_from_history es : forall pre, told_history pre -> told_from pre es -> told_history (pre ++ es).
Proof.
  induction es as [|e es IH]; intros pre H V; [rewrite app_nil_r; exact H|]. destruct V as [V1 V2].
  replace (pre ++ e :: es) with ((pre ++ [e]) ++ es) by (rewrite <- app_assoc; reflexivity). apply IH; [|exact V2].
  intros a x b E. destruct b as [|y b] using rev_ind.
  - apply app_inj_tail in E. destruct E as [-> ->]. exact V1.
  - clear IHb. change (a ++ x :: b ++ [y]) with (a ++ (x :: b) ++ [y]) in E. rewrite app_assoc in E. apply app_inj_tail in E. destruct E as [E _]. apply (H a x b E).
Qed.
(** The history of [C42_ex] *)
Example C42_transcript_ex : told_history tour /\ exists c, run chk0 tour = ROk tt c /\ 
  trans_log (c_proc c) = [TAddClause [0; 2]; TAddClause [1; 2]; TAssume [3]; TFailedAssumptions [3]; TAssume [0]; TModel [0; 2]; THideVar 0].
Proof.
  split; [apply (told_from_history tour []); [intros a e b H; destruct a; discriminate|]|eexists; split; vm_compute; reflexivity].
  cbn [tour told_from app]. repeat apply conj; try exact Logic.I; try (right; left; vm_compute; reflexivity).
Qed.
(** A tautology over a variable that occurred *)
Example C42_tautology_ex : let es := [Load [0;2]; Load [2;3]; Step (Model [0;2]); Step End] in
  told_history es /\ exists c, run chk0 (firstn 2 es) = ROk tt c /\ trans_log (c_proc c) = [TAddClause [0; 2]; TAddClause [2; 3]].
Proof.
  split; [apply (told_from_history _ []); [intros a e b H; destruct a; discriminate|]|eexists; split; vm_compute; reflexivity].
  cbn [told_from app]. repeat apply conj; try exact Logic.I; [right; left; vm_compute; reflexivity|].
  right. right. repeat (constructor; [split; [right; exists [0;2], 2; split; [left; left; reflexivity|]; split; [reflexivity|]; split; [right; left; reflexivity|vm_compute; discriminate]|left; reflexivity]|]). constructor.
Qed.
