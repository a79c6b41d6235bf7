(** Property C42: a proof whose steps are all valid is accepted. *)
From Coq Require Import Arith ZArith ZifyBool ZifyNat ZifyN Permutation Sorted.
From Verif Require Import Spec Lit LitProofs Vec SortedLits SortedLitsProofs Hash HashProofs Vli BinFormat Checker CheckerStore CheckerInv CheckerOps CheckerRup CheckerSteps CheckerRun CheckerCount CheckerSafe CheckerNames CheckerUsers Rup CheckerAccept P_Checker P_CheckerSafe CheckerValid.

(** [valid_history es] (CheckerValid.v) says of every event that it is [valid] after the events
    before it.  [valid] is stated with the history only:
    - a derived clause follows by unit propagation from clauses that are present, named by their
      hashes under the current names and width, in the order of the propagation;
    - a deleted clause is present, and satisfied by a known unit or a strict superset of the last
      irredundant derived clause unless the copy is redundant;
    - a model is consistent, contains the assumptions and no negated unit and satisfies every
      present clause; a failed core consists of assumptions and is refuted by propagation;
    - names are given to and taken from variables as [UserVarName] describes, and a deleted
      variable has no name and occurs in no clause.
    Without transcripts and if no processor returns an error, all of it is accepted. *)
Theorem C42_valid_accepted : forall procs pf tf sh es, (forall n l, Permutation (sh n l) l) -> (forall n, pf n = false) ->
  Forall event_u32 es -> history_size es < 2^32 -> valid_history es ->
  exists c, run (checker_new procs false pf tf sh) es = ROk tt c /\ exists c', self_check_delayed_steps c = ROk tt c'.
Proof.
  intros procs pf tf sh es SH PF U M V. destruct (run_accepts es [] _ (ri_new procs pf tf sh SH PF) U M V) as (c&E&R).
  exists c. split; [exact E|]. unfold self_check_delayed_steps, process_unit_conflicts. destruct (unit_conflict (c_clauses c)) as [[a b]|]; [|eauto].
  destruct (ok_process c (KAtClause (next_clause_id (c_clauses c)) false [] [a; b]) (fun _ _ => True) (ri_calm _ _ R)) as ([]&c'&E'&_); [auto|eauto].
Qed.
Print Assumptions C42_valid_accepted.

(** What is rejected is not valid: the first step that is not accepted is an invalid one. *)
Theorem C42_rejected_invalid : forall procs pf tf sh es e err c c', (forall n l, Permutation (sh n l) l) -> (forall n, pf n = false) ->
  Forall event_u32 (es ++ [e]) -> history_size (es ++ [e]) < 2^32 -> valid_history es ->
  run (checker_new procs false pf tf sh) es = ROk tt c -> exec c e = RErr err c' \/ exec c e = RPanic -> ~ valid es e.
Proof.
  intros procs pf tf sh es e err c c' SH PF U M V R X VE.
  apply Forall_app in U. destruct U as [U1 U2]. inversion U2 as [|? ? U3 _]; subst. rewrite CheckerValid.history_snoc in M.
  destruct (run_accepts es [] _ (ri_new procs pf tf sh SH PF) U1 ltac:(cbn [app]; lia) V) as (c1&E&RI1). rewrite R in E. inversion E; subst c1.
  destruct (exec_accepts es c e RI1 U3 M VE) as ([]&c2&E2&_). destruct X as [X|X]; congruence.
Qed.
Print Assumptions C42_rejected_invalid.

(** * Files *)

Lemma ended_step c s c' : step_eff c s c' -> s_ended (c_state c') = match s with End => true | _ => s_ended (c_state c) end.
Proof.
  assert (SE : forall st cl lits red st' cl' id r, store_eff st cl lits red st' cl' id r -> s_ended st' = s_ended st).
  { intros st cl lits red st' cl' id r H. destruct (store_eff_state _ _ _ _ _ _ _ _ H) as [-> | ->]; reflexivity. }
  intros T. destruct s as [gl so|gl us|v|v sm|cl|red cl hs|us|cl pf|b|m|l|core hs| ]; cbn [step_eff] in T;
    try (destruct T as (A&B&_); rewrite B; reflexivity).
  - destruct T as [_ _ _ UC _ ST _]. rewrite ST. reflexivity.
  - destruct T as [E ->|E T' S1 V1 C1 EM|cl1 id r E T' S R]; [reflexivity|rewrite S1; reflexivity|]. apply (SE _ _ _ _ _ _ _ _ S).
  - destruct T as [st1 id r hints T IMP _ S ST EM]. rewrite ST. destruct red; apply (SE _ _ _ _ _ _ _ _ S).
  - induction T as [x x' Q P|x l h rest x1 x' id r hints _ _ S EM _ IH]; [destruct Q as [_ -> _ _]; reflexivity|].
    rewrite IH. apply (SE _ _ _ _ _ _ _ _ S).
  - destruct T as [id r T DE UN UC NX ST R]. rewrite ST. reflexivity.
Qed.
Lemma loop_accepts ss : forall es c r r' fuel, RI es c -> s_ended (c_state c) = false -> ~ In End ss -> decodes_to r (ss ++ [End]) r' ->
  history_size (es ++ map Step (ss ++ [End])) < 2^32 -> valid_history (es ++ map Step (ss ++ [End])) ->
  check_proof_loop fuel c r <> None -> exists c', check_proof_loop fuel c r = Some (ROk tt c').
Proof.
  induction ss as [|s ss IH]; intros es c r r' fuel R EN NE D M V NN; cbn [app map] in *; inversion D as [|? ? r1 ? ? P D']; subst;
    pose proof (parse_step_u32 _ _ _ P) as U; (destruct fuel as [|fuel]; cbn [check_proof_loop] in *; rewrite EN in *; [congruence|]); rewrite P in *; fold (next_step c) in *.
  - pose proof (V es (Step End) [] eq_refl) as VE. cbn [check_step] in *.
    set (c1 := with_state (next_step c) (with_ended (c_state (next_step c)))) in *.
    assert (PC : exists c', process_unit_conflicts c1 = ROk tt c').
    { unfold process_unit_conflicts. destruct (unit_conflict (c_clauses c1)) as [[a b]|]; [|eauto].
      destruct (ok_process c1 (KAtClause (next_clause_id (c_clauses c1)) false [] [a; b]) (fun _ _ => True) (ri_calm _ _ R)) as ([]&c'&E'&_); [auto|eauto]. }
    destruct PC as [c' PC]. exists c'. destruct fuel; cbn [check_proof_loop]; change (s_ended (c_state c1)) with true; cbn iota; rewrite PC; reflexivity.
  - pose proof (V es (Step s) (map Step (ss ++ [End])) eq_refl) as VE.
    assert (M1 : history_size es + event_size (Step s) < 2^32).
    { unfold history_size in M. rewrite map_app, sumN_app in M. cbn [map sumN fold_right] in M. fold (history_size es) in M. lia. }
    destruct (exec_accepts es c (Step s) R U M1 VE) as ([]&c1&E&_). pose proof (ri_step es c (Step s) c1 tt R U M1 VE E) as R1.
    destruct (exec_spec c (Step s) c1 tt (si_inv _ _ (ri_si _ _ R)) U E) as [_ T]. cbn [tr] in T. cbn [exec] in E. unfold self_check_step in E. fold (next_step c) in E.
    rewrite E in *. change (es ++ Step s :: map Step (ss ++ [End])) with (es ++ [Step s] ++ map Step (ss ++ [End])) in *. rewrite app_assoc in *.
    apply (IH (es ++ [Step s]) c1 r1 r' fuel R1); auto.
    + rewrite (ended_step _ _ _ T). destruct s; auto. destruct NE. left. reflexivity.
    + intros H. apply NE. right. exact H.
Qed.

(** Loading a formula and checking a proof file for it: a file that holds valid steps up to an end
    marker is accepted. *)
Theorem C42_valid_file_accepted : forall procs pf tf sh f ss file rest, (forall n l, Permutation (sh n l) l) -> (forall n, pf n = false) ->
  Forall lits_u32 f -> ~ In End ss -> decodes_to file (ss ++ [End]) rest ->
  history_size (map Load f ++ map Step (ss ++ [End])) < 2^32 -> valid_history (map Load f ++ map Step (ss ++ [End])) ->
  exists c c', add_formula (checker_new procs false pf tf sh) f = ROk tt c /\ check_proof c file = Some (ROk tt c').
Proof.
  intros procs pf tf sh f ss file rest SH PF U NE D M V.
  assert (MF : history_size (map Load f) < 2^32) by (unfold history_size in *; rewrite map_app, sumN_app in M; lia).
  assert (VF : valid_history (map Load f)). { intros a e b E. apply (V a e (b ++ map Step (ss ++ [End]))). rewrite E, <- app_assoc. reflexivity. }
  assert (UF : Forall event_u32 (map Load f)) by (apply Forall_map; exact U).
  destruct (run_accepts (map Load f) [] _ (ri_new procs pf tf sh SH PF) UF MF VF) as (c&E&R).
  exists c. rewrite add_formula_run. cbn [app] in R.
  assert (EN : s_ended (c_state c) = false).
  { assert (G : forall f c0 c, Inv c0 -> Forall event_u32 (map Load f) -> run c0 (map Load f) = ROk tt c -> s_ended (c_state c) = s_ended (c_state c0)).
    { clear. induction f as [|cl f IH]; intros c0 c I0 U R; cbn [map run] in R; [inversion R; reflexivity|]. inversion U as [|? ? U1 U2]; subst.
      destruct (exec c0 (Load cl)) as [[] c1| |] eqn:E; try discriminate. cbn [bind] in R. destruct (exec_spec _ _ _ _ I0 U1 E) as [I1 T].
      rewrite (IH _ _ I1 U2 R). cbn [tr] in T. destruct T as [E0 ->|E0 T' S1 V1 C1 EM|cl1 id r E0 T' S0 RR]; [reflexivity|rewrite S1; reflexivity|].
      destruct (store_eff_state _ _ _ _ _ _ _ _ S0) as [-> | ->]; reflexivity. }
    rewrite (G f _ _ (new_inv procs false pf tf sh SH) UF E). reflexivity. }
  destruct (loop_accepts ss _ c file rest _ R EN NE D M V (C19_check_proof_ends c file)) as [c' E']. exists c'. split; [exact E|exact E'].
Qed.
Print Assumptions C42_valid_file_accepted.

(** * Examples *)

Fixpoint valid_from (pre es : list event) : Prop :=
  match es with [] => True | e :: r => valid pre e /\ valid_from (pre ++ [e]) r end.
Lemma valid_from_history es : forall pre, valid_history pre -> valid_from pre es -> valid_history (pre ++ es).
Proof.
  induction es as [|e es IH]; intros pre H V; [rewrite app_nil_r; exact H|]. destruct V as [V1 V2].
  replace (pre ++ e :: es) with ((pre ++ [e]) ++ es) by (rewrite <- app_assoc; reflexivity). apply IH; [|exact V2].
  intros a x b E. destruct b as [|y b] using rev_ind.
  - apply app_inj_tail in E. destruct E as [-> ->]. exact V1.
  - clear IHb. change (a ++ x :: b ++ [y]) with (a ++ (x :: b) ++ [y]) in E. rewrite app_assoc in E. apply app_inj_tail in E. destruct E as [E _]. apply (H a x b E).
Qed.

Definition tour_names (v : N) : option N := if v =? 0 then Some 1 else if v =? 1 then Some 0 else None.
Definition tour_keys (cs : list (list N)) : list N := map (clause_key tour_names 64) cs.
Definition tour : list event :=
  [Step (UserVarName 0 (Some 0)); Step (UserVarName 1 (Some 1)); Step (SolverVarName 0 (Some 1)); Step (SolverVarName 1 (Some 0));
   Load [0;2]; Step (AddClause [1;2]); Step (Assumptions [3]); Step (FailedAssumptions [3] (tour_keys [[0;2]; [1;2]]));
   Step (Assumptions [0]); Step (AtClause false [2] (tour_keys [[0;2]; [1;2]])); Step (DeleteClause [2;0] DSimplified);
   Step (DeleteClause [1;2] DSatisfied); Step (Model [0;2]); Step (UserVarName 0 None); Step (SolverVarName 0 None); Step (DeleteVar 0); Step End].

Ltac rup_lits := intros x H; cbn [In] in H; repeat (destruct H as [<-|H]; [vm_compute; auto 8|]); destruct H.
Lemma tour_rup : rup [3] [[0;2]; [1;2]].
Proof. apply (rup_unit _ _ 0); [cbn; auto|rup_lits|]. apply rup_conflict. rup_lits. Qed.
Lemma tour_derivable es lits : current_names es = tour_names \/ (forall v, current_names es v = tour_names v) -> current_bits es = 64 ->
  In ([0;2], false) (db_cls (db_after es)) -> In ([1;2], false) (db_cls (db_after es)) -> lits = [2] -> derivable es (db_after es) lits (tour_keys [[0;2]; [1;2]]).
Proof.
  intros N B H1 H2 ->. right. exists [[0;2]; [1;2]], [3]. assert (N' : forall v, current_names es v = tour_names v) by (destruct N as [->|N]; auto).
  assert (KE : forall D, clause_key (current_names es) (current_bits es) D = clause_key tour_names 64 D).
  { intros D. rewrite B. unfold clause_key. f_equal. generalize 0. induction D as [|x D IH]; intros k; [reflexivity|]. cbn [fold_left]. rewrite IH.
    do 2 f_equal. unfold lit_key. rewrite N'. reflexivity. }
  split; [unfold tour_keys; apply map_ext; intros D; symmetry; apply KE|]. split; [|split; [|exact tour_rup]].
  - intros D [<-|[<-|[]]]; (split; [eauto|]); intros l Hl; cbn [In] in Hl; left; rewrite N'; repeat (destruct Hl as [<-|Hl]; [vm_compute; discriminate|]); destruct Hl.
  - intros x [<-|[]]. left. vm_compute. auto.
Qed.
Lemma tour_from : valid_from [] tour.
Proof.
  assert (N4 : forall pre, Forall (fun e => match e with Step (SolverVarName _ _) => False | _ => True end) pre -> forall v, current_names (firstn 4 tour ++ pre) v = tour_names v).
  { intros pre H v. unfold current_names. rewrite fold_left_app. match goal with |- fold_left _ _ ?f v = _ => set (g := f) end.
    transitivity (g v).
    - generalize g. induction H as [|e pre He H IH]; intros h; [reflexivity|]. cbn [fold_left]. rewrite IH. destruct e as [|[]]; try reflexivity; destruct He.
    - unfold g, tour_names. cbn [firstn tour fold_left names_after]. destruct (N.eqb_spec v 1) as [->|N1]; [reflexivity|]. destruct (v =? 0); reflexivity. }
  cbn [tour valid_from app]. repeat apply conj; try exact Logic.I; try (vm_compute; reflexivity); try (vm_compute; discriminate).
  all: try (intros w; unfold user_names; cbn [fold_left user_after]; repeat (destruct (_ =? _)); congruence).
  all: try (left; vm_compute; discriminate).
  all: try (right; right; repeat constructor; vm_compute; reflexivity).
  all: try (repeat constructor; vm_compute; reflexivity).
  all: try (vm_compute; auto; fail).
  - right. apply tour_derivable; [right; apply (N4 [Load [0; 2]; Step (AddClause [1; 2]); Step (Assumptions [3])]); repeat constructor|vm_compute; auto|vm_compute; auto|vm_compute; auto|reflexivity].
  - apply tour_derivable; [right; apply (N4 [Load [0; 2]; Step (AddClause [1; 2]); Step (Assumptions [3]); Step (FailedAssumptions [3] (tour_keys [[0; 2]; [1; 2]])); Step (Assumptions [0])]); repeat constructor|vm_compute; auto|vm_compute; auto|vm_compute; auto|reflexivity].
  - exists [2]. split; [reflexivity|]. split; [intros x [<-|[]]; left; reflexivity|]. intros H. destruct (H 0 (or_intror (or_introl eq_refl))) as [X|[]]. discriminate.
  - exists 2. vm_compute. auto.
  - repeat constructor; exists 1, (Some 1); (split; [right; left; reflexivity|vm_compute; discriminate]).
  - intros l [<-|[<-|[]]]; vm_compute; intros [X|[X|[]]]; discriminate.
  - intros l [<-|[<-|[]]]; vm_compute; intros [X|[]]; discriminate.
  - intros x [<-|[]]. left. reflexivity.
  - intros D red [].
Qed.
Example C42_ex : valid_history tour /\ Forall event_u32 tour /\ history_size tour < 2^32 /\
  exists c, run chk1 tour = ROk tt c /\ length (proc_log (c_proc c)) = 12%nat.
Proof.
  split; [apply (valid_from_history tour []); [intros a e b H; destruct a; discriminate|exact tour_from]|].
  split; [repeat constructor|]. split; [vm_compute; reflexivity|]. eexists. split; [vm_compute; reflexivity|vm_compute; reflexivity].
Qed.
