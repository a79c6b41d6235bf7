(** A file with the steps of a valid proof is accepted by the checker, if its numbers are in the
    range of their types. *)
From Coq Require Import Lia Arith ZArith ZifyBool ZifyNat ZifyN Permutation.
From Verif Require Import Spec Lit LitProofs Vli VliProofs BinFormat BinFormatProofs P_BinFormat Hash HashProofs SolverCtx CtxEvents P_Proof Rup Checker CheckerOps CheckerSteps CheckerCount CheckerRun CheckerSafe CheckerNames CheckerUsers
  CheckerAccept CheckerValid P_Checker P_CheckerSafe P_CheckerAccept ProofReorder.
Local Open Scope N_scope.

(** The variables of a step are in the range of [Var], its literals in that of [Lit], and its
    hashes in that of [u64] *)
Definition in_range (s : proof_step) : Prop :=
  let var v := v <= max_var in
  let lits := Forall (fun l => l <= 2 * max_var + 1) in
  let hash h := h < 2^64 in
  match s with
  | SolverVarName g v | UserVarName g v => var g /\ match v with Some v => var v | None => True end
  | DeleteVar v | ChangeSamplingMode v _ => var v
  | AddClause c | DeleteClause c _ | Model c | Assumptions c => lits c
  | AtClause _ c hs | FailedAssumptions c hs => lits c /\ Forall hash hs
  | UnitClauses us => Forall (fun p => fst p <= 2 * max_var + 1 /\ hash (snd p)) us
  | ChangeHashBits b => b < 2^32
  | End => True
  end.
Lemma write_long l : Forall (fun v => v < 2^64) l -> (length l <= length (flat_map write_u64 l))%nat.
Proof. induction 1 as [|v l H _ IH]; [auto|]. cbn [flat_map length]. rewrite app_length. pose proof (write_u64_length v H). lia. Qed.
Lemma lits_long l : Forall (fun l => l <= 2 * max_var + 1) l -> Forall (fun v => v < 2^64) l.
Proof. apply Forall_impl. intros a H. assert (max_var < 2^32) by reflexivity. lia. Qed.
Lemma list_long l : Forall (fun v => v < 2^64) l -> (length l <= length (write_list l))%nat.
Proof. intros H. unfold write_list. rewrite app_length. pose proof (write_long l H). lia. Qed.
Lemma units_long us : Forall (fun p => fst p <= 2 * max_var + 1 /\ snd p < 2^64) us -> (length us <= length (write_unit_clauses us))%nat.
Proof.
  intros H. unfold write_unit_clauses. rewrite app_length. enough (length us <= length (flat_map (fun p => write_u64 (fst p) ++ write_u64 (snd p)) us))%nat by lia.
  induction H as [|[a b] us [H1 H2] _ IH]; [auto|]. cbn [flat_map length fst snd] in *. rewrite !app_length. assert (max_var < 2^32) by reflexivity.
  pose proof (write_u64_length a ltac:(lia)). lia.
Qed.
Lemma range_ok s : in_range s -> N.of_nat (length (write_step s)) < 2^32 -> step_ok s.
Proof.
  intros R L. destruct s; cbn [in_range write_step] in *; unfold step_ok; rewrite ?app_length in L; try exact R; try exact Logic.I.
  all: try (split; [exact R|]; pose proof (list_long _ (lits_long _ R)); lia).
  all: try (destruct R as [R1 R2]; pose proof (list_long _ (lits_long _ R1)); pose proof (list_long _ R2); repeat split; try assumption; lia).
  split; [exact R|]. pose proof (units_long _ R). lia.
Qed.

Lemma many_decodes n : forall r ss r', parse_many n r = POk (ss, r') -> decodes_to r ss r'.
Proof.
  induction n as [|n IH]; intros r ss r' E; cbn [parse_many] in E; [injection E as <- <-; constructor|].
  destruct (parse_step r) as [[s r1]| | |] eqn:P; cbn [pbind] in E; try discriminate. destruct (parse_many n r1) as [[ss1 r2]| | |] eqn:M; cbn [pbind] in E; try discriminate.
  injection E as <- <-. econstructor; [exact P|apply IH, M].
Qed.
Lemma decodes_split a : forall r b r', decodes_to r (a ++ b) r' -> exists r1, decodes_to r a r1 /\ decodes_to r1 b r'.
Proof.
  induction a as [|s a IH]; intros r b r' D; cbn [app] in D; [exists r; split; [constructor|exact D]|]. inversion D; subst. destruct (IH _ _ _ H4) as (r2&A&B). exists r2. split; [econstructor; eassumption|exact B].
Qed.
Lemma first_end (os : list proof_step) : In End os -> exists a b, os = a ++ End :: b /\ ~ In End a.
Proof.
  induction os as [|s os IH]; intros I; [destruct I|]. destruct (match s with End => true | _ => false end) eqn:Es; [destruct s; try discriminate; exists [], os; auto|].
  destruct I as [->|I]; [discriminate|]. destruct (IH I) as (a&b&->&N). exists (s :: a), b. split; [reflexivity|]. intros [->|H]; [discriminate|contradiction].
Qed.
Lemma range_all os : Forall in_range os -> N.of_nat (length (flat_map write_step os)) < 2^32 -> Forall step_ok os.
Proof.
  induction 1 as [|s os R _ IH]; intros L; [constructor|]. cbn [flat_map] in L. rewrite app_length in L. constructor; [apply range_ok; [exact R|lia]|apply IH; lia].
Qed.

Lemma hist_app a b : history_size (a ++ b) = history_size a + history_size b.
Proof. unfold history_size. rewrite map_app, sumN_app. reflexivity. Qed.
Theorem written_accepted procs pf tf sh f os file : (forall n l, Permutation (sh n l) l) -> (forall n, pf n = false) -> Forall lits_u32 f -> Forall in_range os -> In End os ->
  valid_history (map Load f ++ map Step os) -> reader_ok file -> flat file = flat_map write_step os -> history_size (map Load f) + N.of_nat (length (flat file)) < 2^32 ->
  exists c c', add_formula (checker_new procs false pf tf sh) f = ROk tt c /\ check_proof c file = Some (ROk tt c').
Proof.
  intros SH PF U R IE V RO FL SZ. assert (OK : Forall step_ok os) by (apply range_all; [exact R|rewrite <- FL; lia]).
  destruct (C04_roundtrip os [] file OK RO ltac:(constructor) ltac:(rewrite app_nil_r; exact FL)) as (r'&D&_). apply many_decodes in D.
  pose proof (decodes_left _ _ _ D) as DL. destruct (first_end _ IE) as (a&b&->&NE).
  replace (a ++ End :: b) with ((a ++ [End]) ++ b) in * by (rewrite <- app_assoc; reflexivity). destruct (decodes_split _ _ _ _ D) as (r1&D1&_).
  apply (C42_valid_file_accepted procs pf tf sh f a file r1 SH PF U NE D1).
  - rewrite map_app, hist_app in DL. rewrite hist_app.
    assert (BL : bytes_left file = N.of_nat (length (flat file))) by (unfold bytes_left, flat; rewrite app_length; reflexivity). lia.
  - intros x e y E. apply (V x e (y ++ map Step b)). rewrite map_app, app_assoc, E, <- app_assoc. reflexivity.
Qed.

Lemma written_size os : Forall in_range os -> N.of_nat (length (flat_map write_step os)) < 2^32 -> history_size (map Step os) <= N.of_nat (length (flat_map write_step os)).
Proof.
  intros R L. destruct (C04_roundtrip os [] (flat_map write_step os, []) (range_all _ R L) ltac:(constructor) ltac:(constructor)) as (r'&D&_); [unfold flat; cbn [fst snd concat]; reflexivity|].
  apply many_decodes in D. apply decodes_left in D. unfold bytes_left in D at 2. cbn [fst snd concat length] in D. lia.
Qed.

(** * What the steps of a file say about the steps sent to the checker *)
Lemma announced_in b ss os : announces b ss os -> forall s, In s ss -> exists b', In (high b' s) os.
Proof. induction 1 as [b|b s ss os NB A IH|b b' ss os B N A IH]; intros t I; [destruct I|destruct I as [<-|I]; [exists b; left; reflexivity|]|]; destruct (IH _ I) as [x X]; exists x; right; exact X. Qed.
Lemma announced_size b ss os : announces b ss os -> history_size (map Step ss) <= history_size (map Step os).
Proof.
  induction 1 as [b|b s ss os NB A IH|b b' ss os B N A IH]; [reflexivity| |].
  - cbn [map]. change (history_size (Step s :: map Step ss)) with (event_size (Step s) + history_size (map Step ss)).
    change (history_size (Step (high b s) :: map Step os)) with (event_size (Step (high b s)) + history_size (map Step os)). assert (event_size (Step (high b s)) = event_size (Step s)) by (destruct s; reflexivity). lia.
  - cbn [map]. change (history_size (Step (ChangeHashBits b') :: map Step os)) with (0 + history_size (map Step os)). lia.
Qed.
Lemma split_size es : history_size es = history_size (map Load (loads_of es)) + history_size (map Step (steps_of es)).
Proof.
  induction es as [|[cl|s] es IH]; [reflexivity| |].
  - change (loads_of (Load cl :: es)) with (cl :: loads_of es). change (steps_of (Load cl :: es)) with (steps_of es). cbn [map].
    change (history_size (Load cl :: es)) with (event_size (Load cl) + history_size es). change (history_size (Load cl :: map Load (loads_of es))) with (event_size (Load cl) + history_size (map Load (loads_of es))). lia.
  - change (loads_of (Step s :: es)) with (loads_of es). change (steps_of (Step s :: es)) with (s :: steps_of es). cbn [map].
    change (history_size (Step s :: es)) with (event_size (Step s) + history_size es). change (history_size (Step s :: map Step (steps_of es))) with (event_size (Step s) + history_size (map Step (steps_of es))). lia.
Qed.
Lemma in_loads es cl : In (Load cl) es -> In cl (loads_of es).
Proof. induction es as [|[c|s] es IH]; intros I; [destruct I|destruct I as [E|I]; [injection E as ->; left; reflexivity|right; exact (IH I)]|destruct I as [E|I]; [discriminate|exact (IH I)]]. Qed.
Lemma in_steps es s : In (Step s) es -> In s (steps_of es).
Proof. induction es as [|[c|t] es IH]; intros I; [destruct I|destruct I as [E|I]; [discriminate|exact (IH I)]|destruct I as [E|I]; [injection E as ->; left; reflexivity|right; exact (IH I)]]. Qed.
Lemma loads_size f g : Forall2 (fun C cl => same_lits C cl /\ NoDup cl) f g -> history_size (map Load g) <= history_size (map Load f).
Proof.
  induction 1 as [|C cl f g [S ND] _ IH]; [reflexivity|]. cbn [map].
  change (history_size (Load cl :: map Load g)) with (clause_size cl + history_size (map Load g)). change (history_size (Load C :: map Load f)) with (clause_size C + history_size (map Load f)).
  assert (length cl <= length C)%nat by (apply NoDup_incl_length; [exact ND|intros l I; apply S, I]). unfold clause_size. lia.
Qed.
