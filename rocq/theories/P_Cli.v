(** C47: the exit code and the output of the command line solver. *)
From Coq Require Import Lia Arith PeanoNat ZArith String ZifyBool ZifyNat ZifyN.
From Verif Require Import Spec Lit LitProofs BinFormat Hash HashProofs F32 Vsids VsidsProofs VsidsWf Luby Config P_Config Search SearchBase Propagate P_Search ClauseDb DbProofs
  Analyze AnalyzeProofs Rup AnalyzeHints P_Hints SolverCtx CtxFrame VarsProofs Solver SolverInv SolverSimplify SolverAdd SolverLoad SolverFailed FailedHints SolverSearch SolverSolve CtxEvents P_Solver Cli.
From Verif Require Cnf Dimacs DimacsSpec DimacsRefProofs P_Dimacs DimacsRoundProofs LratProofs VarsBound P_Compact ProofEarly.
Local Open Scope N_scope.

(** * The tool as a history of calls *)
Definition proof_calls (o : options) : list call :=
  match o_proof o with None => [] | Some (ToFile f) => [CWriteProof f] | Some (ToLrat _) => [CCheck] end ++ (if o_self_check o then [CCheck] else []).
(** The clauses that the parser hands over *)
Definition loaded (chunks : list (list N)) : list (list N) :=
  let '(_, fs, _) := Dimacs.parse_incremental (fun _ => true) chunks in
  flat_map (fun f => match Cnf.cnf_iter f with Some cs => cs | None => [] end) fs.

Lemma run_all_snoc fuel a : forall b c, run_all fuel (a ++ b) c = do (c, r) <- run_all fuel a c ; do (c, s) <- run_all fuel b c ; Ret (c, r ++ s).
Proof.
  induction a as [|k a IH]; intros b c; cbn [app run_all bind].
  - destruct (run_all fuel b c) as [[c1 r]| |]; reflexivity.
  - destruct (run fuel k c) as [[c1 x]| |]; cbn [bind]; [|reflexivity..]. rewrite IH.
    destruct (run_all fuel a c1) as [[c2 r]| |]; cbn [bind]; [|reflexivity..]. destruct (run_all fuel b c2) as [[c3 s]| |]; reflexivity.
Qed.
Lemma add_clauses_run fuel cs : forall c, run_all fuel (map CAdd cs) c = do c <- add_clauses cs c ; Ret (c, map (fun _ => ANone) cs).
Proof.
  induction cs as [|cl cs IH]; intros c; cbn [map run_all add_clauses run bind]; [reflexivity|].
  destruct (load_clause cl c) as [c1| |]; cbn [bind]; [|reflexivity..]. rewrite IH. destruct (add_clauses cs c1) as [c2| |]; reflexivity.
Qed.
Lemma add_clauses_app a : forall b c, add_clauses (a ++ b) c = do c <- add_clauses a c ; add_clauses b c.
Proof. induction a as [|cl a IH]; intros b c; cbn [app add_clauses bind]; [reflexivity|]. destruct (load_clause cl c); cbn [bind]; [apply IH|reflexivity..]. Qed.
Lemma add_formulas_concat fs : forall pieces c, map Cnf.cnf_iter fs = map Some pieces -> add_formulas fs c = add_clauses (concat pieces) c.
Proof.
  induction fs as [|f fs IH]; intros [|p ps] c E; cbn [map] in E; try discriminate; cbn [add_formulas concat]; [reflexivity|].
  injection E as E1 E2. unfold add_formula. rewrite E1, add_clauses_app. destruct (add_clauses p c); cbn [bind]; [apply IH; exact E2|reflexivity..].
Qed.
Lemma flat_pieces fs : forall pieces, map Cnf.cnf_iter fs = map Some pieces -> flat_map (fun f => match Cnf.cnf_iter f with Some cs => cs | None => [] end) fs = concat pieces.
Proof. induction fs as [|f fs IH]; intros [|p ps] E; cbn [map] in E; try discriminate; cbn [flat_map concat]; [reflexivity|]. injection E as E1 E2. rewrite E1, (IH _ E2). reflexivity. Qed.

(** The tool loads exactly the clauses of [parse]. *)
Lemma pieces_of chunks : let '(p, fs, e) := Dimacs.parse_incremental (fun _ => true) chunks in
  (exists pieces, map Cnf.cnf_iter fs = map Some pieces) /\
  match e with
  | None => exists f, Dimacs.parse chunks = inl f /\ Cnf.cnf_iter f = Some (loaded chunks)
  | Some e => Dimacs.parse chunks = inr e
  end.
Proof.
  pose proof (P_Dimacs.C05_chunking_incremental (fun _ => true) chunks) as H. unfold loaded.
  assert (Pc : Dimacs.parse chunks = Dimacs.parse [concat chunks]) by (apply P_Dimacs.C05_chunking; cbn [concat]; rewrite app_nil_r; reflexivity).
  unfold Dimacs.parse in Pc at 2.
  destruct (Dimacs.parse_incremental (fun _ => true) chunks) as [[p fs] e] eqn:Ep. destruct (Dimacs.parse_incremental (fun _ => false) [concat chunks]) as [[q y] e'].
  destruct H as (<-&_&_&_&_&pieces&rest&all&P1&P2&P3&P4). split; [exists pieces; exact P1|].
  destruct e as [e|]; [exact Pc|]. exists (fst (Dimacs.take_formula q)). split; [exact Pc|]. 
  assert (R : rest = []).
  { unfold Dimacs.parse_incremental in Ep. destruct (Dimacs.parse_chunks _ _ _ _ _) as [[p1 o1] [e1|]]; [discriminate|]. destruct (Dimacs.parse_eof p1) as [p2 [e2|]]; [discriminate|].
    unfold Dimacs.callback in Ep. destruct (Dimacs.take_formula p2) as [f p3] eqn:T. injection Ep as <- _ _. destruct p2; unfold Dimacs.take_formula in T; injection T as _ <-. cbn [Dimacs.p_formula] in P2. vm_compute in P2. injection P2 as <-. reflexivity. }
  rewrite (flat_pieces _ _ P1). replace (concat pieces) with all by (rewrite <- P4, R, app_nil_r; reflexivity). destruct q; exact P3.
Qed.
Lemma loaded_ok chunks f : Dimacs.parse chunks = inl f -> Cnf.cnf_iter f = Some (loaded chunks).
Proof.
  intros E. pose proof (pieces_of chunks) as H. destruct (Dimacs.parse_incremental (fun _ => true) chunks) as [[p fs] [e|]]; destruct H as [_ H]; [congruence|]. destruct H as (f'&Ef&I). congruence.
Qed.
Lemma add_dimacs_run fuel chunks c : add_dimacs_cnf chunks c = do (c, _) <- run_all fuel (map CAdd (loaded chunks)) c ; Ret (c, match Dimacs.parse chunks with inl _ => None | inr e => Some e end).
Proof.
  pose proof (pieces_of chunks) as H. unfold add_dimacs_cnf. rewrite add_clauses_run. unfold loaded in *. destruct (Dimacs.parse_incremental (fun _ => true) chunks) as [[p fs] e] eqn:Ep. destruct H as [(pieces&Hp) H].
  rewrite (flat_pieces _ _ Hp) in *. rewrite (add_formulas_concat _ _ _ Hp). destruct (add_clauses (concat pieces) c) as [c1| |]; cbn [bind]; [|reflexivity..].
  destruct e as [e|]; [rewrite H; reflexivity|]. destruct H as (f&Hf&_). rewrite Hf. reflexivity.
Qed.

(** What the tool does after [solve] *)
Definition report (r : ctx * answer) : out (ctx * (N * list N)) :=
  let '(c, a) := r in
  match a with
  | ASolved true => do m <- get_model c ; match m with None => Panic PInternal | Some lits => Ret (c, (10, line "s SATISFIABLE" ++ value_line lits)) end
  | ASolved false => Ret (c, (20, line "s UNSATISFIABLE"))
  | _ => Ret (c, (0, line "s UNKNOWN"))
  end.
Lemma main_eq fuel o chunks c : main_with_err fuel o chunks c =
  do (c, a) <- run fuel (CConfig (merged (o_updates o))) c ;
  match a with
  | AConfig false => Ret (c, (1, []))
  | _ => do (c, _) <- run_all fuel (proof_calls o ++ map CAdd (loaded chunks)) c ;
         match Dimacs.parse chunks with inr _ => Ret (c, (1, [])) | inl _ => do r <- run fuel CSolve c ; report r end
  end.
Proof.
  unfold main_with_err. destruct (run fuel (CConfig _) c) as [[c1 a]| |]; cbn [bind]; [|reflexivity..].
  assert (K : forall (c : ctx), 
    (do (c, e) <- add_dimacs_cnf chunks c ; match e with Some _ => Ret (c, (1, [])) | None => do (c, a) <- run fuel CSolve c ; match a with
          | ASolved true => do m <- get_model c ; match m with None => Panic PInternal | Some lits => Ret (c, (10, line "s SATISFIABLE" ++ value_line lits)) end
          | ASolved false => Ret (c, (20, line "s UNSATISFIABLE")) | _ => Ret (c, (0, line "s UNKNOWN")) end end)
    = do (c, _) <- run_all fuel (map CAdd (loaded chunks)) c ; match Dimacs.parse chunks with inr _ => Ret (c, (1, [])) | inl _ => do r <- run fuel CSolve c ; report r end).
  { intros c0. rewrite (add_dimacs_run fuel). destruct (run_all fuel _ c0) as [[c2 r]| |]; cbn [bind]; [|reflexivity..]. destruct (Dimacs.parse chunks) as [fm|pe]; [|reflexivity].
    destruct (run fuel CSolve c2) as [[c3 a3]| |]; reflexivity. }
  assert (J : forall (c : ctx), 
     (do c <- match o_proof o with None => Ret c | Some (ToFile f) => call_only fuel (CWriteProof f) c | Some (ToLrat _) => call_only fuel CCheck c end ;
      do c <- (if o_self_check o then call_only fuel CCheck c else Ret c) ;
      do (c, e) <- add_dimacs_cnf chunks c ; match e with Some _ => Ret (c, (1, [])) | None => do (c, a) <- run fuel CSolve c ; match a with
          | ASolved true => do m <- get_model c ; match m with None => Panic PInternal | Some lits => Ret (c, (10, line "s SATISFIABLE" ++ value_line lits)) end
          | ASolved false => Ret (c, (20, line "s UNSATISFIABLE")) | _ => Ret (c, (0, line "s UNKNOWN")) end end)
     = do (c, _) <- run_all fuel (proof_calls o ++ map CAdd (loaded chunks)) c ; match Dimacs.parse chunks with inr _ => Ret (c, (1, [])) | inl _ => do r <- run fuel CSolve c ; report r end).
  { intros c0. rewrite run_all_snoc. unfold proof_calls. rewrite run_all_snoc.
    destruct (o_proof o) as [[f|b]|]; destruct (o_self_check o); cbn [run_all]; unfold call_only; cbn [bind];
      repeat (match goal with |- context [run fuel ?k ?x] => match k with CSolve => fail 1 | _ => destruct (run fuel k x) as [[? ?]| |]; cbn [bind]; try reflexivity end end);
      rewrite K; match goal with |- context [run_all ?a ?b ?x] => destruct (run_all a b x) as [[? ?]| |]; reflexivity end. }
  destruct a as [|?|?|?|?|[|]]; try apply J; reflexivity.
Qed.

(** * Reading the output
    Independent of the model: numbers as in the DIMACS format. *)
Definition z_true (a : Z -> bool) (z : Z) : bool := if (0 <? z)%Z then a z else negb (a (- z)%Z).
Definition z_holds (a : Z -> bool) (F : list (list Z)) : Prop := forall C, In C F -> exists z, In z C /\ z_true a z = true.
Definition z_satisfiable (F : list (list Z)) : Prop := exists a, z_holds a F.
(** A consistent list of literals such that every assignment that agrees with it satisfies the formula *)
Definition z_model (F : list (list Z)) (m : list Z) : Prop :=
  ~ In 0%Z m /\ NoDup (map Z.abs m) /\ forall a, (forall z, In z m -> z_true a z = true) -> z_holds a F.
(** The output: a line "s SATISFIABLE" and a line with the word "v", the literals in decimal and a zero *)
Definition prints_model (text : list N) (m : list Z) : Prop :=
  exists v ws, DimacsSpec.split Dimacs.is_nl text = [bytes "s SATISFIABLE"; v; []] /\ DimacsSpec.split DimacsSpec.is_space v = bytes "v" :: ws /\
    map DimacsSpec.word_int ws = map Some (m ++ [0%Z]).
(** The input is accepted by the parser, with these clauses *)
Definition input (chunks : list (list N)) (F : list (list Z)) : Prop :=
  exists f cls, Dimacs.parse chunks = inl f /\ Cnf.cnf_iter f = Some cls /\ F = map (map lit_to_dimacs) cls.
(** The values of the options, where later settings replace earlier ones, are in the documented ranges *)
Definition settings_ok (us : list config_update) : Prop := forall o v, latest o us = Some v -> documented v.

Lemma split_end sep w : forallb (fun b => negb (sep b)) w = true -> DimacsSpec.split sep w = [w].
Proof. induction w as [|b w IH]; cbn [forallb DimacsSpec.split]; intros H; [reflexivity|]. apply andb_true_iff in H. destruct H as [B H]. apply negb_true_iff in B. rewrite B, (IH H). reflexivity. Qed.
Lemma split_words sep s ws : sep s = true -> Forall (fun w => forallb (fun b => negb (sep b)) w = true) ws -> forall w0, forallb (fun b => negb (sep b)) w0 = true ->
  DimacsSpec.split sep (w0 ++ flat_map (fun w => s :: w) ws) = w0 :: ws.
Proof.
  intros Hs. induction 1 as [|w ws Hw _ IH]; intros w0 H0; cbn [flat_map]; [rewrite app_nil_r; apply split_end; exact H0|].
  cbn [app]. rewrite (DimacsRoundProofs.split_piece sep w0 s _ H0 Hs), (IH w Hw). reflexivity.
Qed.
Lemma no_sep b : negb (DimacsRefProofs.is_sep b) = true -> negb (DimacsSpec.is_space b) = true /\ negb (Dimacs.is_nl b) = true.
Proof. unfold DimacsRefProofs.is_sep, DimacsSpec.is_space, Dimacs.is_nl. lia. Qed.
Lemma itoa_no_sep z : forallb (fun b => negb (DimacsSpec.is_space b)) (Dimacs.itoa z) = true /\ forallb (fun b => negb (Dimacs.is_nl b)) (Dimacs.itoa z) = true.
Proof.
  destruct (DimacsRoundProofs.word_itoa z) as (_&_&H&_). split; rewrite forallb_forall in *; intros b Hb; destruct (no_sep b (H b Hb)); assumption.
Qed.
Lemma prints lits : prints_model (line "s SATISFIABLE" ++ value_line lits) (map lit_to_dimacs lits).
Proof.
  set (ws := map (fun l => Dimacs.itoa (lit_to_dimacs l)) lits ++ [bytes "0"]).
  set (v := bytes "v" ++ flat_map (fun w => 32 :: w) ws).
  assert (Ev : value_line lits = v ++ 10 :: []).
  { unfold value_line, v, ws, line. rewrite flat_map_app, <- !app_assoc. f_equal. rewrite (app_assoc (flat_map _ _)). 
    assert (K : flat_map (fun l => bytes " " ++ Dimacs.itoa (lit_to_dimacs l)) lits = flat_map (fun w => 32 :: w) (map (fun l => Dimacs.itoa (lit_to_dimacs l)) lits)).
    { clear v ws. induction lits as [|l lits IH]; cbn [flat_map map]; [reflexivity|]. rewrite IH. reflexivity. }
    rewrite K. rewrite <- app_assoc. reflexivity. }
  exists v, ws. split; [|split].
  - rewrite Ev. unfold line. rewrite <- app_assoc. cbn [app].
    rewrite (DimacsRoundProofs.split_piece Dimacs.is_nl (bytes "s SATISFIABLE") 10 _ eq_refl eq_refl), (DimacsRoundProofs.split_piece Dimacs.is_nl v 10 []); [reflexivity| |reflexivity].
    unfold v. rewrite forallb_app. apply andb_true_iff. split; [reflexivity|]. unfold ws. rewrite flat_map_app, forallb_app. apply andb_true_iff. split; [|reflexivity].
    clear. induction lits as [|l lits IH]; cbn [map flat_map]; [reflexivity|]. rewrite forallb_app, IH, andb_true_r. cbn [forallb]. rewrite (proj2 (itoa_no_sep _)). reflexivity.
  - unfold v. apply split_words; [reflexivity| |reflexivity]. unfold ws. apply Forall_app. split; [|constructor; [reflexivity|constructor]].
    clear. induction lits as [|l lits IH]; cbn [map]; constructor; [apply itoa_no_sep|exact IH].
  - unfold ws. rewrite !map_app. f_equal. clear. induction lits as [|l lits IH]; cbn [map]; [reflexivity|]. rewrite IH, (proj1 (DimacsRoundProofs.word_itoa _)). reflexivity.
Qed.

(** * The meaning of clauses *)
Lemma z_lit a l : valid_lit l = true -> z_true a (lit_to_dimacs l) = lit_holds (fun x => a (Z.of_N (x + 1))) l.
Proof.
  intros V. rewrite (lit_to_dimacs_val l V). unfold z_true, lit_holds. destruct (N.odd l).
  - replace (0 <? - Z.of_N (N.div2 l + 1))%Z with false by lia. rewrite Z.opp_involutive. destruct (a _); reflexivity.
  - replace (0 <? Z.of_N (N.div2 l + 1))%Z with true by lia. destruct (a _); reflexivity.
Qed.
Lemma z_formula a cls : Forall (Forall (fun l => valid_lit l = true)) cls ->
  (z_holds a (map (map lit_to_dimacs) cls) <-> forall C, In C cls -> clause_holds (fun x => a (Z.of_N (x + 1))) C = true).
Proof.
  intros V. rewrite Forall_forall in V. split.
  - intros H C I. destruct (H _ (in_map _ _ _ I)) as (z&Hz&T). apply in_map_iff in Hz. destruct Hz as (l&<-&Hl). apply existsb_exists. exists l. split; [exact Hl|].
    rewrite <- z_lit; [exact T|]. specialize (V C I). rewrite Forall_forall in V. exact (V l Hl).
  - intros H C I. apply in_map_iff in I. destruct I as (D&<-&I). specialize (H D I). apply existsb_exists in H. destruct H as (l&Hl&T). exists (lit_to_dimacs l). split; [apply in_map; exact Hl|].
    rewrite z_lit; [exact T|]. specialize (V D I). rewrite Forall_forall in V. exact (V l Hl).
Qed.
Lemma abs_var l : valid_lit l = true -> Z.abs (lit_to_dimacs l) = Z.of_N (lit_var l + 1).
Proof. intros V. rewrite (lit_to_dimacs_val l V). destruct (N.odd l); pose proof (lit_var_div l); lia. Qed.

(** * The calls of the tool *)
Definition cli_calls (o : options) (chunks : list (list N)) : list call := CConfig (merged (o_updates o)) :: proof_calls o ++ map CAdd (loaded chunks).
Lemma proof_calls_in o k : In k (proof_calls o) -> k = CCheck \/ exists f, k = CWriteProof f.
Proof. unfold proof_calls. intros I. apply in_app_or in I. destruct I as [I|I]; [destruct (o_proof o) as [[f|b]|]|destruct (o_self_check o)]; try (destruct I; fail); destruct I as [<-|[]]; eauto. Qed.
Lemma cli_calls_in o chunks k : In k (cli_calls o chunks) -> (exists u, k = CConfig u) \/ In k (proof_calls o) \/ exists C, In C (loaded chunks) /\ k = CAdd C.
Proof. intros [<-|I]; [eauto|]. apply in_app_or in I. destruct I as [I|I]; [auto|]. apply in_map_iff in I. destruct I as (C&<-&I). eauto. Qed.
Lemma added_cli o chunks : added (cli_calls o chunks) = loaded chunks.
Proof.
  unfold cli_calls, added. cbn [flat_map app]. rewrite flat_map_app. replace (flat_map _ (proof_calls o)) with (@nil (list N)).
  - cbn [app]. induction (loaded chunks) as [|C l IH]; cbn [map flat_map app]; [reflexivity|]. rewrite IH. reflexivity.
  - unfold proof_calls. destruct (o_proof o) as [[f|b]|], (o_self_check o); reflexivity.
Qed.
Lemma assumed_adds l : forall A, fold_left (fun A k => match k with CAssume l => l | _ => A end) (map CAdd l) A = A.
Proof. induction l as [|C l IH]; intros A; [reflexivity|]. apply IH. Qed.
Lemma assumed_cli o chunks : assumed (cli_calls o chunks) = [].
Proof.
  unfold cli_calls, assumed. cbn [fold_left]. rewrite fold_left_app. unfold proof_calls. destruct (o_proof o) as [[f|b]|], (o_self_check o); cbn [app fold_left]; apply assumed_adds.
Qed.
Lemma no_hide_cli o chunks : no_hide (cli_calls o chunks).
Proof. intros v I. apply cli_calls_in in I. destruct I as [(u&E)|[I|(C&_&E)]]; [discriminate| |discriminate]. apply proof_calls_in in I. destruct I as [E|(f&E)]; discriminate. Qed.
Lemma covered_cli o chunks : covered (cli_calls o chunks) = true.
Proof.
  unfold covered, cli_calls. cbn [fold_left]. rewrite fold_left_app. replace (fold_left cover1 (proof_calls o) _) with (false, true) by (unfold proof_calls; destruct (o_proof o) as [[f|b]|], (o_self_check o); reflexivity).
  assert (K : forall l, fold_left cover1 (map CAdd l) (false, true) = (false, true)) by (induction l as [|C l IH]; [reflexivity|exact IH]). rewrite K. reflexivity.
Qed.
Lemma loaded_valid chunks f : Dimacs.parse chunks = inl f -> Forall (Forall (fun l => valid_lit l = true)) (loaded chunks).
Proof. intros E. destruct (P_Dimacs.C07_result_range _ _ E) as (cs&I&V). pose proof (loaded_ok _ _ E). congruence. Qed.
Lemma lit_below l : valid_lit l = true -> lit_var l < max_count.
Proof. rewrite valid_lit_var. unfold valid_var. assert (max_count = max_var + 1) by reflexivity. lia. Qed.
Lemma below_lit l : lit_var l < max_count -> valid_lit l = true.
Proof. rewrite valid_lit_var. unfold valid_var. assert (max_count = max_var + 1) by reflexivity. lia. Qed.
Lemma named_cli o chunks f : Dimacs.parse chunks = inl f -> Forall (VarsBound.named_below max_count) (cli_calls o chunks).
Proof.
  intros E. apply Forall_forall. intros k I. apply cli_calls_in in I. destruct I as [(u&->)|[I|(C&I&->)]]; [exact Logic.I| |].
  - apply proof_calls_in in I. destruct I as [->|(g&->)]; exact Logic.I.
  - cbn [VarsBound.named_below]. pose proof (loaded_valid _ _ E) as V. rewrite Forall_forall in V. eapply Forall_impl; [|exact (V C I)]. exact lit_below.
Qed.
Lemma extras_adds l : VarsBound.extras (map CAdd l) = 0.
Proof. induction l as [|C l IH]; cbn [map VarsBound.extras VarsBound.extra]; [reflexivity|rewrite IH; reflexivity]. Qed.
Lemma extras_cli o chunks : VarsBound.extras (cli_calls o chunks) = 0.
Proof.
  unfold cli_calls, proof_calls. destruct (o_proof o) as [[f|b]|], (o_self_check o); cbn [app VarsBound.extras VarsBound.extra]; rewrite extras_adds; reflexivity.
Qed.

(** * What a solved run says *)
Section Solved.
Variables (fuel : nat) (pick : list N -> nat) (judge : list pevent -> verdict) (io : list N -> bool) (o : options) (chunks : list (list N)) (c0 c : ctx) (r : list answer).
Hypothesis Er : run_all fuel (cli_calls o chunks) (ctx_default pick judge io) = Ret (c0, r).
Lemma said_unsat : run fuel CSolve c0 = Ret (c, ASolved false) -> forall F, input chunks F -> ~ z_satisfiable F.
Proof.
  intros Es F (f&cls&Ef&Ec&->) (a&Ha). destruct (C28_unsat_clauses _ _ _ _ _ _ _ _ (no_hide_cli o chunks) Er Es) as [U _]. rewrite added_cli, assumed_cli in U.
  rewrite (loaded_ok _ _ Ef) in Ec. injection Ec as <-. pose proof (loaded_valid _ _ Ef) as V. eapply U; [apply (z_formula a _ V); exact Ha|]. intros x [].
Qed.
Lemma said_sat : run fuel CSolve c0 = Ret (c, ASolved true) -> forall f, Dimacs.parse chunks = inl f ->
  exists lits, get_model c = Ret (Some lits) /\ forall F, input chunks F -> z_model F (map lit_to_dimacs lits).
Proof.
  intros Es f Ef. destruct (C27_model_returned _ _ _ _ _ _ _ _ (covered_cli o chunks) Er Es) as (S&lits&Em&_). exists lits. split; [exact Em|].
  destruct (C27_model_clauses _ _ _ _ _ _ _ _ _ (no_hide_cli o chunks) Er Es Em) as (l'&El&Nd&M&_). injection El as <-. rewrite added_cli in M.
  intros F (f'&cls&Ef'&Ec&->). assert (f' = f) by congruence. subst f'. rewrite (loaded_ok _ _ Ef) in Ec. injection Ec as <-. pose proof (loaded_valid _ _ Ef) as V.
  assert (Vm : Forall (fun l => valid_lit l = true) lits).
  { pose proof (VarsBound.run_all_bnd max_count fuel _ 0 _ (VarsBound.default_bnd max_count pick judge io) (named_cli o chunks f Ef) _ Er) as B. cbn [fst] in B. rewrite extras_cli in B.
    pose proof (VarsBound.run_bnd max_count _ fuel CSolve c0 B Logic.I _ Es) as B2. cbn [fst VarsBound.extra] in B2.
    pose proof (P_Compact.get_model_below _ _ _ _ B2 Em) as L. eapply Forall_impl; [|exact L]. intros l Hl. apply below_lit. cbn beta in Hl. rewrite !N.add_0_r in Hl. exact Hl. }
  rewrite Forall_forall in Vm. split; [|split].
  - intros I. apply in_map_iff in I. destruct I as (l&Z0&Hl). pose proof (abs_var l (Vm l Hl)). rewrite Z0 in *. lia.
  - rewrite map_map. assert (K : forall l, In l lits -> Z.abs (lit_to_dimacs l) = Z.of_N (lit_var l + 1)) by (intros l Hl; apply abs_var, Vm; exact Hl). rewrite (map_ext_in _ _ _ K).
    rewrite <- (map_map lit_var (fun x => Z.of_N (x + 1))). apply VarsBound.nodup_map; [|exact Nd]. intros x y _ _. lia.
  - intros a Ha. apply (z_formula a _ V). intros C I. apply existsb_exists. destruct (M C I) as [(l&L1&L2)|(l&L1&L2)].
    + exists l. split; [exact L1|]. rewrite <- (z_lit a l (Vm l L2)). apply Ha. apply in_map. exact L2.
    + destruct (lit_holds (fun x => a (Z.of_N (x + 1))) l) eqn:T; [exists l; auto|]. exists (lnot l). split; [exact L2|]. rewrite lit_holds_lnot, T. reflexivity.
Qed.
End Solved.
Lemma model_sat F m : z_model F m -> z_satisfiable F.
Proof.
  intros (Z0&Nd&M). exists (fun x => existsb (Z.eqb x) m). apply M. intros z Hz. unfold z_true. destruct (0 <? z)%Z eqn:P.
  - apply existsb_exists. exists z. split; [exact Hz|apply Z.eqb_refl].
  - apply negb_true_iff. destruct (existsb _ m) eqn:X; [|reflexivity]. exfalso. apply existsb_exists in X. destruct X as (y&Hy&Ey). apply Z.eqb_eq in Ey. subst y.
    assert (z <> 0)%Z by (intros ->; contradiction). clear M Z0 P. induction m as [|w m IH]; [destruct Hz|]. cbn [map] in Nd. inversion Nd as [|x y N1 N2]; subst. destruct Hz as [->|Hz], Hy as [H2|H2].
    + lia.
    + apply N1. apply in_map_iff. exists (- z)%Z. split; [lia|exact H2].
    + apply N1. apply in_map_iff. exists z. split; [lia|exact Hz].
    + auto.
Qed.
Lemma input_of chunks f : Dimacs.parse chunks = inl f -> exists F, input chunks F.
Proof. intros E. eexists. exists f, (loaded chunks). split; [exact E|]. split; [apply loaded_ok; exact E|reflexivity]. Qed.

Lemma config_run fuel us pick judge io : exists c, run fuel (CConfig (merged us)) (ctx_default pick judge io) = Ret (c, AConfig (fst (update_apply (merged us) config_default))).
Proof.
  cbn [run]. pose proof (C38_update_never_panics (merged us) config_default C38_default_valid) as V. change (c_cfg (ctx_default pick judge io)) with config_default.
  destruct (update_apply (merged us) config_default) as [[] cfg]; cbn [fst snd] in *; [|eexists; reflexivity]. destruct V as (_&V&W). rewrite V, W. eexists. reflexivity.
Qed.
Lemma config_ok us : fst (update_apply (merged us) config_default) = true <-> settings_ok us.
Proof.
  rewrite C38_accepted_iff. unfold settings_ok, merged. split; intros H o v E; apply (H o v); [rewrite C38_merge_latest; cbn [latest]; rewrite E; reflexivity|].
  rewrite C38_merge_latest in E. cbn [latest] in E. destruct (latest o us); [exact E|]. destruct o; discriminate E.
Qed.
Lemma solve_answer fuel c c' a : run fuel CSolve c = Ret (c', a) -> (exists b, a = ASolved b) \/ exists e, a = AError e.
Proof.
  cbn [run]. unfold solve. destruct (st_invalid _); [discriminate|]. destruct (schedule_loop _ _ _) as [c1| |]; cbn [bind]; try discriminate. destruct (solve_finished c1) as [c2| |]; cbn [bind]; try discriminate.
  destruct (take_error c2) as [c3 [e|]]; intros E; injection E as _ <-; [eauto|]. destruct (st_sat (c_st c3)); eauto.
Qed.
Definition plain_options (o : options) : Prop := o_proof o = None /\ o_self_check o = false.
Lemma plain_calls o chunks : plain_options o -> forall k, In k (cli_calls o chunks ++ [CSolve]) -> match k with CAdd _ | CNewVar | CAssume _ | CSolve | CConfig _ => True | _ => False end.
Proof.
  intros [P1 P2] k I. apply in_app_or in I. destruct I as [I|[<-|[]]]; [|exact Logic.I]. apply cli_calls_in in I. destruct I as [(u&->)|[I|(C&_&->)]]; [exact Logic.I| |exact Logic.I].
  unfold proof_calls in I. rewrite P1, P2 in I. destruct I.
Qed.
Lemma not_plain o : ~ plain_options o -> o_proof o <> None \/ o_self_check o = true.
Proof. unfold plain_options. destruct (o_proof o), (o_self_check o); intuition congruence. Qed.

(** * The theorems *)
(** Whatever the options, the exit code and the output are right: code 10 comes with a model of the input in the format of the SAT
    competitions, code 20 with an unsatisfiable input, code 1 with invalid settings or an input that is not accepted, and nothing else is
    printed. *)
Theorem C47_exit : forall fuel pick judge io o chunks c code text,
  cli_solve fuel o chunks (ctx_default pick judge io) = Ret (c, (code, text)) ->
  (code = 10 /\ settings_ok (o_updates o) /\ exists F m, input chunks F /\ prints_model text m /\ z_model F m) \/
  (code = 20 /\ settings_ok (o_updates o) /\ text = line "s UNSATISFIABLE" /\ exists F, input chunks F /\ ~ z_satisfiable F) \/
  (code = 1 /\ text = [] /\ (~ settings_ok (o_updates o) \/ forall F, ~ input chunks F)) \/
  (code = 0 /\ settings_ok (o_updates o) /\ text = line "s UNKNOWN" /\ (exists F, input chunks F) /\ (o_proof o <> None \/ o_self_check o = true)).
Proof.
  intros fuel pick judge io o chunks c code text E. unfold cli_solve in E.
  destruct (main_with_err fuel o chunks _) as [[c1 [k t]]| |] eqn:Em; cbn [bind] in E; try discriminate.
  destruct (call_only fuel CCloseProof c1) as [c2| |]; cbn [bind] in E; try discriminate. injection E as _ <- <-.
  rewrite main_eq in Em. destruct (config_run fuel (o_updates o) pick judge io) as (d&Ed). pose proof (config_ok (o_updates o)) as Ok. rewrite Ed in Em. cbn [bind] in Em.
  destruct (fst (update_apply _ _)) eqn:Ec.
  2:{ injection Em as _ <- <-. right. right. left. split; [reflexivity|]. split; [reflexivity|]. left. intros H. apply Ok in H. congruence. }
  assert (V : settings_ok (o_updates o)) by (apply Ok; reflexivity).
  destruct (run_all fuel _ d) as [[d1 r]| |] eqn:Er; cbn [bind] in Em; try discriminate.
  assert (Ea : run_all fuel (cli_calls o chunks) (ctx_default pick judge io) = Ret (d1, AConfig true :: r)) by (unfold cli_calls; cbn [run_all]; rewrite Ed; cbn [bind]; rewrite Er; reflexivity).
  destruct (Dimacs.parse chunks) as [f|e] eqn:Ep.
  2:{ injection Em as _ <- <-. right. right. left. split; [reflexivity|]. split; [reflexivity|]. right. intros F (f&cls&E1&_). congruence. }
  destruct (run fuel CSolve d1) as [[d2 a]| |] eqn:Es; cbn [bind report] in Em; try discriminate. destruct (input_of _ _ Ep) as (F&HF).
  destruct (solve_answer _ _ _ _ Es) as [([]&->)|(e&->)].
  - destruct (said_sat _ _ _ _ _ _ _ _ _ Ea Es _ Ep) as (lits&El&M). rewrite El in Em. cbn [bind] in Em. injection Em as _ <- <-. left. split; [reflexivity|]. split; [exact V|].
    exists F, (map lit_to_dimacs lits). split; [exact HF|]. split; [apply prints|]. apply M. exact HF.
  - injection Em as _ <- <-. right. left. split; [reflexivity|]. split; [exact V|]. split; [reflexivity|]. exists F. split; [exact HF|]. exact (said_unsat _ _ _ _ _ _ _ _ _ Ea Es _ HF).
  - injection Em as _ <- <-. right. right. right. split; [reflexivity|]. split; [exact V|]. split; [reflexivity|]. split; [exists F; exact HF|]. apply not_plain. intros P.
    pose proof (C39_plain_use fuel pick judge io _ (plain_calls o chunks P)) as Q. rewrite run_all_snoc, Ea in Q. cbn [bind run_all] in Q. rewrite Es in Q. cbn [bind] in Q.
    apply (Q e). apply in_or_app. right. left. reflexivity.
Qed.
Print Assumptions C47_exit.

(** Without options for proofs the outcome is determined by the settings and the input: the only other ends are an exhausted clause
    allocator and a run that needs more steps than [fuel] allows. *)
Theorem C47_answer : forall fuel pick judge io o chunks, plain_options o ->
  match cli_solve fuel o chunks (ctx_default pick judge io) with
  | Ret (_, (code, _)) =>
      (code = 10 <-> settings_ok (o_updates o) /\ exists F, input chunks F /\ z_satisfiable F) /\
      (code = 20 <-> settings_ok (o_updates o) /\ exists F, input chunks F /\ ~ z_satisfiable F) /\
      (code = 1 <-> ~ settings_ok (o_updates o) \/ forall F, ~ input chunks F) /\
      (code = 10 \/ code = 20 \/ code = 1)
  | Panic p => p = PFull
  | NoFuel => True
  end.
Proof.
  intros fuel pick judge io o chunks P. destruct (cli_solve fuel o chunks _) as [[c [code text]]|p|] eqn:E; [|..|exact Logic.I].
  - assert (Un : forall F F', input chunks F -> input chunks F' -> F = F') by (intros F F' (f&cls&E1&E2&->) (f'&cls'&E3&E4&->); assert (f' = f) by congruence; subst; congruence).
    destruct (C47_exit _ _ _ _ _ _ _ _ _ E) as [(->&V&F&m&HF&_&M)|[(->&V&_&F&HF&Us)|[(->&_&W)|(_&_&_&_&[W|W])]]].
    + pose proof (model_sat _ _ M) as Sa. split; [split; eauto|]. split; [split; [discriminate|]; intros (_&F'&HF'&U); rewrite (Un _ _ HF HF') in Sa; contradiction|].
      split; [split; [discriminate|]; intros [H|H]; [contradiction|exfalso; exact (H _ HF)]|]. auto.
    + split; [split; [discriminate|]; intros (_&F'&HF'&Sa); rewrite (Un _ _ HF HF') in Us; contradiction|]. split; [split; eauto|].
      split; [split; [discriminate|]; intros [H|H]; [contradiction|exfalso; exact (H _ HF)]|]. auto.
    + split; [split; [discriminate|]; intros (V&F&HF&_); exfalso; destruct W as [W|W]; [auto|exact (W _ HF)]|]. split; [split; [discriminate|]; intros (V&F&HF&_); exfalso; destruct W as [W|W]; [auto|exact (W _ HF)]|].
      split; [split; auto|]. auto.
    + destruct P. contradiction.
    + destruct P. congruence.
  - assert (B : Forall SolverPlain.basic (cli_calls o chunks ++ [CSolve])) by (apply Forall_forall; exact (plain_calls o chunks P)).
    pose proof (SolverPlain.a_run_all fuel _ _ B (SolverPlain.default_calm pick judge io)) as A. pose proof (C39_plain_use fuel pick judge io _ (plain_calls o chunks P)) as Q.
    assert (A0 : SolverPlain.calm (ctx_default pick judge io)) by (apply SolverPlain.default_calm).
    assert (Cl : forall x, SolverPlain.calm x -> exists y, call_only fuel CCloseProof x = Ret y).
    { intros x Cx. unfold call_only. cbn [run]. unfold close_proof. assert (Ea : add_step true End x = Ret x) by (unfold add_step; rewrite (SolverPlain.ca_error _ Cx); unfold p_active; rewrite (SolverPlain.ca_format _ Cx), (SolverPlain.ca_checker _ Cx); reflexivity).
      assert (Ef : flush_proof x = x) by (unfold flush_proof; rewrite (SolverPlain.ca_format _ Cx); reflexivity). rewrite Ea. cbn [bind]. rewrite Ef. unfold take_error. cbn [c_st cw_pf]. rewrite (SolverPlain.ca_error _ Cx). eexists. reflexivity. }
    unfold cli_solve in E. rewrite main_eq in E. destruct (config_run fuel (o_updates o) pick judge io) as (d&Ed). rewrite Ed in E. cbn [bind] in E.
    pose proof (SolverPlain.a_run fuel (CConfig (merged (o_updates o))) _ Logic.I A0) as Ad. rewrite Ed in Ad. cbn [SolverPlain.calms3] in Ad. destruct Ad as [Ad _].
    destruct (fst (update_apply _ _)).
    2:{ cbn [bind] in E. destruct (Cl d Ad) as (y&Ey). rewrite Ey in E. discriminate. }
    rewrite run_all_snoc in A, Q. unfold cli_calls in A, Q. cbn [run_all] in A, Q. rewrite Ed in A, Q. cbn [bind] in A, Q.
    assert (B1 : Forall SolverPlain.basic (proof_calls o ++ map CAdd (loaded chunks))) by (apply Forall_app in B; destruct B as [B _]; unfold cli_calls in B; inversion B; assumption).
    pose proof (SolverPlain.a_run_all fuel _ _ B1 Ad) as A1.
    destruct (run_all fuel (proof_calls o ++ _) d) as [[d1 r]| |] eqn:Er; cbn [bind] in E, A, Q; [|congruence|discriminate]. destruct A1 as [A1 _].
    assert (Ea : run_all fuel (cli_calls o chunks) (ctx_default pick judge io) = Ret (d1, AConfig true :: r)) by (unfold cli_calls; cbn [run_all]; rewrite Ed; cbn [bind]; rewrite Er; reflexivity).
    destruct (Dimacs.parse chunks) as [f|e] eqn:Ep; cbn [bind] in E.
    2:{ destruct (Cl d1 A1) as (y&Ey). rewrite Ey in E. discriminate. }
    destruct (run fuel CSolve d1) as [[d2 a]| |] eqn:Es; cbn [bind report] in E, A, Q; [|congruence|discriminate]. destruct A as [A _].
    destruct (solve_answer _ _ _ _ Es) as [([]&->)|(e&->)].
    + destruct (said_sat _ _ _ _ _ _ _ _ _ Ea Es _ Ep) as (lits&El&M). rewrite El in E. cbn [bind] in E. destruct (Cl d2 A) as (y&Ey). rewrite Ey in E. discriminate.
    + cbn [bind] in E. destruct (Cl d2 A) as (y&Ey). rewrite Ey in E. discriminate.
    + cbn [bind] in E. destruct (Cl d2 A) as (y&Ey). rewrite Ey in E. discriminate.
Qed.
Print Assumptions C47_answer.

(** In terms of the text of the input: a text that a reader who knows the format accepts, unless it ends in a lone minus sign *)
Theorem C47_text : forall chunks, ~ DimacsSpec.dangling_minus (concat chunks) -> forall F, input chunks F <->
  exists h cls, DimacsSpec.ref_parse (concat chunks) = Some (h, cls) /\ DimacsSpec.hdr_ok h cls = true /\ F = map (map lit_to_dimacs) cls.
Proof.
  intros chunks D F. pose proof (P_Dimacs.C07_reference_partial chunks D) as H. unfold input. destruct (Dimacs.parse chunks) as [f|e].
  - destruct H as (h&cls&R&O&I&_). split.
    + intros (f'&cls'&E1&E2&->). injection E1 as <-. exists h, cls. split; [exact R|]. split; [exact O|]. congruence.
    + intros (h'&cls'&E1&_&->). exists f, cls. split; [reflexivity|]. split; [exact I|]. congruence.
  - split; [intros (f'&cls'&E1&_); discriminate|]. intros (h'&cls'&E1&E2&_). rewrite E1 in H. congruence.
Qed.
Print Assumptions C47_text.

(** Cases: an input in two chunks with its output, an unsatisfiable one, an input with a wrong header, and invalid settings *)
Example C47_case : let run_cli o chunks := match cli_solve 300 o chunks plain_ctx with Ret (_, r) => Some r | _ => None end in
  run_cli (Options [] None false) [bytes "p cnf 3 2" ++ [10] ++ bytes "1 -"; bytes "2 0 -1 3 0"] = Some (10, line "s SATISFIABLE" ++ line "v -1 -2 -3 0") /\
  run_cli (Options [] None false) [bytes "1 0 -1 0"] = Some (20, line "s UNSATISFIABLE") /\
  run_cli (Options [] None false) [bytes "p cnf 1 2" ++ [10] ++ bytes "1 0"] = Some (1, []) /\
  run_cli (Options [Update None None (Some 0) None None] None false) [bytes "1 0"] = Some (1, []) /\
  run_cli (Options [] (Some (ToFile FVarisat)) false) [bytes "1 0"] = Some (10, line "s SATISFIABLE" ++ line "v 1 0").
Proof. vm_compute. repeat split; reflexivity. Qed.
