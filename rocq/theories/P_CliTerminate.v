(** C50 for the command line solver. *)
From Coq Require Import Lia Arith PeanoNat ZArith String ZifyBool ZifyNat ZifyN.
From Verif Require Import Spec Lit LitProofs BinFormat Hash HashProofs F32 Vsids VsidsProofs VsidsWf Luby Config P_Config Search SearchBase Propagate P_Search ClauseDb DbProofs
  Analyze AnalyzeProofs Rup AnalyzeHints P_Hints SolverCtx CtxFrame VarsProofs Solver SolverInv SolverSimplify SolverAdd SolverLoad SolverFailed FailedHints SolverSearch SolverSolve CtxEvents P_Solver Cli P_Cli.
From Verif Require Cnf Dimacs VarsBound Terminate TerminateLoop P_Terminate.
Import Terminate.
Local Open Scope N_scope.

Lemma run_all_ends fuel : forall ks c, ~ In CSolve ks -> ends (run_all fuel ks c).
Proof.
  induction ks as [|k ks IH]; intros c H; cbn [run_all]; [discriminate|]. apply ends_bind; [apply P_Terminate.C50_calls; intros ->; apply H; left; reflexivity|].
  intros [c1 a] _. apply ends_bind; [apply IH; intros I; apply H; right; exact I|]. intros [c2 r] _. discriminate.
Qed.
Lemma get_model_ends c : ends (get_model c).
Proof.
  unfold get_model. destruct (st_sat _); try discriminate. apply ends_bind; [|intros l _; discriminate]. generalize (codes (N.to_nat (v_ulen (c_v c))) 0).
  induction l as [|u l IH]; cbn [model_lits]; [discriminate|]. destruct (v_gu (c_v c) u); [|exact IH]. destruct (nth_error _ _); [|discriminate]. apply ends_bind; [exact IH|]. intros r _. discriminate.
Qed.
Lemma report_ends r : ends (report r).
Proof.
  destruct r as [c [|[]| | | |]]; try discriminate. apply ends_bind; [apply get_model_ends|]. intros [m|] _; discriminate.
Qed.
Lemma no_solve_cli o chunks : ~ In CSolve (cli_calls o chunks).
Proof. intros I. apply cli_calls_in in I. destruct I as [(u&E)|[I|(C&_&E)]]; [discriminate| |discriminate]. apply proof_calls_in in I. destruct I as [E|(f&E)]; discriminate. Qed.
Lemma cli_ends fuel o chunks c : (forall f, Dimacs.parse chunks = inl f -> run_all fuel (cli_calls o chunks ++ [CSolve]) c <> NoFuel) -> ends (cli_solve fuel o chunks c).
Proof.
  intros H. unfold cli_solve. apply ends_bind.
  2: { intros [c1 r] _. apply ends_bind; [|intros c2 _; discriminate]. apply ends_bind; [apply P_Terminate.C50_calls; discriminate|]. intros [c2 a] _. discriminate. }
  rewrite main_eq. apply ends_bind; [apply P_Terminate.C50_calls; discriminate|]. intros [c1 a] E1.
  assert (X : ends (do (c, _) <- run_all fuel (proof_calls o ++ map CAdd (loaded chunks)) c1 ;
         match Dimacs.parse chunks with inr _ => Ret (c, (1, [])) | inl _ => do r <- run fuel CSolve c ; report r end)).
  2: { destruct a as [| | | | |[|]]; first [exact X|discriminate]. }
  apply ends_bind; [apply run_all_ends; intros I; apply (no_solve_cli o chunks); right; exact I|]. intros [c2 r] E2.
  destruct (Dimacs.parse chunks) as [f|e] eqn:Ef; [|discriminate]. apply ends_bind; [|intros x _; apply report_ends].
  intros E3. apply (H f eq_refl). rewrite P_Terminate.run_all_last. unfold cli_calls. cbn [run_all]. rewrite E1. cbn [bind]. rewrite E2. cbn [bind]. rewrite E3. reflexivity.
Qed.

(** The tool ends if the input is not accepted or has no variable above 62, with all options.
    Partial: see [C50_solve_partial]. *)
Theorem C50_tool_partial : forall pick judge io o chunks,
  (forall F C z, input chunks F -> In C F -> In z C -> (Z.abs z <= 62)%Z) ->
  exists fuel, forall fuel', (fuel <= fuel')%nat -> cli_solve fuel' o chunks (ctx_default pick judge io) <> NoFuel.
Proof.
  intros pick judge io o chunks H. destruct (Dimacs.parse chunks) as [f|e] eqn:Ef; [|exists 0%nat; intros fuel' _; apply cli_ends; intros f E; congruence].
  destruct (P_Terminate.C50_history_partial pick judge io (cli_calls o chunks ++ [CSolve]) 62) as (fuel & r & R & M).
  - apply Forall_app. split; [|repeat constructor]. apply Forall_forall. intros k I. apply cli_calls_in in I. destruct I as [(u&->)|[I|(C&I&->)]]; [exact Logic.I| |].
    + apply proof_calls_in in I. destruct I as [->|(g&->)]; exact Logic.I.
    + cbn [VarsBound.named_below]. apply Forall_forall. intros l Il. pose proof (loaded_valid _ _ Ef) as V. rewrite Forall_forall in V. specialize (V C I). rewrite Forall_forall in V. specialize (V l Il).
      assert (Z : (Z.abs (lit_to_dimacs l) <= 62)%Z).
      { eapply (H (map (map lit_to_dimacs) (loaded chunks))); [exists f, (loaded chunks); split; [exact Ef|]; split; [exact (loaded_ok _ _ Ef)|reflexivity]|apply in_map; exact I|apply in_map; exact Il]. }
      rewrite (lit_to_dimacs_val l V) in Z. rewrite lit_var_div. rewrite N.div2_div in Z. destruct (N.odd l); lia.
  - pose proof (extras_cli o chunks) as Ex. assert (X : filter (fun k => match k with CHide _ | CNewVar => true | _ => false end) (cli_calls o chunks ++ [CSolve]) = []); [|rewrite X; cbn; lia].
    rewrite filter_app. cbn [filter]. rewrite app_nil_r. assert (Y : forall k, In k (cli_calls o chunks) -> match k with CHide _ | CNewVar => true | _ => false end = false).
    { intros k I. apply cli_calls_in in I. destruct I as [(u&->)|[I|(C&I&->)]]; [reflexivity| |reflexivity]. apply proof_calls_in in I. destruct I as [->|(g&->)]; reflexivity. }
    clear - Y. induction (cli_calls o chunks) as [|k ks IH]; [reflexivity|]. cbn [filter]. rewrite (Y k (or_introl eq_refl)). apply IH. intros k' I. apply Y. right. exact I.
  - exists fuel. intros fuel' L. apply cli_ends. intros f' _. rewrite (M fuel' L). exact R.
Qed.

(** Without proof options the tool decides every such input: exit code 10 if it is satisfiable, 20 if not, unless the clause allocator is full. *)
Theorem C50_tool_decides_partial : forall pick judge io o chunks F, plain_options o -> settings_ok (o_updates o) -> input chunks F ->
  (forall C z, In C F -> In z C -> (Z.abs z <= 62)%Z) ->
  exists fuel, forall fuel', (fuel <= fuel')%nat ->
    cli_solve fuel' o chunks (ctx_default pick judge io) = Panic PFull \/
    exists c code text, cli_solve fuel' o chunks (ctx_default pick judge io) = Ret (c, (code, text)) /\
      (z_satisfiable F /\ code = 10 \/ ~ z_satisfiable F /\ code = 20).
Proof.
  intros pick judge io o chunks F Po So In1 H.
  assert (Un : forall F', input chunks F' -> F' = F) by (intros F' (f'&cls'&E3&E4&->); destruct In1 as (f&cls&E1&E2&->); assert (f' = f) by congruence; subst; congruence).
  destruct (C50_tool_partial pick judge io o chunks) as (fuel & M).
  { intros F' C z I. rewrite (Un F' I). apply H. }
  exists fuel. intros fuel' L. specialize (M fuel' L). pose proof (C47_answer fuel' pick judge io o chunks Po) as Q.
  destruct (cli_solve fuel' o chunks (ctx_default pick judge io)) as [[c [code text]]|p|]; [|left; congruence|contradiction].
  right. exists c, code, text. split; [reflexivity|]. destruct Q as (Q1 & Q2 & Q3 & [->|[->| ->]]).
  - left. destruct (proj1 Q1 eq_refl) as (_ & F' & I & Sa). rewrite (Un _ I) in Sa. auto.
  - right. destruct (proj1 Q2 eq_refl) as (_ & F' & I & Sa). rewrite (Un _ I) in Sa. auto.
  - exfalso. destruct (proj1 Q3 eq_refl) as [X|X]; [exact (X So)|exact (X F In1)].
Qed.
Print Assumptions C50_tool_partial.
Print Assumptions C50_tool_decides_partial.

(** An accepted input within the bound *)
Example C50_tool_case : exists F, input [bytes "p cnf 3 4" ++ [10] ++ bytes "1 -"; bytes "2 0 -1 3 0 2 0 -3 0"] F /\ plain_options (Options [] None false) /\ settings_ok [] /\
  F = [[1; -2]; [-1; 3]; [2]; [-3]]%Z /\ (forall C z, In C F -> In z C -> (Z.abs z <= 62)%Z).
Proof.
  eexists. split; [|split; [repeat split|split; [|split]]].
  - eexists _, _. split; [vm_compute; reflexivity|]. split; [vm_compute; reflexivity|reflexivity].
  - intros o v E. destruct o; discriminate.
  - vm_compute. reflexivity.
  - intros C z I J. vm_compute in I. repeat (destruct I as [<-|I]; [repeat (destruct J as [<-|J]; [cbn; lia|]); destruct J|]). destruct I.
Qed.
