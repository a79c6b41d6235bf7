(** C46: the solver hands out small variable numbers. *)
From Coq Require Import List NArith Bool Lia Arith ZArith ZifyBool ZifyNat ZifyN.
From Verif Require Import Spec Lit LitProofs BinFormat Hash F32 Vsids VsidsProofs Luby Config Search SearchBase ClauseDb
  Analyze SolverCtx CtxFrame VarsProofs Solver P_Vars VarsBound.
From Verif Require SolverInv.
Import ListNotations.
Local Open Scope N_scope.

(** The variables in an answer are below [n]. *)
Definition answer_below (n : N) (a : answer) : Prop :=
  match a with AVar u => u < n | AVars l => Forall (fun u => u < n) l | _ => True end.

Lemma bnd_user n h v u g : bnd n h v -> v_gu v u = Some g -> u < n + h.
Proof. intros B E. pose proof (vo_u _ (bd_ok _ _ _ B) _ _ E). pose proof (bd_u _ _ _ B). pose proof (bd_g _ _ _ B). lia. Qed.
Lemma answer_more n n' a : n <= n' -> answer_below n a -> answer_below n' a.
Proof. intros L. destruct a; cbn [answer_below]; auto; [lia|]. apply Forall_impl. intros u. lia. Qed.

Lemma run_answer n h fuel k c c' a : bnd n h (c_v c) -> named_below n k -> run fuel k c = Ret (c', a) -> answer_below (n + (h + extra k)) a.
Proof.
  intros B K E. pose proof (run_bnd n h fuel k c B K _ E) as B'. cbn [fst] in B'. pose proof (bd_ok _ _ _ B) as OK.
  destruct k; cbn [run] in E.
  - destruct (load_clause clause c); [|discriminate..]. injection E as _ <-. exact Logic.I.
  - destruct (new_user_var (set_empty c false)) as [[c1 u]| |] eqn:E1; [|discriminate..]. injection E as -> <-. cbn [answer_below].
    pose proof (new_var_post (set_empty c false) OK _ E1) as (_ & _ & (g & G & _) & _). exact (bnd_user _ _ _ _ _ B' G).
  - destruct (change_mode v Witness c); [|discriminate..]. injection E as _ <-. exact Logic.I.
  - destruct (change_mode v Sample c); [|discriminate..]. injection E as _ <-. exact Logic.I.
  - destruct (change_mode v Hide c); [|discriminate..]. injection E as _ <-. exact Logic.I.
  - destruct (observe_internal_vars c) as [[c1 l]| |] eqn:E1; [|discriminate..]. injection E as -> <-. cbn [answer_below].
    unfold observe_internal_vars in E1. pose proof (spec_get _ _ _ (observe_loop_spec _ _ _ OK) E1) as (_ & _ & A & _).
    apply Forall_forall. intros u I. destruct (A u I) as (_ & g & G & _). exact (bnd_user _ _ _ _ _ B' G).
  - destruct (set_assumptions lits c); [|discriminate..]. injection E as _ <-. exact Logic.I.
  - unfold solve in E. cbv zeta in E. destruct (st_invalid _); [discriminate|]. destruct (schedule_loop _ _ _) as [c1| |]; [|discriminate..]. cbn [bind] in E.
    destruct (solve_finished c1) as [c2| |]; [|discriminate..]. cbn [bind] in E. destruct (take_error c2) as [c3 [e|]]; [injection E as _ <-; exact Logic.I|].
    destruct (st_sat (c_st c3)); injection E as _ <-; exact Logic.I.
  - destruct (st_empty (c_st c)); [|discriminate]. injection E as _ <-. exact Logic.I.
  - destruct (close_proof c) as [c1| |]; [|discriminate..]. cbn [bind] in E. destruct (take_error c1) as [c2 [e|]]; injection E as _ <-; exact Logic.I.
  - destruct (st_empty (c_st c)); [|discriminate]. injection E as _ <-. exact Logic.I.
  - destruct (update_apply u (c_cfg c)) as [ok cfg]. destruct ok; [|injection E as _ <-; exact Logic.I].
    destruct (set_decay_ok _ && set_decay_ok _); [|discriminate]. injection E as _ <-. exact Logic.I.
Qed.
Lemma run_all_answers n fuel ks : forall h c c' r, bnd n h (c_v c) -> Forall (named_below n) ks -> run_all fuel ks c = Ret (c', r) -> Forall (answer_below (n + (h + extras ks))) r.
Proof.
  induction ks as [|k ks IH]; intros h c c' r B H E; cbn [run_all extras] in *; [injection E as _ <-; constructor|].
  inversion H as [|k0 ks0 H1 H2]; subst. destruct (run fuel k c) as [[c1 a]| |] eqn:E1; [|discriminate..]. cbn [bind] in E.
  destruct (run_all fuel ks c1) as [[c2 r2]| |] eqn:E2; [|discriminate..]. injection E as <- <-. pose proof (run_bnd n h fuel k c B H1 _ E1) as B1. cbn [fst] in B1.
  constructor.
  - eapply answer_more; [|exact (run_answer _ _ _ _ _ _ _ B H1 E1)]. lia.
  - pose proof (IH _ _ _ _ B1 H2 E2) as F. eapply Forall_impl; [|exact F]. intros a0. apply answer_more. lia.
Qed.
Lemma model_below c us : forall m, model_lits c us = Ret m -> forall l, In l m -> exists g, v_gu (c_v c) (lit_var l) = Some g.
Proof.
  induction us as [|u us IH]; intros m E l I; cbn [model_lits] in E; [injection E as <-; destruct I|].
  destruct (v_gu (c_v c) u) as [g|] eqn:G; [|exact (IH m E l I)]. destruct (nth_error (c_model c) (N.to_nat g)) as [x|]; [|discriminate].
  destruct (model_lits c us) as [r| |]; [|discriminate..]. injection E as <-. specialize (IH r eq_refl l).
  destruct x as [b|]; [|exact (IH I)]. destruct I as [<-|I]; [|exact (IH I)]. exists g. rewrite SolverInv.lo_var. exact G.
Qed.
Lemma get_model_below n h c m : bnd n h (c_v c) -> get_model c = Ret (Some m) -> Forall (fun l => lit_var l < n + h) m.
Proof.
  intros B E. unfold get_model in E. destruct (st_sat (c_st c)); try discriminate.
  destruct (model_lits c _) as [r| |] eqn:Em; [|discriminate..]. injection E as <-. apply Forall_forall. intros l I.
  destruct (model_below _ _ _ Em l I) as (g & G). exact (bnd_user _ _ _ _ _ B G).
Qed.

(** If the calls name variables below [n] only and [h] of them hide a variable or ask for a new one then every variable that is handed out, by
    [new_var], by [observe_internal_vars] or in a model, is below [n + h]: numbers of hidden variables are used again. *)
Theorem C46_numbers : forall fuel pick judge io ks c answers n, Forall (named_below n) ks ->
  run_all fuel ks (ctx_default pick judge io) = Ret (c, answers) ->
  let h := N.of_nat (length (filter (fun k => match k with CHide _ | CNewVar => true | _ => false end) ks)) in
  Forall (answer_below (n + h)) answers /\ forall m, get_model c = Ret (Some m) -> Forall (fun l => lit_var l < n + h) m.
Proof.
  intros fuel pick judge io ks c answers n H E h.
  assert (Eh : h = extras ks).
  { unfold h. clear. induction ks as [|k ks IH]; cbn [filter extras]; [reflexivity|]. destruct k; cbn [extra length]; lia. }
  split; [rewrite Eh, <- (N.add_0_l (extras ks)); exact (run_all_answers n _ _ _ _ _ _ (default_bnd n pick judge io) H E)|].
  intros m. rewrite Eh. apply get_model_below. exact (run_all_bnd n fuel ks 0 _ (default_bnd n pick judge io) H _ E).
Qed.
Print Assumptions C46_numbers.

(** The bound is reached: three names and two more variables *)
Example C46_case :
  let ks := [CAdd [0; 4]; CHide 1; CNewVar; CHide 0; CAdd [0]; CObserve; CNewVar; CSolve] in
  Forall (named_below 3) ks /\
  (match run_all 50 ks (ctx_default (fun _ => 0%nat) (fun _ => VOk) (fun _ => false)) with
   | Ret (c, r) => (r, match get_model c with Ret (Some m) => m | _ => [] end) | _ => ([], []) end)
    = ([ANone; ANone; AVar 1; ANone; ANone; AVars [3]; AVar 4; ASolved true], [0; 3; 4; 7; 9]).
Proof.
  intros ks. split; [|vm_compute; reflexivity].
  unfold ks. repeat (apply Forall_cons; [cbn [named_below]; first [exact Logic.I|reflexivity|repeat (apply Forall_cons; [reflexivity|]); apply Forall_nil]|]). apply Forall_nil.
Qed.
