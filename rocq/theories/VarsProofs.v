(** The invariant of the variable maps, and what each operation on them does. *)
From Coq Require Import Lia Arith ZArith ZifyBool ZifyNat ZifyN.
From Verif Require Import Spec Lit LitProofs BinFormat Hash F32 Vsids VsidsProofs Luby Config Search SearchBase ClauseDb
  Analyze SolverCtx CtxFrame.
Local Open Scope N_scope.

Record vars_ok (v : vars) : Prop := {
  vo_ug : forall u g, v_gu v u = Some g <-> v_ug v g = Some u;
  vo_sg : forall g x, v_sg v g = Some x <-> v_gs v x = Some g;
  vo_u : forall u g, v_gu v u = Some g -> u < v_ulen v;
  vo_ufree : forall u, In u (v_ufree v) <-> u < v_ulen v /\ v_gu v u = None;
  vo_x : forall x g, v_gs v x = Some g -> x < v_slen v;
  vo_sfree : forall x, In x (v_sfree v) <-> x < v_slen v /\ v_gs v x = None;
  vo_g : forall g, vd_deleted (v_data v g) = false -> g < v_glen v;
  vo_gfree : forall g, In g (v_gfree v) -> vd_deleted (v_data v g) = true;
  vo_named : forall g u, v_ug v g = Some u -> vd_deleted (v_data v g) = false;
  vo_used : forall g x, v_sg v g = Some x -> vd_deleted (v_data v g) = false;
  vo_mode : forall g, vd_deleted (v_data v g) = false -> (v_ug v g = None <-> vd_mode (v_data v g) = Hide) }.

Lemma vars_default_ok p : vars_ok (vars_default p).
Proof. constructor; cbn; try discriminate; intros; try tauto; try (split; [discriminate|discriminate]);
  try (split; [tauto|lia]). Qed.

Lemma in_remove_n x y l : In x (remove_n y l) <-> In x l /\ x <> y.
Proof. unfold remove_n. rewrite filter_In. destruct (N.eqb_spec x y); cbn [negb]; intuition congruence. Qed.
Lemma in_insert_n x y l : In x (insert_n y l) <-> x = y \/ In x l.
Proof.
  unfold insert_n. cbn [In]. rewrite in_remove_n. destruct (N.eq_dec x y) as [->|NE]; intuition congruence.
Qed.

Lemma pick_in v l x : pick v l = Some x -> In x l.
Proof.
  unfold pick. destruct l as [|y l]; [discriminate|]. intros E.
  assert (E' : nth (Nat.modulo (v_pick v (y :: l)) (length (y :: l))) (y :: l) 0 = x) by congruence.
  rewrite <- E'. apply nth_In. apply Nat.mod_upper_bound. discriminate.
Qed.
Lemma pick_none v l : pick v l = None -> l = [].
Proof. unfold pick. destruct l; [auto|discriminate]. Qed.

(** The result of the operations *)
Definition fresh_global (v : vars) (user : N) : N :=
  if user <? v_glen v then if vd_deleted (v_data v user) then user else next_global v else user.
Definition v_add (v : vars) (user global : N) : vars :=
  Vars (upd (v_gu v) user (Some global)) (N.max (v_ulen v) (user + 1)) (upd (v_ug v) global (Some user))
       (v_sg v) (v_gs v) (v_slen v) (remove_n user (v_ufree v)) (remove_n global (v_gfree v)) (v_sfree v)
       (upd (v_data v) global vdata_user) (N.max (v_glen v) (global + 1)) (v_pick v).
Definition v_use (v : vars) (global solver : N) : vars :=
  Vars (v_gu v) (v_ulen v) (v_ug v) (upd (v_sg v) global (Some solver))
       (upd (v_gs v) solver (Some global)) (N.max (v_slen v) (solver + 1))
       (v_ufree v) (v_gfree v) (remove_n solver (v_sfree v)) (v_data v) (v_glen v) (v_pick v).
Definition v_unuse (v : vars) (solver global : N) : vars :=
  Vars (v_gu v) (v_ulen v) (v_ug v) (upd (v_sg v) global None) (upd (v_gs v) solver None)
       (v_slen v) (v_ufree v) (v_gfree v) (insert_n solver (v_sfree v)) (v_data v) (v_glen v) (v_pick v).
Definition v_drop (v : vars) (global : N) : vars :=
  Vars (v_gu v) (v_ulen v) (v_ug v) (v_sg v) (v_gs v) (v_slen v) (v_ufree v) (insert_n global (v_gfree v))
       (v_sfree v) (upd (v_data v) global (vd_set_deleted (v_data v global) true)) (v_glen v) (v_pick v).
Definition v_put (v : vars) (global : N) (d : vdata) : vars := set_data v (upd (v_data v) global d).
Definition v_hide (v : vars) (user global : N) : vars :=
  Vars (upd (v_gu v) user None) (v_ulen v) (upd (v_ug v) global None) (v_sg v) (v_gs v)
       (v_slen v) (insert_n user (v_ufree v)) (v_gfree v) (v_sfree v)
       (upd (v_data v) global (vd_set_mode (v_data v global) Hide)) (v_glen v) (v_pick v).
Definition v_show (v : vars) (user global : N) (m : smode) : vars :=
  bind_user (v_put v global (vd_set_mode (v_data v global) m)) user global.

Lemma next_user_free v : vars_ok v -> v_gu v (next_user v) = None /\ next_user v <= v_ulen v.
Proof.
  intros K. unfold next_user. destruct (pick v (v_ufree v)) as [x|] eqn:E.
  - apply pick_in, (vo_ufree _ K) in E. split; [apply E|lia].
  - split; [|lia]. destruct (v_gu v (v_ulen v)) as [g|] eqn:G; [|reflexivity]. apply (vo_u _ K) in G. lia.
Qed.
Lemma next_solver_free v : vars_ok v -> v_gs v (next_solver v) = None /\ next_solver v <= v_slen v.
Proof.
  intros K. unfold next_solver. destruct (pick v (v_sfree v)) as [x|] eqn:E.
  - apply pick_in, (vo_sfree _ K) in E. split; [apply E|lia].
  - split; [|lia]. destruct (v_gs v (v_slen v)) as [g|] eqn:G; [|reflexivity]. apply (vo_x _ K) in G. lia.
Qed.
Lemma fresh_global_deleted v user : vars_ok v -> vd_deleted (v_data v (fresh_global v user)) = true.
Proof.
  intros K. unfold fresh_global. destruct (N.ltb_spec user (v_glen v)) as [L|L].
  - destruct (vd_deleted (v_data v user)) eqn:D; [exact D|].
    unfold next_global. destruct (pick v (v_gfree v)) as [x|] eqn:E.
    + apply pick_in in E. exact (vo_gfree _ K _ E).
    + destruct (vd_deleted (v_data v (v_glen v))) eqn:G; [reflexivity|]. apply (vo_g _ K) in G. lia.
  - destruct (vd_deleted (v_data v user)) eqn:D; [reflexivity|]. apply (vo_g _ K) in D. lia.
Qed.

Ltac updc := unfold upd in *; repeat match goal with
  | |- context [?a =? ?b] => destruct (N.eqb_spec a b); subst
  | H : context [?a =? ?b] |- _ => destruct (N.eqb_spec a b); subst
  end.

Lemma v_add_ok v user global : vars_ok v -> v_gu v user = None -> user <= v_ulen v ->
  vd_deleted (v_data v global) = true -> vars_ok (v_add v user global).
Proof.
  intros K U L D.
  assert (UG : v_ug v global = None).
  { destruct (v_ug v global) as [u|] eqn:E; [|reflexivity]. apply (vo_named _ K) in E. congruence. }
  assert (SG : v_sg v global = None).
  { destruct (v_sg v global) as [u|] eqn:E; [|reflexivity]. apply (vo_used _ K) in E. congruence. }
  constructor; unfold v_add; cbn [v_gu v_ulen v_ug v_sg v_gs v_slen v_ufree v_gfree v_sfree v_data v_glen v_pick].
  - intros u g. pose proof (vo_ug _ K u g). pose proof (vo_ug _ K user g). pose proof (vo_ug _ K u global). updc; intuition congruence.
  - apply (vo_sg _ K).
  - intros u g. updc; [lia|]. intros H. apply (vo_u _ K) in H. lia.
  - intros u. rewrite in_remove_n, (vo_ufree _ K). updc.
    + split; [intuition|intros [_ H]; discriminate].
    + split; [intros [[A B] _]; split; [lia|exact B]|]. intros [A B]. split; [|assumption]. split; [|exact B]. lia.
  - apply (vo_x _ K).
  - apply (vo_sfree _ K).
  - intros g. updc; [lia|]. intros H. apply (vo_g _ K) in H. lia.
  - intros g. rewrite in_remove_n. intros [A B]. updc; [congruence|]. exact (vo_gfree _ K _ A).
  - intros g u. updc; [reflexivity|]. apply (vo_named _ K).
  - intros g x. updc; [reflexivity|]. apply (vo_used _ K).
  - intros g. updc; [cbn; intuition discriminate|]. apply (vo_mode _ K).
Qed.

Lemma v_use_ok v global : vars_ok v -> v_sg v global = None -> vd_deleted (v_data v global) = false ->
  vars_ok (v_use v global (next_solver v)).
Proof.
  intros K S D. destruct (next_solver_free v K) as [F L]. set (x := next_solver v) in *.
  constructor; unfold v_use; cbn [v_gu v_ulen v_ug v_sg v_gs v_slen v_ufree v_gfree v_sfree v_data v_glen v_pick];
    try apply K.
  - intros g y. pose proof (vo_sg _ K g y). pose proof (vo_sg _ K global y). pose proof (vo_sg _ K g x). updc; intuition congruence.
  - intros y g. updc; [lia|]. intros H. apply (vo_x _ K) in H. lia.
  - intros y. rewrite in_remove_n, (vo_sfree _ K). updc.
    + split; [intuition|intros [_ H]; discriminate].
    + split; [intros [[A B] _]; split; [lia|exact B]|]. intros [A B]. split; [|assumption]. split; [|exact B]. lia.
  - intros g y. updc; [intros _; exact D|]. apply (vo_used _ K).
Qed.

Lemma v_unuse_ok v solver global : vars_ok v -> v_gs v solver = Some global -> vars_ok (v_unuse v solver global).
Proof.
  intros K S.
  constructor; unfold v_unuse; cbn [v_gu v_ulen v_ug v_sg v_gs v_slen v_ufree v_gfree v_sfree v_data v_glen v_pick];
    try apply K.
  - intros g y. pose proof (vo_sg _ K g y). pose proof (vo_sg _ K global y). pose proof (vo_sg _ K g solver). updc; intuition congruence.
  - intros y g. updc; [discriminate|]. apply (vo_x _ K).
  - intros y. rewrite in_insert_n, (vo_sfree _ K). updc; [|intuition congruence].
    pose proof (vo_x _ K _ _ S). intuition.
  - intros g y. updc; [discriminate|]. apply (vo_used _ K).
Qed.

Lemma v_drop_ok v global : vars_ok v -> v_ug v global = None -> v_sg v global = None -> vars_ok (v_drop v global).
Proof.
  intros K U S.
  constructor; unfold v_drop; cbn [v_gu v_ulen v_ug v_sg v_gs v_slen v_ufree v_gfree v_sfree v_data v_glen v_pick];
    try apply K.
  - intros g. updc; [discriminate|]. apply (vo_g _ K).
  - intros g. rewrite in_insert_n. updc; [reflexivity|]. intros [?|H]; [congruence|]. exact (vo_gfree _ K _ H).
  - intros g u. updc; [congruence|]. apply (vo_named _ K).
  - intros g u. updc; [congruence|]. apply (vo_used _ K).
  - intros g. updc; [discriminate|]. apply (vo_mode _ K).
Qed.

Lemma v_put_ok v global d : vars_ok v -> vd_deleted d = vd_deleted (v_data v global) ->
  (vd_deleted d = false -> (vd_mode d = Hide <-> vd_mode (v_data v global) = Hide)) -> vars_ok (v_put v global d).
Proof.
  intros K D M.
  constructor; unfold v_put, set_data; cbn [v_gu v_ulen v_ug v_sg v_gs v_slen v_ufree v_gfree v_sfree v_data v_glen v_pick];
    try apply K.
  - intros g. updc; [rewrite D|]; apply (vo_g _ K).
  - intros g. updc; [rewrite D|]; apply (vo_gfree _ K).
  - intros g u. updc; [rewrite D|]; apply (vo_named _ K).
  - intros g u. updc; [rewrite D|]; apply (vo_used _ K).
  - intros g. updc; [|apply (vo_mode _ K)]. intros H. rewrite (M H), D in *. apply (vo_mode _ K). exact H.
Qed.

Lemma v_hide_ok v user global : vars_ok v -> v_gu v user = Some global -> vars_ok (v_hide v user global).
Proof.
  intros K U.
  constructor; unfold v_hide; cbn [v_gu v_ulen v_ug v_sg v_gs v_slen v_ufree v_gfree v_sfree v_data v_glen v_pick];
    try apply K.
  - intros u g. pose proof (vo_ug _ K u g). pose proof (vo_ug _ K user g). pose proof (vo_ug _ K u global). updc; intuition congruence.
  - intros u g. updc; [discriminate|]. apply (vo_u _ K).
  - intros y. rewrite in_insert_n, (vo_ufree _ K). updc; [|intuition congruence].
    pose proof (vo_u _ K _ _ U). intuition.
  - intros g. updc; apply (vo_g _ K).
  - intros g H. updc; apply (vo_gfree _ K); exact H.
  - intros g u. updc; [discriminate|]. apply (vo_named _ K).
  - intros g u. updc; apply (vo_used _ K).
  - intros g. updc; [cbn; tauto|]. apply (vo_mode _ K).
Qed.

Lemma v_show_ok v user global m : vars_ok v -> v_gu v user = None -> user <= v_ulen v -> m <> Hide ->
  vd_deleted (v_data v global) = false -> vd_mode (v_data v global) = Hide -> vars_ok (v_show v user global m).
Proof.
  intros K U L M D H.
  assert (UG : v_ug v global = None) by (apply (vo_mode _ K); assumption).
  constructor; unfold v_show, v_put, set_data, bind_user; cbn [v_gu v_ulen v_ug v_sg v_gs v_slen v_ufree v_gfree v_sfree v_data v_glen v_pick];
    try apply K.
  - intros u g. pose proof (vo_ug _ K u g). pose proof (vo_ug _ K user g). pose proof (vo_ug _ K u global). updc; intuition congruence.
  - intros u g. updc; [lia|]. intros E. apply (vo_u _ K) in E. lia.
  - intros u. rewrite in_remove_n, (vo_ufree _ K). updc.
    + split; [intuition|intros [_ E]; discriminate].
    + split; [intros [[A B] _]; split; [lia|exact B]|]. intros [A B]. split; [|assumption]. split; [|exact B]. lia.
  - intros g. updc; apply (vo_g _ K).
  - intros g E. updc; apply (vo_gfree _ K); exact E.
  - intros g u. updc; [intros _; exact D|]. apply (vo_named _ K).
  - intros g u. updc; apply (vo_used _ K).
  - intros g. updc; [cbn; intuition discriminate|]. apply (vo_mode _ K).
Qed.

(** * The functions *)

(** An unused name gets a fresh variable. *)
Lemma global_from_user1_spec user rs c : vars_ok (c_v c) -> user <= v_ulen (c_v c) ->
  spec (global_from_user1 user rs c) (fun '(c', g) =>
    v_gu (c_v c') user = Some g /\
    (v_gu (c_v c) user = Some g /\ c' = c \/
     v_gu (c_v c) user = None /\ g = fresh_global (c_v c) user /\
     frame (cw_v c (v_add (c_v c) user g)) c')).
Proof.
  intros K L. unfold global_from_user1. destruct (v_gu (c_v c) user) as [g|] eqn:E.
  - destruct (rs && _); cbn [spec allowed]; [exact Logic.I|]. auto.
  - cbv zeta. eapply spec_bind; [apply add_step_spec; discriminate|].
    intros c' F. cbn [spec]. pose proof (frame_v _ _ F) as Ev. fold (fresh_global (c_v c) user) in *.
    split.
    + rewrite Ev. cbn [cw_v c_v v_gu bind_user]. unfold upd. rewrite N.eqb_refl. reflexivity.
    + right. split; [reflexivity|]. split; [reflexivity|]. exact F.
Qed.

Lemma fresh_frame_ok c c' user : vars_ok (c_v c) -> v_gu (c_v c) user = None -> user <= v_ulen (c_v c) ->
  frame (cw_v c (v_add (c_v c) user (fresh_global (c_v c) user))) c' -> vars_ok (c_v c').
Proof.
  intros K U L F. rewrite (frame_v _ _ F). apply v_add_ok; auto. apply fresh_global_deleted. exact K.
Qed.

(** [solver_from_global], [remove_solver_var] and their parts in terms of the maps *)
Lemma delete_global_post g c : post (delete_global_if_unused g c) (fun c' =>
  frame c c' \/
  (v_ug (c_v c) g = None /\ v_sg (c_v c) g = None /\ vd_mode (v_data (c_v c) g) = Hide /\
   vd_isolated (v_data (c_v c) g) = true /\ frame (cw_v c (v_drop (c_v c) g)) c')).
Proof.
  unfold delete_global_if_unused. cbv zeta.
  destruct (v_ug (c_v c) g) as [u|] eqn:U; [apply post_ret; left; apply frame_refl|].
  destruct (v_sg (c_v c) g) as [x|] eqn:S; [apply post_ret; left; apply frame_refl|].
  destruct (smode_eqb (vd_mode (v_data (c_v c) g)) Hide) eqn:M; cbn [negb]; [|apply post_panic].
  destruct (vd_isolated (v_data (c_v c) g)) eqn:I; cbn [negb]; [|apply post_ret; left; apply frame_refl].
  eapply post_bind; [apply add_step_post|]. intros c' F. apply post_ret. right.
  split; [reflexivity|]. split; [reflexivity|].
  split; [destruct (vd_mode (v_data (c_v c) g)); [discriminate|discriminate|reflexivity]|].
  split; [reflexivity|].
  destruct F as (e & p & ->). exists e, p. reflexivity.
Qed.
Lemma delete_global_spec g c : vars_ok (c_v c) -> vd_deleted (v_data (c_v c) g) = false ->
  spec (delete_global_if_unused g c) (fun c' =>
  frame c c' \/
  (v_ug (c_v c) g = None /\ v_sg (c_v c) g = None /\ vd_mode (v_data (c_v c) g) = Hide /\
   vd_isolated (v_data (c_v c) g) = true /\ frame (cw_v c (v_drop (c_v c) g)) c')).
Proof.
  intros K D. pose proof (delete_global_post g c) as P.
  destruct (delete_global_if_unused g c) as [c'|p|] eqn:E; cbn [spec]; [exact (P c' eq_refl)| |exact Logic.I].
  unfold delete_global_if_unused in E. cbv zeta in E.
  destruct (v_ug (c_v c) g) as [u|] eqn:U; [discriminate|].
  destruct (v_sg (c_v c) g) as [x|] eqn:S; [discriminate|].
  rewrite (proj1 (vo_mode _ K g D) U) in E. cbn [smode_eqb negb] in E.
  destruct (vd_isolated (v_data (c_v c) g)) eqn:I; cbn [negb] in E; [|discriminate].
  match type of E with bind (add_step ?a ?b ?d) _ = _ =>
    pose proof (add_step_spec a b d ltac:(discriminate)) as A; destruct (add_step a b d) end;
    cbn [bind spec] in *; try discriminate. injection E as <-. exact A.
Qed.

Definition v_unuse_drop (v v' : vars) (solver global : N) : Prop :=
  v' = v_unuse v solver global \/
  (v_ug v global = None /\ vd_mode (v_data v global) = Hide /\ vd_isolated (v_data v global) = true /\
   v' = v_drop (v_unuse v solver global) global).

Lemma remove_solver_var_spec x g c : vars_ok (c_v c) -> v_gs (c_v c) x = Some g ->
  spec (remove_solver_var x c) (fun c' => exists v',
    v_unuse_drop (c_v c) v' x g /\ frame (cw_v (cw_vs c (vsids_make_unavailable (c_vs c) x)) v') c').
Proof.
  intros K G. unfold remove_solver_var. cbv zeta. cbn [cw_vs c_v]. rewrite G.
  pose proof (v_unuse_ok _ _ _ K G) as K1.
  eapply spec_bind; [apply add_step_spec; discriminate|]. intros c1 F1.
  pose proof (frame_v _ _ F1) as E1. cbn [cw_v c_v] in E1.
  assert (D : vd_deleted (v_data (c_v c1) g) = false).
  { rewrite E1. cbn [v_data]. apply (vo_used _ K g x). apply (vo_sg _ K). exact G. }
  eapply spec_weaken; [apply delete_global_spec; [rewrite E1; exact K1|exact D]|].
  intros c2 [F2|(A & B & C & I & F2)].
  - exists (v_unuse (c_v c) x g). split; [left; reflexivity|].
    eapply frame_trans; [exact F1|exact F2].
  - rewrite E1 in *. exists (v_drop (v_unuse (c_v c) x g) g). split; [right; auto|].
    destruct F1 as (e & p & ->). destruct F2 as (e' & p' & ->). exists e', p'. reflexivity.
Qed.

(** * Quiet changes: those made while solving and while a clause is added.  User names are not
    affected. *)
Inductive quiet1 : vars -> vars -> Prop :=
| q_put v g d : vd_deleted d = vd_deleted (v_data v g) -> vd_mode d = vd_mode (v_data v g) -> quiet1 v (v_put v g d)
| q_use v g : v_sg v g = None -> vd_deleted (v_data v g) = false -> quiet1 v (v_use v g (next_solver v))
| q_unuse v x g : v_gs v x = Some g -> quiet1 v (v_unuse v x g)
| q_drop v x g : v_gs v x = Some g -> v_ug v g = None -> vd_mode (v_data v g) = Hide -> vd_isolated (v_data v g) = true ->
    quiet1 v (v_drop (v_unuse v x g) g).
Inductive quiet : vars -> vars -> Prop :=
| q_refl v : quiet v v
| q_step v v1 v' : quiet1 v v1 -> quiet v1 v' -> quiet v v'.
Lemma quiet_trans a b c : quiet a b -> quiet b c -> quiet a c.
Proof. induction 1; intros Q; [exact Q|]. econstructor; eauto. Qed.
Lemma quiet_one a b : quiet1 a b -> quiet a b.
Proof. intros Q. econstructor; [exact Q|constructor]. Qed.
Lemma quiet_ok v v' : vars_ok v -> quiet v v' -> vars_ok v'.
Proof.
  intros K Q. induction Q as [|v v1 v' Q1 Q IH]; [exact K|]. apply IH. destruct Q1.
  - apply v_put_ok; auto. intros _. rewrite H0. tauto.
  - apply v_use_ok; auto.
  - apply v_unuse_ok; auto.
  - apply v_drop_ok; [apply v_unuse_ok; auto|auto|]. cbn [v_unuse v_sg]. unfold upd. rewrite N.eqb_refl. reflexivity.
Qed.
Lemma quiet_names v v' : quiet v v' -> v_gu v' = v_gu v /\ v_ug v' = v_ug v /\ v_ulen v' = v_ulen v /\ v_ufree v' = v_ufree v.
Proof.
  induction 1 as [|v v1 v' Q1 Q IH]; [auto|]. destruct IH as (-> & -> & -> & ->). destruct Q1; auto.
Qed.
Lemma frame_quiet c c' : frame c c' -> quiet (c_v c) (c_v c').
Proof. intros F. rewrite (frame_v _ _ F). constructor. Qed.

(** * Changing the sampling mode *)
Definition hidden (v v' : vars) (u g : N) : Prop :=
  v' = v_hide v u g \/
  (v_sg v g = None /\ vd_isolated (v_data v g) = true /\ v' = v_drop (v_hide v u g) g).

Lemma set_sampling_mode_spec g m c : vars_ok (c_v c) -> vd_deleted (v_data (c_v c) g) = false ->
  spec (set_sampling_mode g m c) (fun '(c', r) =>
    let v := c_v c in
    let old := vd_mode (v_data v g) in
    (old = m /\ c' = c /\ r = None) \/
    (old <> m /\ vd_assumed (v_data v g) = false /\
     ((old <> Hide /\ m <> Hide /\ r = None /\ frame (cw_v c (v_put v g (vd_set_mode (v_data v g) m))) c') \/
      (old = Hide /\ r = Some (next_user v) /\ frame (cw_v c (v_show v (next_user v) g m)) c') \/
      (m = Hide /\ r = None /\ exists u v', v_gu v u = Some g /\ hidden v v' u g /\ frame (cw_v c v') c')))).
Proof.
  intros K D. unfold set_sampling_mode. cbv zeta. rewrite D.
  destruct (vd_assumed (v_data (c_v c) g)) eqn:As; [exact Logic.I|].
  destruct (smode_eqb (vd_mode (v_data (c_v c) g)) m) eqn:Em.
  { cbn [spec]. left. destruct (vd_mode (v_data (c_v c) g)), m; try discriminate; auto. }
  assert (NE : vd_mode (v_data (c_v c) g) <> m) by (intros H; rewrite H in Em; destruct m; discriminate).
  set (c0 := cw_v c (set_data (c_v c) (upd (v_data (c_v c)) g (vd_set_mode (v_data (c_v c) g) m)))).
  apply spec_bind with (P := frame c0).
  { destruct (smode_eqb m Hide); [apply frame_refl|apply add_step_spec; discriminate]. }
  intros c1 F1. pose proof (frame_v _ _ F1) as E1.
  destruct (smode_eqb (vd_mode (v_data (c_v c) g)) Hide) eqn:EO.
  - assert (O : vd_mode (v_data (c_v c) g) = Hide) by (destruct (vd_mode (v_data (c_v c) g)); try discriminate; reflexivity).
    eapply spec_bind; [apply add_step_spec; discriminate|]. intros c2 F2. cbn [spec]. right.
    split; [exact NE|]. split; [reflexivity|]. right. left. split; [exact O|].
    rewrite E1 in *. split; [reflexivity|].
    destruct F1 as (e & p & ->). destruct F2 as (e' & p' & ->). exists e', p'. reflexivity.
  - assert (O : vd_mode (v_data (c_v c) g) <> Hide) by (intros H; rewrite H in EO; discriminate).
    destruct (smode_eqb m Hide) eqn:Eh.
    + assert (M : m = Hide) by (destruct m; try discriminate; reflexivity). subst m.
      assert (U : exists u, v_ug (c_v c) g = Some u).
      { destruct (v_ug (c_v c) g) as [u|] eqn:E; [exists u; reflexivity|]. exfalso. apply O. apply (vo_mode _ K g D). exact E. }
      destruct U as (u & U). pose proof (proj2 (vo_ug _ K u g) U) as U'.
      pose proof (v_hide_ok _ _ _ K U') as KH.
      assert (U1 : v_ug (c_v c1) g = Some u) by (rewrite E1; exact U). rewrite U1.
      eapply spec_bind; [apply add_step_spec; discriminate|]. intros c2 F2.
      pose proof (frame_v _ _ F2) as E2. rewrite E1 in E2. cbn [cw_v c_v] in E2.
      assert (E2' : c_v c2 = v_hide (c_v c) u g) by (rewrite E2; reflexivity).
      eapply spec_bind.
      { apply delete_global_spec; rewrite E2'; [exact KH|]. cbn [v_hide v_data]. unfold upd. rewrite N.eqb_refl. exact D. }
      assert (FC : frame (cw_v c (v_hide (c_v c) u g)) c2).
      { destruct F1 as (e & p & ->). destruct F2 as (e' & p' & ->). exists e', p'. reflexivity. }
      intros c3 H3. cbn [spec]. right. split; [exact NE|]. split; [reflexivity|]. right. right.
      split; [reflexivity|]. split; [reflexivity|].
      destruct H3 as [F3|(A & B & C & I & F3)].
      * exists u, (v_hide (c_v c) u g). split; [exact U'|]. split; [left; reflexivity|]. eapply frame_trans; eassumption.
      * rewrite E2' in *. exists u, (v_drop (v_hide (c_v c) u g) g). split; [exact U'|]. split.
        -- right. split; [exact B|]. split; [|reflexivity]. cbn [v_hide v_data] in I. unfold upd in I. rewrite N.eqb_refl in I. exact I.
        -- destruct FC as (e & p & ->). destruct F3 as (e' & p' & ->). exists e', p'. reflexivity.
    + cbn [spec]. right. split; [exact NE|]. split; [reflexivity|]. left. split; [exact O|].
      split; [intros H; rewrite H in Eh; discriminate|]. split; [reflexivity|]. exact F1.
Qed.

Lemma hidden_ok v v' u g : vars_ok v -> v_gu v u = Some g -> hidden v v' u g -> vars_ok v'.
Proof.
  intros K U [->|(S & I & ->)]; pose proof (v_hide_ok _ _ _ K U) as KH; [exact KH|].
  apply v_drop_ok; [exact KH| |exact S]. cbn [v_hide v_ug]. unfold upd. rewrite N.eqb_refl. reflexivity.
Qed.
Lemma v_show_next_ok v g m : vars_ok v -> m <> Hide -> vd_deleted (v_data v g) = false -> vd_mode (v_data v g) = Hide ->
  vars_ok (v_show v (next_user v) g m).
Proof. intros K M D H. destruct (next_user_free v K). apply v_show_ok; auto. Qed.
