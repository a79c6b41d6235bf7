(** C38: configuration updates. *)
From Coq Require Import Lia SpecFloat ZArith ZifyBool ZifyN.
From Verif Require Import Spec F32 Config.

(** The options, and reading one of them; written without reference to [apply] and
    [merge].  A value is a float or an integer. *)
Inductive option_name := VsidsDecay | ClauseDecay | ReduceLocals | ReduceMids | LubyScale.
Inductive option_value := VFloat (x : f32) | VInt (n : N).

Definition config_get (c : config) (o : option_name) : option_value :=
  match o with
  | VsidsDecay => VFloat (cf_vsids_decay c)
  | ClauseDecay => VFloat (cf_clause_decay c)
  | ReduceLocals => VInt (cf_reduce_locals c)
  | ReduceMids => VInt (cf_reduce_mids c)
  | LubyScale => VInt (cf_luby_scale c)
  end.

Definition update_get (u : config_update) (o : option_name) : option option_value :=
  match o with
  | VsidsDecay => option_map VFloat (up_vsids_decay u)
  | ClauseDecay => option_map VFloat (up_clause_decay u)
  | ReduceLocals => option_map VInt (up_reduce_locals u)
  | ReduceMids => option_map VInt (up_reduce_mids u)
  | LubyScale => option_map VInt (up_luby_scale u)
  end.

(** The documented ranges: floats from 0.5 (inclusive) to 1.0 (exclusive), integers from
    1.  A float [m * 2^e] is compared by value, with [m] of 24 bits unless subnormal. *)
Definition documented (v : option_value) : Prop :=
  match v with
  | VFloat x => SFcompare f32_half x <> Some Gt /\ SFcompare f32_half x <> None
                /\ SFcompare x f32_one = Some Lt
  | VInt n => n >= 1
  end.

Lemma decay_in_range_spec x : decay_in_range x = true <->
  SFcompare f32_half x <> Some Gt /\ SFcompare f32_half x <> None /\ SFcompare x f32_one = Some Lt.
Proof.
  unfold decay_in_range, SFleb, SFltb. rewrite andb_true_iff.
  destruct (SFcompare f32_half x) as [[]|], (SFcompare x f32_one) as [[]|];
    intuition (congruence || discriminate).
Qed.

Lemma opt_float_spec o : opt_ok decay_in_range o = true <->
  (forall v, option_map VFloat o = Some v -> documented v).
Proof.
  destruct o as [x|]; cbn [opt_ok option_map].
  - rewrite decay_in_range_spec. split.
    + intros H v E. injection E as <-. exact H.
    + intros H. exact (H _ eq_refl).
  - split; [discriminate|reflexivity].
Qed.

Lemma opt_int_spec o : opt_ok from_1 o = true <->
  (forall v, option_map VInt o = Some v -> documented v).
Proof.
  destruct o as [x|]; cbn [opt_ok option_map]; unfold from_1.
  - split.
    + intros H v E. injection E as <-. cbn. lia.
    + intros H. specialize (H _ eq_refl). cbn in H. lia.
  - split; [discriminate|reflexivity].
Qed.

(** An update is accepted exactly if every value in it is within its documented range. *)
Theorem C38_accepted_iff : forall u c,
  fst (update_apply u c) = true <->
  (forall o v, update_get u o = Some v -> documented v).
Proof.
  intros u c. unfold update_apply.
  assert (E : (opt_ok decay_in_range (up_vsids_decay u)
     && opt_ok decay_in_range (up_clause_decay u)
     && opt_ok from_1 (up_reduce_locals u)
     && opt_ok from_1 (up_reduce_mids u)
     && opt_ok from_1 (up_luby_scale u) = true) <->
     (forall o v, update_get u o = Some v -> documented v)).
  { rewrite !andb_true_iff, !opt_float_spec, !opt_int_spec. split.
    - intros [[[[H1 H2] H3] H4] H5] [] v; cbn [update_get]; auto.
    - intros H. repeat split; intros v E.
      + exact (H VsidsDecay v E).
      + exact (H ClauseDecay v E).
      + exact (H ReduceLocals v E).
      + exact (H ReduceMids v E).
      + exact (H LubyScale v E). }
  rewrite <- E. destruct (_ && _); cbn [fst]; intuition.
Qed.
Print Assumptions C38_accepted_iff.

(** A rejected update changes no option; an accepted one sets exactly the options it
    mentions. *)
Theorem C38_apply_effect : forall u c o,
  config_get (snd (update_apply u c)) o =
  if fst (update_apply u c)
  then match update_get u o with Some v => v | None => config_get c o end
  else config_get c o.
Proof.
  intros u c o. unfold update_apply. destruct (_ && _); cbn [fst snd]; [|reflexivity].
  destruct o; cbn [config_get update_get cf_vsids_decay cf_clause_decay cf_reduce_locals
                   cf_reduce_mids cf_luby_scale];
    match goal with |- context [option_map _ ?x] => destruct x end; reflexivity.
Qed.
Print Assumptions C38_apply_effect.

(** The latest value given to an option in a sequence of updates. *)
Fixpoint latest (o : option_name) (us : list config_update) : option option_value :=
  match us with
  | [] => None
  | u :: rest => match latest o rest with Some v => Some v | None => update_get u o end
  end.

Lemma merge_get u v o : update_get (update_merge u v) o =
  match update_get v o with Some x => Some x | None => update_get u o end.
Proof.
  destruct o; cbn [update_get update_merge up_vsids_decay up_clause_decay up_reduce_locals
                   up_reduce_mids up_luby_scale]; unfold opt_over;
    match goal with |- context [match ?x with Some _ => _ | None => _ end] => destruct x end;
    reflexivity.
Qed.

(** Merging any number of updates gives for each option the latest value set. *)
Theorem C38_merge_latest : forall us u o,
  update_get (fold_left update_merge us u) o = latest o (u :: us).
Proof.
  induction us as [|v us IH]; intros u o; [reflexivity|].
  cbn [fold_left]. rewrite IH. cbn [latest]. rewrite merge_get.
  destruct (latest o us); [reflexivity|]. destruct (update_get v o); reflexivity.
Qed.
Print Assumptions C38_merge_latest.

(** If the individual updates are acceptable then applying them in sequence and applying
    the merged update have the same effect. *)
Lemma config_ext c d : (forall o, config_get c o = config_get d o) -> c = d.
Proof.
  intros H. destruct c, d.
  pose proof (H VsidsDecay) as A1. pose proof (H ClauseDecay) as A2.
  pose proof (H ReduceLocals) as A3. pose proof (H ReduceMids) as A4. pose proof (H LubyScale) as A5.
  cbn in *. congruence.
Qed.

Theorem C38_merge_sequence : forall us u c,
  (forall v, In v (u :: us) -> fst (update_apply v c) = true) ->
  snd (update_apply (fold_left update_merge us u) c)
  = fold_left (fun c v => snd (update_apply v c)) (u :: us) c
  /\ fst (update_apply (fold_left update_merge us u) c) = true.
Proof.
  intros us u c H.
  assert (D : forall v, In v (u :: us) -> forall o x, update_get v o = Some x -> documented x).
  { intros v I. apply (C38_accepted_iff v c). exact (H v I). }
  assert (A : fst (update_apply (fold_left update_merge us u) c) = true).
  { apply C38_accepted_iff. intros o x. rewrite C38_merge_latest. intros E.
    clear H. revert D E. generalize (u :: us). intros l D E.
    induction l as [|v l IH]; [discriminate|]. cbn [latest] in E.
    destruct (latest o l) eqn:El.
    - apply IH; [|exact E]. intros w I. apply D. right. exact I.
    - exact (D v (or_introl eq_refl) o x E). }
  split; [|exact A].
  apply config_ext. intros o. rewrite C38_apply_effect, A, C38_merge_latest.
  clear A. revert D. generalize (u :: us). intros l. clear H. revert c.
  induction l as [|v l IH]; intros c D; [reflexivity|].
  cbn [fold_left latest]. rewrite <- IH by (intros w I; apply D; right; exact I).
  destruct (latest o l); [reflexivity|].
  rewrite C38_apply_effect.
  replace (fst (update_apply v c)) with true; [reflexivity|].
  symmetry. apply C38_accepted_iff. apply D. left. reflexivity.
Qed.
Print Assumptions C38_merge_sequence.

(** The decay factors in effect after a successful update of a valid configuration pass the
    assertions which guard their use, so a configuration update cannot panic. *)
Definition config_valid (c : config) : Prop := forall o, documented (config_get c o).

Lemma decay_documented x : documented (VFloat x) -> set_decay_ok x = true.
Proof.
  intros [H1 [H2 H3]]. unfold set_decay_ok, f32_lt, f32_gt, SFltb. rewrite H3. cbn [andb].
  unfold f32_half, f32_one, f32_sixteenth in *.
  destruct x as [s|s| |s m e]; cbn [SFcompare] in *; try congruence;
    try (destruct s; cbn [SFcompare] in *; congruence).
  destruct s; cbn [SFcompare] in *; [congruence|].
  destruct (Z.compare_spec (-27) e) as [<-|L|L]; [|reflexivity|].
  - exfalso. apply H1. reflexivity.
  - exfalso. apply H1. destruct (Z.compare_spec (-24) e) as [E|L'|L']; [lia|lia|reflexivity].
Qed.

Theorem C38_update_never_panics : forall u c, config_valid c ->
  config_valid (snd (update_apply u c))
  /\ set_decay_ok (cf_vsids_decay (snd (update_apply u c))) = true
  /\ set_decay_ok (cf_clause_decay (snd (update_apply u c))) = true.
Proof.
  intros u c V.
  assert (V' : config_valid (snd (update_apply u c))).
  { intros o. rewrite C38_apply_effect. destruct (fst (update_apply u c)) eqn:E; [|apply V].
    destruct (update_get u o) eqn:Eo; [|apply V].
    apply (proj1 (C38_accepted_iff u c) E o). exact Eo. }
  split; [exact V'|].
  split; [exact (decay_documented _ (V' VsidsDecay)) | exact (decay_documented _ (V' ClauseDecay))].
Qed.
Print Assumptions C38_update_never_panics.

Theorem C38_default_valid : config_valid config_default.
Proof. intros []; cbn; repeat split; try congruence; try discriminate; lia. Qed.
Print Assumptions C38_default_valid.

Example C38_ex :
  let u := Update (Some f32_half) None None (Some 7) None in
  let v := Update None None (Some 0) (Some 9) None in
  fst (update_apply u config_default) = true
  /\ snd (update_apply u config_default) = Config f32_half f32_0_999 15000 7 128
  /\ fst (update_apply (update_merge u v) config_default) = false
  /\ snd (update_apply (update_merge u v) config_default) = config_default
  /\ fst (update_apply (Update (Some f32_one) None None None None) config_default) = false
  /\ fst (update_apply (Update (Some S754_nan) None None None None) config_default) = false.
Proof. repeat split. Qed.
