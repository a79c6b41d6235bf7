From Coq Require Import Arith ZifyBool ZifyNat ZifyN.
From Verif Require Import Spec Lit LitProofs Cnf.

(** Specification of the history: clauses in order, and the largest variable
    count asked for. *)
Definition op_clauses (ops : list cnf_op) : list (list N) :=
  flat_map (fun o => match o with OpAddClause c => [c] | _ => [] end) ops.

Definition clause_vars (c : list N) : N := fold_right (fun l m => N.max (N.div2 l + 1) m) 0 c.

Fixpoint spec_var_count (n : N) (ops : list cnf_op) : N :=
  match ops with
  | [] => n
  | OpAddClause c :: r => spec_var_count (N.max n (clause_vars c)) r
  | OpSetVarCount m :: r => spec_var_count (N.max n m) r
  | OpNewVar :: r => spec_var_count (n + 1) r
  end.

Lemma slice_app1 {A} (l x : list A) r s : slice l r = Some s -> slice (l ++ x) r = Some s.
Proof.
  destruct r as [b e]. unfold slice.
  destruct (Nat.leb_spec b e); simpl; [|discriminate].
  destruct (Nat.leb_spec e (length l)); [|discriminate].
  rewrite app_length. destruct (Nat.leb_spec e (length l + length x)); [|lia].
  intros E. rewrite skipn_app, firstn_app, skipn_length.
  replace (e - b - (length l - b))%nat with 0%nat by lia.
  simpl. rewrite app_nil_r. exact E.
Qed.

Lemma slice_last {A} (l x : list A) : slice (l ++ x) (length l, length (l ++ x)) = Some x.
Proof.
  unfold slice. rewrite app_length.
  destruct (Nat.leb_spec (length l) (length l + length x)); [|lia].
  destruct (Nat.leb_spec (length l + length x) (length l + length x)); [|lia].
  simpl. rewrite skipn_app, skipn_all, Nat.sub_diag. simpl.
  f_equal. apply firstn_all2. lia.
Qed.

Lemma sequence_app {A} (x y : list (option A)) xs ys :
  sequence x = Some xs -> sequence y = Some ys -> sequence (x ++ y) = Some (xs ++ ys).
Proof.
  revert xs. induction x as [|[a|] x IH]; simpl; intros xs Hx Hy.
  - inversion Hx; subst. exact Hy.
  - destruct (sequence x) as [z|] eqn:E; [|discriminate]. inversion Hx; subst.
    rewrite (IH z eq_refl Hy). reflexivity.
  - discriminate.
Qed.

Lemma sequence_map_mono {A B} (f g : A -> option B) l xs :
  (forall a s, f a = Some s -> g a = Some s) ->
  sequence (map f l) = Some xs -> sequence (map g l) = Some xs.
Proof.
  intros H. revert xs. induction l as [|a l IH]; simpl; intros xs E; [exact E|].
  destruct (f a) as [s|] eqn:F; [|discriminate].
  rewrite (H _ _ F). destruct (sequence (map f l)) as [ys|] eqn:Y; [|discriminate].
  rewrite (IH ys eq_refl). exact E.
Qed.

Lemma fold_max_clause c v :
  fold_left (fun vc l => N.max (lit_var l + 1) vc) c v = N.max v (clause_vars c).
Proof.
  revert v. induction c as [|l c IH]; simpl; intros v; [lia|].
  rewrite IH, lit_var_div. fold (clause_vars c). lia.
Qed.

Lemma cnf_add_clause_iter f c cs : cnf_iter f = Some cs ->
  cnf_iter (cnf_add_clause f c) = Some (cs ++ [c]).
Proof.
  unfold cnf_iter, cnf_add_clause. simpl. intros H.
  rewrite map_app. apply sequence_app.
  - eapply sequence_map_mono; [|exact H]. intros a s. apply slice_app1.
  - simpl map. rewrite slice_last. reflexivity.
Qed.

Lemma cnf_add_clause_vc f c : var_count (cnf_add_clause f c) = N.max (var_count f) (clause_vars c).
Proof. unfold cnf_add_clause. rewrite slice_last. simpl. apply fold_max_clause. Qed.

Lemma cnf_run_iter_gen ops f cs : cnf_iter f = Some cs ->
  cnf_iter (fold_left cnf_step ops f) = Some (cs ++ op_clauses ops) /\
  var_count (fold_left cnf_step ops f) = spec_var_count (var_count f) ops /\
  cnf_len (fold_left cnf_step ops f) = (cnf_len f + length (op_clauses ops))%nat.
Proof.
  revert f cs. induction ops as [|o ops IH]; intros f cs H.
  - simpl. rewrite app_nil_r. repeat split; auto.
  - simpl fold_left. destruct o as [c|n|].
    + destruct (IH (cnf_add_clause f c) (cs ++ [c]) (cnf_add_clause_iter _ _ _ H)) as (A&B&C).
      simpl cnf_step. rewrite A, B, C, cnf_add_clause_vc. simpl. rewrite <- app_assoc.
      repeat split. unfold cnf_len, cnf_add_clause. simpl. rewrite app_length. simpl. lia.
    + destruct (IH (cnf_set_var_count f n) cs H) as (A&B&C).
      simpl cnf_step. rewrite A, B, C. repeat split.
    + destruct (IH (snd (cnf_new_var f)) cs H) as (A&B&C).
      change (cnf_step f OpNewVar) with (snd (cnf_new_var f)). rewrite A, B, C. repeat split.
Qed.

Lemma cnf_run_spec ops :
  cnf_iter (cnf_run ops) = Some (op_clauses ops) /\
  var_count (cnf_run ops) = spec_var_count 0 ops /\
  cnf_len (cnf_run ops) = length (op_clauses ops).
Proof. apply (cnf_run_iter_gen ops cnf_new []). reflexivity. Qed.

Lemma list_eqb_eq a b : list_eqb a b = true <-> a = b.
Proof.
  revert b. induction a as [|x a IH]; destruct b as [|y b]; simpl; try (split; congruence).
  rewrite andb_true_iff, N.eqb_eq, IH. split; [intros [-> ->]; reflexivity|].
  intros E; inversion E; auto.
Qed.

Lemma ranges_eq_spec la lb ra rb ca cb :
  sequence (map (slice la) ra) = Some ca -> sequence (map (slice lb) rb) = Some cb ->
  length ra = length rb ->
  exists b, ranges_eq la lb ra rb = Some b /\ (b = true <-> ca = cb).
Proof.
  revert rb ca cb. induction ra as [|x ra IH]; destruct rb as [|y rb]; simpl;
    intros ca cb HA HB HL; try discriminate.
  - inversion HA; inversion HB; subst. exists true. split; [reflexivity|tauto].
  - destruct (slice la x) as [sa|]; [|discriminate].
    destruct (slice lb y) as [sb|]; [|discriminate].
    destruct (sequence (map (slice la) ra)) as [ca'|]; [|discriminate].
    destruct (sequence (map (slice lb) rb)) as [cb'|] eqn:EB; [|discriminate].
    inversion HA; inversion HB; subst.
    destruct (list_eqb sa sb) eqn:E.
    + apply list_eqb_eq in E. subst.
      destruct (IH rb ca' cb' eq_refl EB) as (b&Hb&Hb'); [lia|].
      exists b. split; [exact Hb|]. rewrite Hb'. split; [intros ->; reflexivity|congruence].
    + exists false. split; [reflexivity|]. split; [discriminate|].
      intros C. inversion C; subst. assert (list_eqb sb sb = true) by (apply list_eqb_eq; reflexivity).
      congruence.
Qed.

Lemma cnf_eq_spec ops1 ops2 : exists b,
  cnf_eq (cnf_run ops1) (cnf_run ops2) = Some b /\
  (b = true <-> spec_var_count 0 ops1 = spec_var_count 0 ops2 /\ op_clauses ops1 = op_clauses ops2).
Proof.
  destruct (cnf_run_spec ops1) as (I1&V1&L1). destruct (cnf_run_spec ops2) as (I2&V2&L2).
  unfold cnf_eq. rewrite V1, V2. unfold cnf_len in *. rewrite L1, L2.
  destruct (N.eqb_spec (spec_var_count 0 ops1) (spec_var_count 0 ops2)) as [E|E]; simpl andb.
  2:{ exists false. split; [reflexivity|]. split; [discriminate|tauto]. }
  destruct (Nat.eqb_spec (length (op_clauses ops1)) (length (op_clauses ops2))) as [F|F].
  2:{ exists false. split; [reflexivity|]. split; [discriminate|]. intros [_ G]. congruence. }
  destruct (ranges_eq_spec _ _ _ _ _ _ I1 I2) as (b&Hb&Hb').
  - rewrite L1, L2. exact F.
  - exists b. split; [exact Hb|]. rewrite Hb'. tauto.
Qed.

Lemma spec_var_count_mono n ops : n <= spec_var_count n ops.
Proof.
  revert n. induction ops as [|[c|m|] ops IH]; simpl; intros n; [lia| | |].
  - specialize (IH (N.max n (clause_vars c))). lia.
  - specialize (IH (N.max n m)). lia.
  - specialize (IH (n + 1)). lia.
Qed.

Lemma clause_vars_bound c l : In l c -> N.div2 l < clause_vars c.
Proof. induction c as [|x c IH]; simpl; [tauto|]. intros [->|H]; [lia|]. specialize (IH H). lia. Qed.

Lemma var_count_bounds ops c l : In c (op_clauses ops) -> In l c ->
  N.div2 l < var_count (cnf_run ops).
Proof.
  destruct (cnf_run_spec ops) as (_&V&_). rewrite V. clear V.
  generalize 0. induction ops as [|o ops IH]; simpl; [tauto|]. intros n H Hl.
  destruct o as [d|m|]; simpl in *.
  - destruct H as [->|H]; [|apply IH; assumption].
    pose proof (clause_vars_bound c l Hl). pose proof (spec_var_count_mono (N.max n (clause_vars c)) ops). lia.
  - apply IH; assumption.
  - apply IH; assumption.
Qed.

Lemma new_var_fresh ops : var_count (cnf_run ops) < 2^28 ->
  let v := fst (cnf_new_var (cnf_run ops)) in
  v = var_count (cnf_run ops) /\
  (forall c l, In c (op_clauses ops) -> In l c -> N.div2 l <> v) /\
  cnf_run (ops ++ [OpNewVar]) = snd (cnf_new_var (cnf_run ops)).
Proof.
  intros H v. assert (E : v = var_count (cnf_run ops)).
  { unfold v. simpl. unfold var_from_index. apply u32_small.
    change (2^28) with 268435456 in H. change (2^32) with 4294967296. lia. }
  split; [exact E|]. split.
  - intros c l Hc Hl. rewrite E. pose proof (var_count_bounds ops c l Hc Hl). lia.
  - unfold cnf_run. rewrite fold_left_app. reflexivity.
Qed.

Lemma cnf_from_run cs : cnf_from cs = cnf_run (map OpAddClause cs).
Proof.
  unfold cnf_from, cnf_run. generalize cnf_new. induction cs as [|c cs IH]; simpl; intros f; [reflexivity|].
  apply IH.
Qed.

Lemma op_clauses_map cs : op_clauses (map OpAddClause cs) = cs.
Proof. induction cs as [|c cs IH]; simpl; [reflexivity|]. f_equal. exact IH. Qed.

Lemma cnf_iter_from cs : cnf_iter (cnf_from cs) = Some cs.
Proof. rewrite cnf_from_run. destruct (cnf_run_spec (map OpAddClause cs)) as (I&_&_).
  rewrite I, op_clauses_map. reflexivity. Qed.
