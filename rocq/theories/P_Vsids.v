(** C21: the decision heap. *)
From Coq Require Import Lia Arith PeanoNat Reals Lra SpecFloat.
From Verif Require Import Spec F32 F32Proofs Config Vsids VsidsProofs VsidsWf.
Local Open Scope nat_scope.

(** [d] is a float. *)
Definition op_float (o : vop) : Prop :=
  match o with OSetDecay d => valid_binary 24 128 d = true | _ => True end.

Inductive vreach (allowed : vop -> Prop) : vsids -> Prop :=
| vreach_init : vreach allowed vsids_default
| vreach_step v o v' r : vreach allowed v -> op_float o -> allowed o -> vstep v o = Some (v', r) ->
    vreach allowed v'.

Lemma vreach_wf allowed v : vreach allowed v -> wf v.
Proof.
  induction 1 as [|v o v' r _ IH _ _ S].
  - split; [intros; exact Logic.I|]. cbn. intros x p _. split; [discriminate|]. intros [H _]. lia.
  - exact (proj1 (vstep_wf _ _ _ _ IH S)).
Qed.

(** For every sequence of operations: the heap has no duplicates, the positions are those
    in the heap, and each operation changes the set of available variables as it should. *)
Theorem C21_positions_agree : forall v, vreach (fun _ => True) v ->
  NoDup (vs_heap v) /\
  (forall x p, vs_pos v x = Some p <-> p < length (vs_heap v) /\ nth p (vs_heap v) 0%N = x).
Proof.
  intros v H. apply vreach_wf in H. split.
  - apply (NoDup_nth _ 0%N). intros i j Hi Hj E.
    exact (agrees_inj _ _ _ i j H Hi Hj E).
  - intros x p. apply (proj2 H). exact Logic.I.
Qed.
Print Assumptions C21_positions_agree.

Theorem C21_available : forall v o v' r, vreach (fun _ => True) v -> vstep v o = Some (v', r) ->
  (forall x, In x (vs_heap v') <-> avail_after v o r x)
  /\ (forall x, r = Some x -> o = ONext /\ In x (vs_heap v))
  /\ (o = ONext -> r = None -> vs_heap v = []).
Proof.
  intros v o v' r H S. apply vreach_wf in H. split; [exact (proj2 (vstep_wf _ _ _ _ H S))|].
  destruct o as [x| |d|x|x|x|]; cbn [vstep] in S; try (injection S as <- <-; split; intros; discriminate).
  - destruct (set_decay_ok d); [|discriminate]. injection S as <- <-. split; intros; discriminate.
  - destruct (vsids_reset v x); [|discriminate]. injection S as <- <-. split; intros; discriminate.
  - unfold vsids_next in S. destruct (vs_heap v) as [|x rest] eqn:E.
    + injection S as <- <-. split; [intros; discriminate|reflexivity].
    + destruct (match swap_remove 0 (x :: rest) with [] => _ | _ => _ end) as [h q]. injection S as <- <-.
      split; [|intros; discriminate]. intros y Hy. injection Hy as <-. split; [reflexivity|]. left. reflexivity.
Qed.
Print Assumptions C21_available.

(** * Order, if no variable is removed from the middle of the heap *)
Definition numeric (v : vsids) : Prop :=
  (forall x, exists r, reads (vs_act v x) r /\ (r < fL)%R)
  /\ (exists r, reads (vs_bump v) r /\ (r < fL)%R)
  /\ (exists r, reads (vs_inv v) r /\ (r <= 16)%R).

Definition numbers (act : N -> f32) : Prop := forall x, exists r, reads (act x) r.

Lemma numbers_total act : numbers act -> forall x y, geq act x y \/ geq act y x.
Proof.
  intros H x y. destruct (H x) as [r Hr], (H y) as [s Hs]. unfold geq.
  rewrite (reads_of_ge _ _ _ _ Hr Hs), (reads_of_ge _ _ _ _ Hs Hr). lra.
Qed.
Lemma numbers_trans act : numbers act -> forall x y z, geq act x y -> geq act y z -> geq act x z.
Proof.
  intros H x y z. destruct (H x) as [r Hr], (H y) as [s Hs], (H z) as [t Ht]. unfold geq.
  rewrite (reads_of_ge _ _ _ _ Hr Hs), (reads_of_ge _ _ _ _ Hs Ht), (reads_of_ge _ _ _ _ Hr Ht). lra.
Qed.

Lemma factor_reads : exists f, reads rescale_factor f /\ (0 < f)%R /\ (f * (16 * fL) <= 32)%R.
Proof.
  exists (IZR 8388609 * Raux.bpow Zaux.radix2 (-147))%R.
  assert (P : (0 < Raux.bpow Zaux.radix2 (-147))%R) by apply Raux.bpow_gt_0.
  split; [|split].
  - replace rescale_factor with (S754_finite false 8388609 (-147)) by (vm_compute; reflexivity).
    apply reads_const. reflexivity.
  - lra.
  - unfold fL.
    replace (IZR 8388609 * Raux.bpow Zaux.radix2 (-147) * (16 * (IZR 16777215 * Raux.bpow Zaux.radix2 100)))%R
      with (IZR (8388609 * 16 * 16777215) * (Raux.bpow Zaux.radix2 (-147) * Raux.bpow Zaux.radix2 100))%R
      by (rewrite !mult_IZR; ring).
    rewrite <- Raux.bpow_plus. change (-147 + 100)%Z with (-47)%Z.
    replace 32%R with (IZR (2^52) * Raux.bpow Zaux.radix2 (-47))%R.
    + apply Rmult_le_compat_r; [apply Raux.bpow_ge_0|]. apply IZR_le. vm_compute. discriminate.
    + change (IZR (2^52)) with (Raux.bpow Zaux.radix2 52). rewrite <- Raux.bpow_plus. reflexivity.
Qed.

Lemma reads_32 : reads (S754_finite false 8388608 (-18)) 32.
Proof.
  replace 32%R with (IZR 8388608 * Raux.bpow Zaux.radix2 (-18))%R.
  - apply reads_const. reflexivity.
  - change 8388608%Z with (2^23)%Z. change (IZR (2^23)) with (Raux.bpow Zaux.radix2 23).
    rewrite <- Raux.bpow_plus. reflexivity.
Qed.

(** Rescaling keeps numbers up to sixteen times the limit in order and makes them small. *)
Lemma rescaled x r : reads x r -> (r <= 16 * fL)%R ->
  exists s, reads (f32_mul x rescale_factor) s /\ (s < fL)%R /\
    forall y t u, reads y t -> (t <= 16 * fL)%R -> reads (f32_mul y rescale_factor) u -> (r <= t)%R -> (s <= u)%R.
Proof.
  intros Hx L. destruct factor_reads as (f & Hf & Pf & Bf).
  pose proof (reads_nonneg _ _ Hx) as Px.
  assert (B : forall t, (t <= 16 * fL)%R -> (t * f <= 32)%R).
  { intros t Ht. apply Rle_trans with (f * (16 * fL))%R; [|exact Bf].
    rewrite (Rmult_comm t). apply Rmult_le_compat_l; lra. }
  pose proof (reads_mul _ _ _ _ _ _ Hx Hf reads_32 (B r L)) as M.
  eexists. split; [exact M|]. split.
  - apply Rle_lt_trans with 32%R; [|pose proof fL_large; lra].
    refine (reads_le_rnd _ _ _ _ Hx reads_32 _ (B r L)).
  - intros y t u Hy Lt Hu Le.
    pose proof (reads_mul _ _ _ _ _ _ Hy Hf reads_32 (B t Lt)) as M'.
    assert (E : forall a b z, reads z a -> reads z b -> a = b).
    { intros a b z Ha Hb.
      pose proof (proj1 (reads_of_ge z z _ _ Ha Hb) (of_ge_refl z)).
      pose proof (proj1 (reads_of_ge z z _ _ Hb Ha) (of_ge_refl z)). lra. }
    rewrite (E _ _ _ Hu M'). apply rnd_mono. apply Rmult_le_compat_r; lra.
Qed.

Lemma rescale_numeric v : (forall x, exists r, reads (vs_act v x) r /\ (r <= 16 * fL)%R) ->
  (exists r, reads (vs_bump v) r /\ (r <= 16 * fL)%R) ->
  (exists r, reads (vs_inv v) r /\ (r <= 16)%R) ->
  numeric (vsids_rescale v) /\ forall x y, geq (vs_act v) x y -> geq (vs_act (vsids_rescale v)) x y.
Proof.
  intros A B I. split.
  - split; [|split]; cbn [vsids_rescale vs_act vs_bump vs_inv].
    + intros x. destruct (A x) as (r & Hr & L). destruct (rescaled _ _ Hr L) as (s & H1 & H2 & _). eauto.
    + destruct B as (r & Hr & L). destruct (rescaled _ _ Hr L) as (s & H1 & H2 & _). eauto.
    + exact I.
  - intros x y. unfold geq. cbn [vsids_rescale vs_act].
    destruct (A x) as (r & Hr & Lr), (A y) as (t & Ht & Lt).
    destruct (rescaled _ _ Hr Lr) as (r' & H1 & _ & _), (rescaled _ _ Ht Lt) as (t' & H2 & _ & M).
    rewrite (reads_of_ge _ _ _ _ Hr Ht), (reads_of_ge _ _ _ _ H1 H2).
    intros G. apply Rle_ge. apply (M _ _ _ Hr Lr H1). lra.
Qed.

Lemma ordered_mono act act' heap : (forall x y, geq act x y -> geq act' x y) ->
  ordered act heap -> ordered act' heap.
Proof. intros M O i I1 I2. apply M, O; assumption. Qed.
Lemma ordered_up_mono act act' heap p : (forall x y, geq act x y -> geq act' x y) ->
  ordered_up act heap p -> ordered_up act' heap p.
Proof. intros M [O1 O2]. split; intros; apply M; auto. Qed.

Lemma numeric_numbers v : numeric v -> numbers (vs_act v).
Proof. intros (A & _) x. destruct (A x) as (r & H & _). eauto. Qed.

Lemma lt16 r : (0 <= r)%R -> (r < fL)%R -> (r <= 16 * fL)%R.
Proof. lra. Qed.

Lemma bump_spec v x : numeric v -> wf v -> ordered (vs_act v) (vs_heap v) ->
  numeric (vsids_bump v x) /\ ordered (vs_act (vsids_bump v x)) (vs_heap (vsids_bump v x)).
Proof.
  intros NM W O. pose proof (numeric_numbers v NM) as NB.
  destruct NM as (A & (b & Hb & Lb) & I).
  destruct (A x) as (a & Ha & La). destruct reads_two_limits as (z & Hz).
  pose proof (reads_nonneg _ _ Ha) as Pa. pose proof (reads_nonneg _ _ Hb) as Pb.
  assert (Lab : (a + b <= 2 * fL)%R) by lra.
  pose proof (reads_add _ _ _ _ _ _ Ha Hb Hz Lab) as Hv.
  pose proof (reads_le_rnd _ _ _ _ Ha Hz _ Lab) as Uv.
  set (value := f32_add (vs_act v x) (vs_bump v)) in *.
  match type of Hv with reads _ ?t => set (w := t) in * end.
  assert (Lv : (a <= w)%R).
  { unfold w. rewrite <- (reads_format _ _ Ha) at 1. apply rnd_mono. lra. }
  pose proof fL_large as FL.
  set (act1 := upd (vs_act v) x value).
  assert (N1 : forall y, exists r, reads (act1 y) r /\ (r <= 16 * fL)%R).
  { intros y. unfold act1, upd. destruct (N.eqb_spec y x) as [->|].
    - exists w. split; [exact Hv|lra].
    - destruct (A y) as (r & Hr & L). exists r. split; [exact Hr|].
      apply lt16; [exact (reads_nonneg _ _ Hr)|exact L]. }
  assert (Up : forall y, of_ge (act1 y) (vs_act v y) = true).
  { intros y. unfold act1, upd. destruct (N.eqb_spec y x) as [->|]; [|apply of_ge_refl].
    apply (reads_of_ge _ _ _ _ Hv Ha). lra. }
  (* order with the raised activity *)
  assert (OU : forall p, vs_pos v x = Some p -> ordered_up act1 (vs_heap v) p).
  { intros p Ex. assert (Hp : p < length (vs_heap v) /\ nth p (vs_heap v) 0%N = x).
    { apply (proj2 W x p Logic.I). exact Ex. }
    destruct Hp as [Hp Ev].
    assert (Q : forall i, i < length (vs_heap v) -> i <> p -> nth i (vs_heap v) 0%N <> x).
    { intros i Hi NE E. apply NE. apply (agrees_inj _ _ _ i p W Hi Hp). congruence. }
    assert (K : forall i j, i < length (vs_heap v) -> j < length (vs_heap v) -> j <> p ->
              geq (vs_act v) (nth i (vs_heap v) 0%N) (nth j (vs_heap v) 0%N) ->
              geq act1 (nth i (vs_heap v) 0%N) (nth j (vs_heap v) 0%N)).
    { intros i j Hi Hj NE G. unfold geq in *.
      replace (act1 (nth j (vs_heap v) 0%N)) with (vs_act v (nth j (vs_heap v) 0%N)).
      2:{ unfold act1. rewrite upd_ne; [reflexivity|]. apply Q; assumption. }
      destruct (N1 (nth i (vs_heap v) 0%N)) as (r1 & R1 & _).
      destruct (NB (nth i (vs_heap v) 0%N)) as (r2 & R2).
      destruct (NB (nth j (vs_heap v) 0%N)) as (r3 & R3).
      pose proof (Up (nth i (vs_heap v) 0%N)) as U.
      rewrite (reads_of_ge _ _ _ _ R1 R2) in U. rewrite (reads_of_ge _ _ _ _ R2 R3) in G.
      rewrite (reads_of_ge _ _ _ _ R1 R3). lra. }
    split.
    - intros i I1 I2 NE. pose proof (parent_lt i I1). apply K; [lia|assumption..|]. apply O; assumption.
    - intros i I1 I2 Ei Pp. pose proof (parent_lt i I1). pose proof (parent_lt p Pp).
      apply K; [lia|assumption|lia|].
      apply numbers_trans with (nth p (vs_heap v) 0%N); [exact NB|apply O; assumption|].
      rewrite <- Ei. apply O; assumption. }
  assert (ON : vs_pos v x = None -> ordered act1 (vs_heap v)).
  { intros Ex i I1 I2.
    assert (Q : forall i, i < length (vs_heap v) -> nth i (vs_heap v) 0%N <> x).
    { intros j Hj E. assert (vs_pos v x = Some j) by (apply (proj2 W x j Logic.I); auto). congruence. }
    pose proof (parent_lt i I1).
    unfold geq, act1. rewrite !upd_ne by (apply Q; lia). apply O; assumption. }
  set (v1 := Vsids act1 (vs_heap v) (vs_pos v) (vs_bump v) (vs_inv v)).
  set (v2 := if f32_ge value rescale_limit then vsids_rescale v1 else v1).
  assert (H2 : vs_heap v2 = vs_heap v /\ vs_pos v2 = vs_pos v).
  { unfold v2. destruct (f32_ge _ _); split; reflexivity. }
  assert (N2 : numeric v2 /\ forall y z, geq act1 y z -> geq (vs_act v2) y z).
  { unfold v2. destruct (f32_ge value rescale_limit) eqn:G.
    - apply rescale_numeric; [exact N1| |exact I]. exists b. split; [exact Hb|]. apply lt16; assumption.
    - split; [|auto]. split; [|split].
      + intros y. cbn [v1 vs_act]. unfold act1, upd. destruct (N.eqb_spec y x) as [->|]; [|apply A].
        exists w. split; [exact Hv|].
        destruct (Rlt_or_le w fL) as [|C]; [assumption|exfalso].
        assert (f32_ge value rescale_limit = true).
        { apply (reads_f32_ge _ _ _ _ Hv reads_limit). lra. }
        congruence.
      + exists b. auto.
      + exact I. }
  change (vsids_bump v x) with
    (match vs_pos v2 x with
    | Some p => let '(heap, pos) := sift_up p (vs_act v2) (vs_heap v2) (vs_pos v2) p in
        Vsids (vs_act v2) heap pos (vs_bump v2) (vs_inv v2)
    | None => v2 end).
  destruct H2 as [H2 P2]. destruct N2 as [N2 M2]. rewrite H2, P2.
  pose proof (numeric_numbers _ N2) as NB2.
  destruct (vs_pos v x) as [p|] eqn:Ex.
  - destruct (sift_up p (vs_act v2) (vs_heap v) (vs_pos v) p) as [h q] eqn:S.
    split; [exact N2|]. cbn [vs_act vs_heap].
    assert (Hp : p < length (vs_heap v)) by (apply (proj2 W x p Logic.I); exact Ex).
    refine (sift_up_ordered _ (numbers_total _ NB2) (numbers_trans _ NB2) _ _ _ _ _ _ (le_n p) Hp _ S).
    apply (ordered_up_mono act1); [exact M2|]. apply OU. reflexivity.
  - split; [exact N2|]. rewrite H2. apply (ordered_mono act1); [exact M2|]. apply ON. reflexivity.
Qed.

(** Operations for which the order is claimed: [make_unavailable] only if the variable is
    not in the heap. *)
Lemma sixteenth_reads : exists r, reads f32_sixteenth r /\ (r * 16 = 1)%R.
Proof.
  exists (IZR 8388608 * Raux.bpow Zaux.radix2 (-27))%R. split; [apply reads_const; reflexivity|].
  change 16%R with (Raux.bpow Zaux.radix2 4). change 8388608%Z with (2^23)%Z.
  change (IZR (2^23)) with (Raux.bpow Zaux.radix2 23).
  rewrite <- !Raux.bpow_plus. reflexivity.
Qed.

Lemma decay_float_reads d : valid_binary 24 128 d = true -> set_decay_ok d = true ->
  exists r, reads d r /\ (1 < r * 16)%R.
Proof.
  intros V H. unfold set_decay_ok in H. apply andb_prop in H. destruct H as [H1 H2].
  assert (R : exists r, reads d r).
  { destruct d as [s|s| |s m e].
    - exfalso. destruct s; vm_compute in H2; discriminate.
    - exfalso. destruct s; [vm_compute in H2|vm_compute in H1]; discriminate.
    - exfalso. vm_compute in H1. discriminate.
    - destruct s; [exfalso; vm_compute in H2; discriminate|].
      eexists. apply reads_const. exact V. }
  destruct R as [r Hr]. exists r. split; [exact Hr|].
  destruct sixteenth_reads as (t & Ht & E).
  change (f32_lt f32_sixteenth d = true) in H2. apply (reads_f32_lt _ _ _ _ Ht Hr) in H2. lra.
Qed.

Lemma ordered_next v : wf v -> ordered (vs_act v) (vs_heap v) -> 0 < length (vs_heap v) ->
  ordered_down (vs_act v) (swap_remove 0 (vs_heap v)) 0.
Proof.
  intros W O L. pose proof (swap_remove_length 0 _ L) as Len.
  split; [|intros; lia].
  intros i I1 I2 NP. rewrite !nth_swap_remove; try lia.
  2:{ pose proof (parent_lt i I1). lia. }
  destruct (Nat.eqb_spec i 0); [lia|]. destruct (Nat.eqb_spec (parent i) 0); [lia|].
  apply O; lia.
Qed.

Definition in_order (v : vsids) : Prop := numeric v /\ wf v /\ ordered (vs_act v) (vs_heap v).

Lemma vstep_in_order v o v' r : in_order v -> op_float o -> vstep v o = Some (v', r) ->
  (forall x, o = OUnavail x -> ~ In x (vs_heap v)) -> in_order v'.
Proof.
  intros (NM & W & O) F S NU.
  pose proof (proj1 (vstep_wf _ _ _ _ W S)) as W'.
  pose proof (numeric_numbers _ NM) as NB.
  enough (numeric v' /\ ordered (vs_act v') (vs_heap v')) as [? ?] by (split; [assumption|split; assumption]).
  destruct o as [x| |d|x|x|x|]; cbn [vstep] in *.
  - injection S as <- <-. apply bump_spec; assumption.
  - injection S as <- <-. unfold vsids_decay.
    destruct NM as (A & (b & Hb & Lb) & (i & Hi & Li)).
    pose proof (reads_nonneg _ _ Hb) as Pb. pose proof (reads_nonneg _ _ Hi) as Pi.
    destruct reads_16_limits as (z & Hz).
    assert (L : (b * i <= 16 * fL)%R).
    { rewrite (Rmult_comm 16). apply Rmult_le_compat; lra. }
    pose proof (reads_mul _ _ _ _ _ _ Hb Hi Hz L) as M.
    pose proof (reads_le_rnd _ _ _ _ Hb Hz _ L) as Ub.
    cbn [vs_bump].
    set (v1 := Vsids (vs_act v) (vs_heap v) (vs_pos v) (f32_mul (vs_bump v) (vs_inv v)) (vs_inv v)).
    assert (A16 : forall x, exists r, reads (vs_act v x) r /\ (r <= 16 * fL)%R).
    { intros x. destruct (A x) as (r & Hr & Lr). exists r. split; [exact Hr|].
      apply lt16; [exact (reads_nonneg _ _ Hr)|exact Lr]. }
    destruct (f32_ge (f32_mul (vs_bump v) (vs_inv v)) rescale_limit) eqn:G.
    + destruct (rescale_numeric v1 A16) as [N2 M2]; [eexists; split; [exact M|exact Ub]|exists i; auto|].
      split; [exact N2|]. apply (ordered_mono (vs_act v)); [exact M2|exact O].
    + split; [|exact O]. split; [exact A|]. split; [|exists i; auto].
      eexists. split; [exact M|].
      match goal with |- (?t < _)%R => destruct (Rlt_or_le t fL) as [|C]; [assumption|exfalso] end.
      assert (f32_ge (f32_mul (vs_bump v) (vs_inv v)) rescale_limit = true).
      { apply (reads_f32_ge _ _ _ _ M reads_limit). lra. }
      congruence.
  - destruct (set_decay_ok d) eqn:D; [|discriminate]. injection S as <- <-.
    split; [|exact O]. destruct NM as (A & B & _). split; [exact A|]. split; [exact B|].
    cbn [vsids_set_decay vs_inv].
    destruct (decay_float_reads d F D) as (r & Hr & Lr).
    assert (Pr : (0 < r)%R) by lra.
    assert (L : (1 / r <= 16)%R).
    { apply (Rmult_le_reg_r r); [exact Pr|]. unfold Rdiv. rewrite Rmult_assoc, Rinv_l by lra. lra. }
    pose proof (reads_div _ _ _ _ _ _ reads_one Hr Pr reads_16 L) as M.
    eexists. split; [exact M|]. refine (reads_le_rnd _ _ _ _ reads_one reads_16 _ L).
  - unfold vsids_reset in S. destruct (vs_pos v x) eqn:Ex; [discriminate|]. injection S as <- <-.
    cbn [vs_act vs_heap]. split.
    + destruct NM as (A & B & I). split; [|split; [exact B|exact I]].
      intros y. cbn [vs_act]. unfold upd. destruct (N.eqb_spec y x); [|apply A].
      exists 0%R. split; [apply reads_zero|]. pose proof fL_large. lra.
    + intros i I1 I2. pose proof (parent_lt i I1) as Pl.
      assert (Q : forall i, i < length (vs_heap v) -> nth i (vs_heap v) 0%N <> x).
      { intros j Hj E. assert (vs_pos v x = Some j) by (apply (proj2 W x j Logic.I); auto). congruence. }
      unfold geq. rewrite !upd_ne by (apply Q; lia). apply O; assumption.
  - injection S as <- <-. unfold vsids_make_available.
    destruct (vs_pos v x) as [p|] eqn:Ex; [split; assumption|].
    destruct (sift_up _ _ _ _ _) as [h q] eqn:S. split; [exact NM|]. cbn [vs_act vs_heap].
    refine (sift_up_ordered _ (numbers_total _ NB) (numbers_trans _ NB) _ _ _ _ _ _ (le_n _) _ _ S).
    { rewrite app_length. cbn. lia. }
    split; rewrite app_length; cbn [length]; intros i I1 I2.
    + intros NE. pose proof (parent_lt i I1). rewrite !app_nth1 by lia. apply O; lia.
    + intros Ei. pose proof (parent_lt i I1). lia.
  - injection S as <- <-. unfold vsids_make_unavailable.
    destruct (vs_pos v x) as [p|] eqn:Ex; [|split; assumption].
    exfalso. apply (NU x eq_refl). apply in_heap; [exact W|]. congruence.
  - unfold vsids_next in S. destruct (vs_heap v) as [|x rest] eqn:Eh.
    { injection S as <- <-. rewrite Eh. split; assumption. }
    rewrite <- Eh in *.
    assert (L : 0 < length (vs_heap v)) by (rewrite Eh; cbn; lia).
    pose proof (ordered_next v W O L) as OD.
    set (h := swap_remove 0 (vs_heap v)) in *.
    destruct (match h with [] => _ | _ => _ end) as [h' q'] eqn:E. injection S as <- <-.
    split; [exact NM|]. cbn [vs_act vs_heap].
    destruct h as [|top h0] eqn:E0.
    + injection E as <- _. intros i I1 I2. cbn in I2. lia.
    + refine (sift_down_ordered _ (numbers_total _ NB) (numbers_trans _ NB) _ _ _ _ _ _ _ _ OD E); cbn; lia.
Qed.

(** Reached without removing a variable other than by popping it. *)
Inductive vreach_pop : vsids -> Prop :=
| vreach_pop_init : vreach_pop vsids_default
| vreach_pop_step v o v' r : vreach_pop v -> op_float o -> vstep v o = Some (v', r) ->
    (forall x, o = OUnavail x -> ~ In x (vs_heap v)) -> vreach_pop v'.

Lemma vreach_pop_in_order v : vreach_pop v -> in_order v.
Proof.
  induction 1 as [|v o v' r _ IH F S NU]; [|exact (vstep_in_order _ _ _ _ IH F S NU)].
  split; [|split].
  - pose proof fL_large. split; [|split].
    + intros x. exists 0%R. split; [apply reads_zero|lra].
    + exists 1%R. split; [apply reads_one|lra].
    + exists (IZR 8830114 * Raux.bpow Zaux.radix2 (-23))%R. split.
      * replace (vs_inv vsids_default) with (S754_finite false 8830114 (-23)) by (vm_compute; reflexivity).
        apply reads_const. reflexivity.
      * replace 16%R with (IZR (2^27) * Raux.bpow Zaux.radix2 (-23))%R.
        -- apply Rmult_le_compat_r; [apply Raux.bpow_ge_0|]. apply IZR_le. vm_compute. discriminate.
        -- change (IZR (2^27)) with (Raux.bpow Zaux.radix2 27). rewrite <- Raux.bpow_plus. reflexivity.
  - apply (vreach_wf (fun _ => True)). constructor.
  - intros i _ H. cbn in H. lia.
Qed.

(** The popped variable has the largest activity.  Missing for the full statement: states
    in which a variable was taken out by [make_unavailable], see
    [C21_next_max_refuted]. *)
Theorem C21_next_max_partial : forall v x v', vreach_pop v -> vsids_next v = Some (x, v') ->
  forall y, In y (vs_heap v) -> of_ge (vs_act v x) (vs_act v y) = true.
Proof.
  intros v x v' R S y Hy. apply vreach_pop_in_order in R. destruct R as (NM & W & O).
  pose proof (numeric_numbers _ NM) as NB.
  apply (In_nth _ _ 0%N) in Hy. destruct Hy as (i & Hi & <-).
  pose proof (ordered_top _ (numbers_total _ NB) (numbers_trans _ NB) _ O i Hi) as T.
  unfold vsids_next in S. destruct (vs_heap v) as [|t rest] eqn:E; [discriminate|].
  destruct (match swap_remove 0 (t :: rest) with [] => _ | _ => _ end). injection S as <- _. exact T.
Qed.
Print Assumptions C21_next_max_partial.

(** No activity becomes infinite or NaN, and comparisons are those of real numbers. *)
Theorem C21_activities_finite : forall v x, vreach_pop v ->
  exists r, reads (vs_act v x) r /\ (r < fL)%R.
Proof. intros v x R. apply vreach_pop_in_order in R. destruct R as ((A & _) & _). apply A. Qed.
Print Assumptions C21_activities_finite.

(** Running a list of operations. *)
Fixpoint vrun (v : vsids) (os : list vop) : option vsids :=
  match os with
  | [] => Some v
  | o :: os => match vstep v o with Some (v, _) => vrun v os | None => None end
  end.

Lemma vrun_reach os : forall v v', vreach (fun _ => True) v -> Forall op_float os ->
  vrun v os = Some v' -> vreach (fun _ => True) v'.
Proof.
  induction os as [|o os IH]; intros v v' R F E; cbn [vrun] in E.
  - injection E as <-. exact R.
  - apply Forall_cons_iff in F. destruct F as [F1 F2].
    destruct (vstep v o) as [[w r]|] eqn:S; [|discriminate].
    refine (IH w v' _ F2 E). exact (vreach_step _ _ _ _ _ R F1 Logic.I S).
Qed.

(** [make_unavailable] moves the last element of the heap to the place of the removed one
    and only sifts it down.  If its activity is larger than that of its new parent the
    order is lost, and a later [next] does not return the most active variable. *)
Definition C21_ops : list vop :=
  repeat (OBump 0) 10 ++ repeat (OBump 1) 2 ++ repeat (OBump 2) 9 ++
  repeat (OBump 3) 1 ++ repeat (OBump 4) 1 ++ repeat (OBump 5) 8 ++ repeat (OBump 6) 7 ++
  [OAvail 0; OAvail 1; OAvail 2; OAvail 3; OAvail 4; OAvail 5; OAvail 6;
   OUnavail 3; OAvail 7; ONext; ONext; ONext].
Theorem C21_next_max_refuted : exists v x v' y, vreach (fun _ => True) v /\
  vsids_next v = Some (x, v') /\ In y (vs_heap v) /\ of_ge (vs_act v x) (vs_act v y) = false.
Proof.
  destruct (vrun vsids_default C21_ops) as [v|] eqn:E; [|vm_compute in E; discriminate].
  exists v, 1%N.
  assert (R : vreach (fun _ => True) v).
  { refine (vrun_reach C21_ops _ _ (vreach_init _) _ E). unfold C21_ops.
    repeat (apply Forall_app; split); repeat constructor. }
  assert (H : match vrun vsids_default C21_ops with
              | Some v => match vsids_next v with Some (x, _) => x = 1%N /\ In 6%N (vs_heap v)
                            /\ of_ge (vs_act v x) (vs_act v 6%N) = false | None => False end
              | None => False end).
  { vm_compute. intuition. }
  rewrite E in H. destruct (vsids_next v) as [[x v']|] eqn:Nx; [|contradiction].
  destruct H as (-> & H1 & H2). exists v', 6%N. auto.
Qed.
Print Assumptions C21_next_max_refuted.

Example C21_ex :
  match vrun vsids_default [OAvail 5; OAvail 2; OBump 2; ODecay; OBump 7; OAvail 7; OAvail 9; OBump 9; OBump 9] with
  | Some v => match vsids_next v with Some (x, v') => x = 9%N /\ vs_heap v' = [7; 5; 2]%N | None => False end
  | None => False
  end.
Proof. vm_compute. split; reflexivity. Qed.
