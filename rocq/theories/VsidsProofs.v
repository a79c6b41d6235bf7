(** Proofs about the decision heap of Vsids.v. *)
From Coq Require Import Lia Arith PeanoNat.
From Verif Require Import Spec F32 Vsids.
Local Open Scope nat_scope.

(** * Vectors *)
Lemma set_nth_length {A} n (x : A) l : length (set_nth n x l) = length l.
Proof. revert n. induction l as [|y l IH]; intros [|n]; cbn; auto. Qed.

Lemma nth_set_nth {A} i j (x : A) l d :
  nth i (set_nth j x l) d = if (i =? j) && (j <? length l) then x else nth i l d.
Proof.
  revert i j. induction l as [|y l IH]; intros i j; cbn [set_nth length].
  - destruct (Nat.ltb_spec j 0); [lia|]. rewrite andb_false_r. destruct j; reflexivity.
  - destruct j as [|j], i as [|i]; cbn [nth set_nth Nat.eqb andb]; try reflexivity.
    rewrite IH. reflexivity.
Qed.

Lemma removelast_length {A} (l : list A) : length (removelast l) = pred (length l).
Proof.
  destruct l as [|x l] using rev_ind; [reflexivity|].
  rewrite removelast_last, app_length. cbn. lia.
Qed.

Lemma swap_remove_length {A} p (l : list A) : p < length l -> length (swap_remove p l) = pred (length l).
Proof.
  intros H. unfold swap_remove.
  destruct l as [|y l] using rev_ind; [cbn in H; lia|].
  rewrite rev_app_distr. cbn [rev app]. rewrite removelast_last.
  destruct (Nat.eqb_spec p (length l)); rewrite ?set_nth_length, app_length; cbn; lia.
Qed.

Lemma nth_swap_remove {A} p (l : list A) d i : p < length l -> i < pred (length l) ->
  nth i (swap_remove p l) d = if i =? p then nth (pred (length l)) l d else nth i l d.
Proof.
  intros H Hi. unfold swap_remove.
  destruct l as [|y l _] using rev_ind; [cbn in H; lia|].
  rewrite rev_app_distr. cbn [rev app]. rewrite removelast_last, app_length in *. cbn [length] in *.
  replace (pred (length l + 1)) with (length l) in * by lia.
  rewrite (app_nth2 l [y] d (le_n (length l))), Nat.sub_diag. cbn [nth].
  rewrite (app_nth1 l [y]) by lia.
  destruct (Nat.eqb_spec p (length l)) as [->|NE].
  - destruct (Nat.eqb_spec i (length l)); [lia|reflexivity].
  - rewrite nth_set_nth. destruct (Nat.ltb_spec p (length l)); [|lia]. rewrite andb_true_r. reflexivity.
Qed.

(** * Heap and positions agree *)

(** [agrees D heap pos]: every element of the heap is in [D], and for variables in [D] the
    positions are those of the heap. *)
Definition agrees (D : N -> Prop) (heap : list N) (pos : N -> option nat) : Prop :=
  (forall p, p < length heap -> D (nth p heap 0%N)) /\
  (forall x p, D x -> (pos x = Some p <-> p < length heap /\ nth p heap 0%N = x)).

Lemma upd_eq {A} (f : N -> A) i x : upd f i x i = x.
Proof. unfold upd. rewrite N.eqb_refl. reflexivity. Qed.
Lemma upd_ne {A} (f : N -> A) i x j : j <> i -> upd f i x j = f j.
Proof. unfold upd. intros H. apply N.eqb_neq in H. rewrite H. reflexivity. Qed.

(** Exchange of two elements, as done by both loops. *)
Definition swapped (heap : list N) (p q : nat) : list N :=
  set_nth p (nth q heap 0%N) (set_nth q (nth p heap 0%N) heap).
Definition swapped_pos (heap : list N) (pos : N -> option nat) (p q : nat) : N -> option nat :=
  upd (upd pos (nth p heap 0%N) (Some q)) (nth q heap 0%N) (Some p).

Lemma swapped_length heap p q : length (swapped heap p q) = length heap.
Proof. unfold swapped. rewrite !set_nth_length. reflexivity. Qed.

Lemma nth_swapped heap p q i : p < length heap -> q < length heap -> p <> q ->
  nth i (swapped heap p q) 0%N =
  nth (if i =? p then q else if i =? q then p else i) heap 0%N.
Proof.
  intros Hp Hq NE. unfold swapped. rewrite !nth_set_nth, set_nth_length.
  apply Nat.ltb_lt in Hp, Hq. rewrite Hp, Hq, !andb_true_r.
  destruct (Nat.eqb_spec i p), (Nat.eqb_spec i q); try lia; reflexivity.
Qed.

Lemma agrees_inj D heap pos i j : agrees D heap pos -> i < length heap -> j < length heap ->
  nth i heap 0%N = nth j heap 0%N -> i = j.
Proof.
  intros [A1 A2] Hi Hj E.
  assert (pos (nth i heap 0%N) = Some i) by (apply A2; auto).
  assert (pos (nth j heap 0%N) = Some j) by (apply A2; auto).
  rewrite E in *. congruence.
Qed.

Lemma agrees_swapped D heap pos p q : agrees D heap pos -> p < length heap -> q < length heap -> p <> q ->
  agrees D (swapped heap p q) (swapped_pos heap pos p q).
Proof.
  intros A Hp Hq NE.
  pose proof (agrees_inj _ _ _ p q A Hp Hq) as Inj.
  assert (NV : nth p heap 0%N <> nth q heap 0%N) by (intros E; exact (NE (Inj E))).
  destruct A as [A1 A2].
  split; rewrite swapped_length.
  - intros i Hi. rewrite nth_swapped by assumption. apply A1.
    destruct (i =? p), (i =? q); assumption.
  - intros x i Dx. rewrite nth_swapped by assumption. unfold swapped_pos, upd.
    destruct (N.eqb_spec x (nth q heap 0%N)) as [->|NQ].
    { split.
      - intros E. injection E as <-. rewrite Nat.eqb_refl. auto.
      - intros [Hi E]. f_equal. destruct (Nat.eqb_spec i p); [congruence|].
        exfalso. destruct (Nat.eqb_spec i q); [congruence|].
        apply n0. apply (agrees_inj D heap pos); [split|..]; assumption. }
    destruct (N.eqb_spec x (nth p heap 0%N)) as [->|NP].
    { split.
      - intros E. injection E as <-. destruct (Nat.eqb_spec q p); [congruence|].
        rewrite Nat.eqb_refl. auto.
      - intros [Hi E]. f_equal. destruct (Nat.eqb_spec i p); [congruence|].
        destruct (Nat.eqb_spec i q); [congruence|].
        exfalso. apply n. apply (agrees_inj D heap pos); [split|..]; assumption. }
    rewrite (A2 x i Dx).
    destruct (Nat.eqb_spec i p) as [->|]; [|destruct (Nat.eqb_spec i q) as [->|]; [|reflexivity]].
    + split; intros [_ E]; congruence.
    + split; intros [_ E]; congruence.
Qed.

Lemma swapped_avail heap pos p q x : pos (nth p heap 0%N) <> None -> pos (nth q heap 0%N) <> None ->
  (swapped_pos heap pos p q x = None <-> pos x = None).
Proof.
  intros Hp Hq. unfold swapped_pos, upd.
  destruct (N.eqb_spec x (nth q heap 0%N)) as [->|]; [split; [discriminate|intros; contradiction]|].
  destruct (N.eqb_spec x (nth p heap 0%N)) as [->|]; [split; [discriminate|intros; contradiction]|].
  reflexivity.
Qed.

Lemma agrees_pos D heap pos p : agrees D heap pos -> p < length heap -> pos (nth p heap 0%N) = Some p.
Proof. intros [A1 A2] H. apply A2; auto. Qed.

Definition preserves D (heap heap' : list N) (pos pos' : N -> option nat) : Prop :=
  agrees D heap' pos' /\ length heap' = length heap /\ forall x, pos' x = None <-> pos x = None.

Lemma preserves_refl D heap pos : agrees D heap pos -> preserves D heap heap pos pos.
Proof. intros A. split; [exact A|]. split; [reflexivity|]. intros x. reflexivity. Qed.

Lemma sift_up_swap act heap pos f p p' : p = S p' ->
  of_ge (act (nth (Nat.div2 p') heap 0%N)) (act (nth p heap 0%N)) = false ->
  sift_up (S f) act heap pos p =
  sift_up f act (swapped heap p (Nat.div2 p')) (swapped_pos heap pos p (Nat.div2 p')) (Nat.div2 p').
Proof. intros -> H. cbn [sift_up]. rewrite H. reflexivity. Qed.

Lemma div2_lt p : Nat.div2 p <= p.
Proof. apply Nat.div2_decr. lia. Qed.

Lemma sift_up_agrees act f : forall D heap pos p heap' pos', p <= f ->
  agrees D heap pos -> p < length heap -> sift_up f act heap pos p = (heap', pos') ->
  preserves D heap heap' pos pos'.
Proof.
  induction f as [|f IH]; intros D heap pos p heap' pos' Hf A Hp E.
  { cbn in E. injection E as <- <-. apply preserves_refl; exact A. }
  destruct p as [|p'].
  { cbn in E. injection E as <- <-. apply preserves_refl; exact A. }
  destruct (of_ge (act (nth (Nat.div2 p') heap 0%N)) (act (nth (S p') heap 0%N))) eqn:G.
  { cbn [sift_up] in E. rewrite G in E. injection E as <- <-. apply preserves_refl; exact A. }
  rewrite (sift_up_swap _ _ _ _ _ _ eq_refl G) in E.
  pose proof (div2_lt p') as L.
  assert (A' : agrees D (swapped heap (S p') (Nat.div2 p')) (swapped_pos heap pos (S p') (Nat.div2 p'))).
  { apply agrees_swapped; try assumption; lia. }
  assert (F : Nat.div2 p' <= f) by lia.
  assert (Q : Nat.div2 p' < length (swapped heap (S p') (Nat.div2 p'))) by (rewrite swapped_length; lia).
  destruct (IH D _ _ _ _ _ F A' Q E) as (B1 & B2 & B3).
  split; [exact B1|]. split; [rewrite B2; apply swapped_length|].
  intros x. rewrite B3. apply swapped_avail.
  - rewrite (agrees_pos D heap pos) by assumption. discriminate.
  - rewrite (agrees_pos D heap pos); [discriminate|assumption|lia].
Qed.

(** The child [sift_down] moves up, if any. *)
Definition best_child (act : N -> f32) (heap : list N) (p : nat) : nat :=
  let b := if (p * 2 + 1 <? length heap)
              && of_lt (act (nth p heap 0%N)) (act (nth (p * 2 + 1) heap 0%N)) then p * 2 + 1 else p in
  if (p * 2 + 2 <? length heap)
     && of_lt (act (nth b heap 0%N)) (act (nth (p * 2 + 2) heap 0%N)) then p * 2 + 2 else b.

Lemma sift_down_eq act f heap pos p :
  sift_down (S f) act heap pos p =
  let b := best_child act heap p in
  if b =? p then (heap, pos)
  else sift_down f act (swapped heap p b) (swapped_pos heap pos p b) b.
Proof.
  cbn [sift_down]. unfold best_child, swapped, swapped_pos.
  destruct ((p * 2 + 1 <? length heap)
              && of_lt (act (nth p heap 0%N)) (act (nth (p * 2 + 1) heap 0%N)));
    (destruct ((p * 2 + 2 <? length heap) && of_lt _ _); cbv zeta;
     match goal with |- context [?a =? p] => destruct (a =? p) eqn:E end; reflexivity).
Qed.

Lemma best_child_cases act heap p :
  best_child act heap p = p
  \/ (best_child act heap p = p * 2 + 1 /\ p * 2 + 1 < length heap)
  \/ (best_child act heap p = p * 2 + 2 /\ p * 2 + 2 < length heap).
Proof.
  unfold best_child.
  destruct (Nat.ltb_spec (p * 2 + 1) (length heap)), (Nat.ltb_spec (p * 2 + 2) (length heap));
    cbn [andb]; repeat match goal with |- context [if ?c then _ else _] => destruct c end; auto.
Qed.

Lemma sift_down_agrees act f : forall D heap pos p heap' pos',
  agrees D heap pos -> p < length heap -> sift_down f act heap pos p = (heap', pos') ->
  preserves D heap heap' pos pos'.
Proof.
  induction f as [|f IH]; intros D heap pos p heap' pos' A Hp E.
  { cbn in E. injection E as <- <-. apply preserves_refl; exact A. }
  rewrite sift_down_eq in E. cbv zeta in E. set (b := best_child act heap p) in *.
  destruct (Nat.eqb_spec b p) as [Eb|NE].
  { injection E as <- <-. apply preserves_refl; exact A. }
  assert (Hb : b < length heap).
  { destruct (best_child_cases act heap p) as [C|[[C L]|[C L]]]; fold b in C; lia. }
  assert (A' : agrees D (swapped heap p b) (swapped_pos heap pos p b)).
  { apply agrees_swapped; auto. }
  assert (Q : b < length (swapped heap p b)) by (rewrite swapped_length; assumption).
  destruct (IH D _ _ _ _ _ A' Q E) as (B1 & B2 & B3).
  split; [exact B1|]. split; [rewrite B2; apply swapped_length|].
  intros x. rewrite B3. apply swapped_avail; rewrite (agrees_pos D heap pos) by assumption; discriminate.
Qed.

(** * Heap order *)
Section Order.
Variable act : N -> f32.
Definition geq (x y : N) : Prop := of_ge (act x) (act y) = true.
Hypothesis geq_total : forall x y, geq x y \/ geq y x.
Hypothesis geq_trans : forall x y z, geq x y -> geq y z -> geq x z.

Definition parent (i : nat) : nat := Nat.div2 (pred i).

Definition ordered (heap : list N) : Prop :=
  forall i, 0 < i -> i < length heap -> geq (nth (parent i) heap 0%N) (nth i heap 0%N).

(** Order with the exception of the edge above [p]. *)
Definition ordered_up (heap : list N) (p : nat) : Prop :=
  (forall i, 0 < i -> i < length heap -> i <> p -> geq (nth (parent i) heap 0%N) (nth i heap 0%N)) /\
  (forall i, 0 < i -> i < length heap -> parent i = p -> 0 < p ->
     geq (nth (parent p) heap 0%N) (nth i heap 0%N)).

(** Order with the exception of the edges below [p]. *)
Definition ordered_down (heap : list N) (p : nat) : Prop :=
  (forall i, 0 < i -> i < length heap -> parent i <> p -> geq (nth (parent i) heap 0%N) (nth i heap 0%N)) /\
  (forall i, 0 < i -> i < length heap -> parent i = p -> 0 < p ->
     geq (nth (parent p) heap 0%N) (nth i heap 0%N)).

Lemma geq_refl x : geq x x.
Proof. destruct (geq_total x x); assumption. Qed.

Lemma not_geq x y : of_ge (act x) (act y) = false -> geq y x.
Proof. intros H. destruct (geq_total x y) as [K|K]; [|exact K]. unfold geq in K. congruence. Qed.

Lemma parent_lt i : 0 < i -> parent i < i.
Proof. intros H. unfold parent. pose proof (div2_lt (pred i)). lia. Qed.

Lemma parent_children i p : 0 < i -> (parent i = p <-> i = p * 2 + 1 \/ i = p * 2 + 2).
Proof.
  intros H. unfold parent. destruct i as [|i]; [lia|]. cbn [pred].
  pose proof (Nat.div2_odd i). destruct (Nat.odd i); cbn [Nat.b2n] in *; lia.
Qed.

Lemma sift_up_ordered f : forall heap pos p heap' pos', p <= f -> p < length heap ->
  ordered_up heap p -> sift_up f act heap pos p = (heap', pos') -> ordered heap'.
Proof.
  induction f as [|f IH]; intros heap pos p heap' pos' Hf Hp [O1 O2] E.
  { assert (p = 0) as -> by lia. cbn in E. injection E as <- _.
    intros i I1 I2. apply O1; lia. }
  destruct p as [|p'].
  { cbn in E. injection E as <- _. intros i I1 I2. apply O1; lia. }
  destruct (of_ge (act (nth (Nat.div2 p') heap 0%N)) (act (nth (S p') heap 0%N))) eqn:G.
  { cbn [sift_up] in E. rewrite G in E. injection E as <- _. intros i I1 I2.
    destruct (Nat.eq_dec i (S p')) as [->|NE]; [exact G|]. apply O1; assumption. }
  rewrite (sift_up_swap _ _ _ _ _ _ eq_refl G) in E.
  apply not_geq in G.
  set (p := S p') in *. assert (Pp : Nat.div2 p' = parent p) by reflexivity. rewrite Pp in *.
  assert (L : parent p < p) by (apply parent_lt; lia).
  refine (IH _ _ _ _ _ _ _ _ E); [lia| rewrite swapped_length; lia|].
  set (q := parent p) in *.
  split; rewrite swapped_length; intros i I1 I2.
  - intros NE. rewrite !nth_swapped by lia.
    pose proof (parent_lt i I1) as Li.
    destruct (Nat.eqb_spec i p) as [->|NEp].
    { fold q. destruct (Nat.eqb_spec q p); [lia|]. rewrite Nat.eqb_refl. exact G. }
    destruct (Nat.eqb_spec i q) as [|_]; [lia|].
    destruct (Nat.eqb_spec (parent i) p) as [Ep|NEpp].
    { apply (O2 i I1 I2 Ep). lia. }
    destruct (Nat.eqb_spec (parent i) q) as [Eq|NEq].
    { apply geq_trans with (nth q heap 0%N); [exact G|]. rewrite <- Eq. apply O1; assumption. }
    apply O1; assumption.
  - intros Ei Pq. rewrite !nth_swapped by lia.
    pose proof (parent_lt q Pq) as Lq.
    destruct (Nat.eqb_spec (parent q) p); [lia|]. destruct (Nat.eqb_spec (parent q) q); [lia|].
    assert (Gq : geq (nth (parent q) heap 0%N) (nth q heap 0%N)) by (apply O1; lia).
    destruct (Nat.eqb_spec i p) as [->|NEp]; [exact Gq|].
    destruct (Nat.eqb_spec i q) as [|_]; [subst i; lia|].
    apply geq_trans with (nth q heap 0%N); [exact Gq|]. rewrite <- Ei. apply O1; assumption.
Qed.

Lemma best_child_max heap p : let b := best_child act heap p in
  geq (nth b heap 0%N) (nth p heap 0%N) /\
  (forall i, 0 < i -> i < length heap -> parent i = p -> geq (nth b heap 0%N) (nth i heap 0%N)).
Proof.
  cbv zeta. unfold best_child.
  set (l := p * 2 + 1). set (r := p * 2 + 2).
  set (b := if (l <? length heap) && of_lt (act (nth p heap 0%N)) (act (nth l heap 0%N)) then l else p).
  assert (B : geq (nth b heap 0%N) (nth p heap 0%N)
              /\ (l < length heap -> geq (nth b heap 0%N) (nth l heap 0%N))).
  { unfold b. destruct (Nat.ltb_spec l (length heap)) as [L|L]; cbn [andb];
      [|split; [apply geq_refl|lia]].
    unfold of_lt. destruct (of_cmp (act (nth p heap 0%N)) (act (nth l heap 0%N))) eqn:C.
    - split; [apply geq_refl|intros _; unfold geq, of_ge; rewrite C; reflexivity].
    - split; [apply not_geq; unfold of_ge; rewrite C; reflexivity | intros _; apply geq_refl].
    - split; [apply geq_refl|intros _; unfold geq, of_ge; rewrite C; reflexivity]. }
  destruct B as [B1 B2].
  assert (R : let c := if (r <? length heap) && of_lt (act (nth b heap 0%N)) (act (nth r heap 0%N)) then r else b in
              geq (nth c heap 0%N) (nth b heap 0%N)
              /\ (r < length heap -> geq (nth c heap 0%N) (nth r heap 0%N))).
  { cbv zeta. destruct (Nat.ltb_spec r (length heap)) as [L|L]; cbn [andb];
      [|split; [apply geq_refl|lia]].
    unfold of_lt. destruct (of_cmp (act (nth b heap 0%N)) (act (nth r heap 0%N))) eqn:C.
    - split; [apply geq_refl|intros _; unfold geq, of_ge; rewrite C; reflexivity].
    - split; [apply not_geq; unfold of_ge; rewrite C; reflexivity | intros _; apply geq_refl].
    - split; [apply geq_refl|intros _; unfold geq, of_ge; rewrite C; reflexivity]. }
  cbv zeta in R. destruct R as [R1 R2].
  split.
  - apply geq_trans with (nth b heap 0%N); assumption.
  - intros i I1 I2 Pi. apply parent_children in Pi; [|assumption].
    destruct Pi as [->| ->]; [|exact (R2 I2)].
    apply geq_trans with (nth b heap 0%N); [exact R1|exact (B2 I2)].
Qed.

Lemma sift_down_ordered f : forall heap pos p heap' pos', p < length heap -> length heap <= f + p ->
  ordered_down heap p -> sift_down f act heap pos p = (heap', pos') -> ordered heap'.
Proof.
  induction f as [|f IH]; intros heap pos p heap' pos' Hp Hf [O1 O2] E; [lia|].
  rewrite sift_down_eq in E. cbv zeta in E.
  destruct (best_child_max heap p) as [M1 M2].
  pose proof (best_child_cases act heap p) as C.
  set (b := best_child act heap p) in *.
  destruct (Nat.eqb_spec b p) as [Eb|NE].
  { injection E as <- _. intros i I1 I2. rewrite Eb in M2.
    destruct (Nat.eq_dec (parent i) p) as [Ep|NEp]; [rewrite Ep; apply M2; assumption|].
    apply O1; assumption. }
  assert (Hb : p < b /\ b < length heap) by lia.
  assert (Pb : parent b = p) by (apply parent_children; lia).
  refine (IH _ _ _ _ _ _ _ _ E); [rewrite swapped_length; lia| rewrite swapped_length; lia|].
  split; rewrite swapped_length; intros i I1 I2.
  - intros NP. rewrite !nth_swapped by lia.
    pose proof (parent_lt i I1) as Li.
    destruct (Nat.eqb_spec i p) as [->|NEi].
    { destruct (Nat.eqb_spec (parent p) p); [lia|]. destruct (Nat.eqb_spec (parent p) b); [lia|].
      apply O2; try lia. }
    destruct (Nat.eqb_spec (parent i) p) as [Ep|NEp].
    { destruct (Nat.eqb_spec i b) as [->|NEb]; [exact M1|]. apply M2; assumption. }
    destruct (Nat.eqb_spec (parent i) b); [contradiction|].
    destruct (Nat.eqb_spec i b) as [->|NEb]; [congruence|].
    apply O1; assumption.
  - intros Ei Pq. rewrite !nth_swapped by lia. rewrite Pb, Nat.eqb_refl.
    pose proof (parent_lt i I1) as Li.
    destruct (Nat.eqb_spec i p); [lia|]. destruct (Nat.eqb_spec i b); [lia|].
    rewrite <- Ei. apply O1; lia.
Qed.

(** The first element of an ordered heap is maximal. *)
Lemma ordered_top heap : ordered heap -> forall i, i < length heap -> geq (nth 0 heap 0%N) (nth i heap 0%N).
Proof.
  intros O i. induction i as [i IH] using lt_wf_ind. intros Hi.
  destruct (Nat.eq_dec i 0) as [->|NE]; [apply geq_refl|].
  pose proof (parent_lt i ltac:(lia)) as L.
  apply geq_trans with (nth (parent i) heap 0%N); [apply IH; lia|]. apply O; lia.
Qed.
End Order.
