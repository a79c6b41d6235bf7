(** Vectors indexed by [N]: the part of [Vec] used by the models. *)
From Coq Require Import Bool Arith NArith ZArith ZifyBool ZifyNat ZifyN Lia List.
Import ListNotations.
Open Scope N_scope.

Section Vec.
Context {A : Type}.

(** [v.get(i)]; [None] is out of bounds (a panic for [v[i]]). *)
Definition vget (l : list A) (i : N) : option A := nth_error l (N.to_nat i).

Fixpoint upd (l : list A) (i : nat) (x : A) : list A :=
  match l, i with
  | [], _ => []
  | _ :: l, O => x :: l
  | y :: l, S i => y :: upd l i x
  end.
(** [v[i] = x], no effect out of bounds (callers check). *)
Definition vset (l : list A) (i : N) (x : A) : list A := upd l (N.to_nat i) x.

(** [v.resize(n, d)] *)
Definition vresize (l : list A) (n : N) (d : A) : list A :=
  firstn (N.to_nat n) l ++ repeat d (N.to_nat n - length l).

Definition vlen (l : list A) : N := N.of_nat (length l).

Lemma upd_length l : forall i x, length (upd l i x) = length l.
Proof. induction l; intros [|i] x; cbn; auto. Qed.

Lemma upd_eq l : forall i x, (i < length l)%nat -> nth_error (upd l i x) i = Some x.
Proof. induction l; intros [|i] x H; cbn in *; try lia; auto. apply IHl. lia. Qed.

Lemma upd_ne l : forall i j x, i <> j -> nth_error (upd l i x) j = nth_error l j.
Proof. induction l; intros [|i] [|j] x H; cbn; auto; try congruence. Qed.

Lemma upd_upd l : forall i x y, upd (upd l i x) i y = upd l i y.
Proof. induction l; intros [|i] x y; cbn; auto. rewrite IHl. reflexivity. Qed.

Lemma upd_same l : forall i x, nth_error l i = Some x -> upd l i x = l.
Proof. induction l; intros [|i] x H; cbn in *; auto; [congruence|]. rewrite IHl; auto. Qed.

Lemma upd_comm l : forall i j x y, i <> j -> upd (upd l i x) j y = upd (upd l j y) i x.
Proof. induction l; intros [|i] [|j] x y H; cbn; auto; try congruence. rewrite IHl; auto. Qed.

Lemma upd_oob l : forall i x, (length l <= i)%nat -> upd l i x = l.
Proof. induction l; intros [|i] x H; cbn in *; auto; try lia. rewrite IHl; auto; lia. Qed.

Lemma vset_len l i x : vlen (vset l i x) = vlen l.
Proof. unfold vlen, vset. rewrite upd_length. reflexivity. Qed.

Lemma vset_length l i x : length (vset l i x) = length l.
Proof. apply upd_length. Qed.

Lemma vget_some_lt l i x : vget l i = Some x -> i < vlen l.
Proof. unfold vget, vlen. intros H. assert (nth_error l (N.to_nat i) <> None) by congruence. apply nth_error_Some in H0. lia. Qed.

Lemma vget_lt l i : i < vlen l <-> exists x, vget l i = Some x.
Proof.
  unfold vget, vlen. split.
  - intros H. destruct (nth_error l (N.to_nat i)) eqn:E; [eauto|]. apply nth_error_None in E. lia.
  - intros [x H]. eapply vget_some_lt. exact H.
Qed.

Lemma vget_none l i : vget l i = None <-> vlen l <= i.
Proof. unfold vget, vlen. rewrite nth_error_None. lia. Qed.

Lemma vget_vset_eq l i x : i < vlen l -> vget (vset l i x) i = Some x.
Proof. unfold vget, vset, vlen. intros. apply upd_eq. lia. Qed.

Lemma vget_vset_ne l i j x : i <> j -> vget (vset l i x) j = vget l j.
Proof. unfold vget, vset. intros. apply upd_ne. lia. Qed.

Lemma vget_vset l i j x : vget (vset l i x) j = if (i =? j) && (i <? vlen l) then Some x else vget l j.
Proof.
  destruct (N.eqb_spec i j) as [->|E]; cbn [andb]; [|apply vget_vset_ne; exact E].
  destruct (N.ltb_spec j (vlen l)); [apply vget_vset_eq; assumption|].
  unfold vset, vget. rewrite upd_oob by (unfold vlen in *; lia). reflexivity.
Qed.

Lemma vset_vset l i x y : vset (vset l i x) i y = vset l i y.
Proof. apply upd_upd. Qed.

Lemma vset_same l i x : vget l i = Some x -> vset l i x = l.
Proof. apply upd_same. Qed.

Lemma vset_comm l i j x y : i <> j -> vset (vset l i x) j y = vset (vset l j y) i x.
Proof. intros. apply upd_comm. lia. Qed.

Lemma vresize_length l n d : length (vresize l n d) = N.to_nat n.
Proof. unfold vresize. rewrite app_length, firstn_length, repeat_length. lia. Qed.

Lemma vresize_len l n d : vlen (vresize l n d) = n.
Proof. unfold vlen. rewrite vresize_length. lia. Qed.

Lemma vget_resize l n d i : vlen l <= n ->
  vget (vresize l n d) i = if i <? vlen l then vget l i else if i <? n then Some d else None.
Proof.
  unfold vlen, vget, vresize. intros H. rewrite firstn_all2 by lia.
  destruct (N.ltb_spec i (N.of_nat (length l))).
  - apply nth_error_app1. lia.
  - rewrite nth_error_app2 by lia. destruct (N.ltb_spec i n).
    + apply nth_error_repeat. lia.
    + apply nth_error_None. rewrite repeat_length. lia.
Qed.

Lemma vget_in l i x : vget l i = Some x -> In x l.
Proof. apply nth_error_In. Qed.

Lemma in_vget l x : In x l -> exists i, vget l i = Some x.
Proof. intros H. apply In_nth_error in H. destruct H as [n H]. exists (N.of_nat n). unfold vget. rewrite Nat2N.id. exact H. Qed.

Lemma vec_ext l1 l2 : (forall i, vget l1 i = vget l2 i) -> l1 = l2.
Proof.
  intros H. assert (H' : forall i, nth_error l1 i = nth_error l2 i).
  { intros i. specialize (H (N.of_nat i)). unfold vget in H. rewrite Nat2N.id in H. exact H. }
  clear H. revert l2 H'. induction l1 as [|a l1 IH]; intros [|b l2] H; auto.
  - specialize (H 0%nat). discriminate.
  - specialize (H 0%nat). discriminate.
  - pose proof (H 0%nat) as H0. cbn in H0. inversion H0; subst. f_equal. apply IH. intros i. exact (H (S i)).
Qed.

End Vec.
