(** DRAT proofs as other programs check them.  Not a model of code in /repo: specification only.
    Clauses are lists of DIMACS literals; a proof is a list of additions ([true]) and deletions.
    Only the part without resolution asymmetric tautologies is described: every clause that is
    added has to be implied by unit propagation. *)
From Coq Require Import ZArith List Bool Lia.
Import ListNotations.
Local Open Scope Z_scope.

(** The literals that unit propagation makes true, starting with those of [A] *)
Inductive implied (F : list (list Z)) (A : list Z) : Z -> Prop :=
| im_assumed l : In l A -> implied F A l
| im_unit C l : In C F -> In l C -> (forall x, In x C -> x <> l -> implied F A (- x)) -> implied F A l.
(** Unit propagation makes all literals of a clause false. *)
Definition conflicts (F : list (list Z)) (A : list Z) : Prop := exists C, In C F /\ forall x, In x C -> implied F A (- x).
(** Reverse unit propagation *)
Definition has_rup (F : list (list Z)) (c : list Z) : Prop := conflicts F (map Z.opp c).

(** Clauses with the same literals *)
Definition zmem (z : Z) (l : list Z) : bool := existsb (Z.eqb z) l.
Definition same_clause (a b : list Z) : bool := forallb (fun z => zmem z b) a && forallb (fun z => zmem z a) b.
Fixpoint delete_clause (c : list Z) (F : list (list Z)) : list (list Z) :=
  match F with [] => [] | D :: F => if same_clause c D then F else D :: delete_clause c F end.

(** Every added clause follows by unit propagation, every deleted clause is there and has at least
    two different literals.  Some checkers ignore some deletions: [ignore]. *)
Fixpoint drat_valid (ignore : list (list Z) -> list Z -> bool) (F : list (list Z)) (es : list (bool * list Z)) : Prop :=
  match es with
  | [] => True
  | (true, c) :: es => has_rup F c /\ drat_valid ignore (c :: F) es
  | (false, c) :: es =>
      existsb (same_clause c) F = true /\ (exists x y, In x c /\ In y c /\ x <> y) /\
      drat_valid ignore (if ignore F c then F else delete_clause c F) es
  end.
(** The clauses in the end *)
Fixpoint drat_final (ignore : list (list Z) -> list Z -> bool) (F : list (list Z)) (es : list (bool * list Z)) : list (list Z) :=
  match es with
  | [] => F
  | (true, c) :: es => drat_final ignore (c :: F) es
  | (false, c) :: es => drat_final ignore (if ignore F c then F else delete_clause c F) es
  end.
(** A refutation ends with a contradiction. *)
Definition drat_refutes (ignore : list (list Z) -> list Z -> bool) (F : list (list Z)) (es : list (bool * list Z)) : Prop :=
  drat_valid ignore F es /\ conflicts (drat_final ignore F es) [].

(** * Such proofs are sound *)
(** [a] tells which literals are true. *)
Definition consistent (a : Z -> bool) : Prop := forall z, z <> 0 -> a (- z) = negb (a z).
Definition no_zero (c : list Z) : Prop := ~ In 0 c.
Lemma implied_sound F A a : consistent a -> Forall no_zero F -> Forall (fun C => existsb a C = true) F -> (forall l, In l A -> a l = true) -> forall l, implied F A l -> a l = true.
Proof.
  intros K Z H HA l I. induction I as [l I|C l IC Il _ IH]; [auto|]. rewrite Forall_forall in H, Z. specialize (H C IC). specialize (Z C IC). apply existsb_exists in H as (x&Ix&Hx).
  destruct (Z.eq_dec x l) as [<-|NE]; [exact Hx|]. specialize (IH x Ix NE). rewrite K, Hx in IH by (intros ->; exact (Z Ix)). discriminate.
Qed.
Lemma conflicts_sound F A a : consistent a -> Forall no_zero F -> Forall (fun C => existsb a C = true) F -> (forall l, In l A -> a l = true) -> ~ conflicts F A.
Proof.
  intros K Z H HA (C&IC&HC). pose proof H as H0. rewrite Forall_forall in H. specialize (H C IC). apply existsb_exists in H as (x&Ix&Hx).
  pose proof (implied_sound F A a K Z H0 HA _ (HC x Ix)) as X. rewrite Forall_forall in Z. rewrite K, Hx in X by (intros ->; exact (Z C IC Ix)). discriminate.
Qed.
Lemma delete_incl c F : incl (delete_clause c F) F.
Proof. induction F as [|D F IH]; [apply incl_refl|]. cbn [delete_clause]. destruct (same_clause c D); intros x I; [right; exact I|]. destruct I as [<-|I]; [left; reflexivity|right; apply IH, I]. Qed.
Lemma delete_forall P c F : Forall P F -> Forall P (delete_clause c F).
Proof. intros H. apply Forall_forall. intros x I. rewrite Forall_forall in H. apply H. eapply delete_incl. exact I. Qed.
Lemma drat_sound ignore a : consistent a -> forall es F, Forall (fun e => no_zero (snd e)) es -> Forall no_zero F -> drat_valid ignore F es -> Forall (fun C => existsb a C = true) F ->
  Forall (fun C => existsb a C = true) (drat_final ignore F es) /\ Forall no_zero (drat_final ignore F es).
Proof.
  intros K. induction es as [|[[] c] es IH]; intros F Ze ZF V H; [split; assumption| |]; inversion Ze; subst; cbn [drat_valid drat_final snd] in *.
  - destruct V as [R V]. apply IH; auto. constructor; [|exact H]. destruct (existsb a c) eqn:E; [reflexivity|]. exfalso. revert R. apply (conflicts_sound _ _ a K ZF H).
    intros l I. apply in_map_iff in I as (x&<-&I). rewrite K by (intros ->; contradiction). destruct (a x) eqn:X; [|reflexivity]. assert (existsb a c = true) by (apply existsb_exists; eauto). congruence.
  - destruct V as (_&_&V). apply IH; auto; destruct (ignore F c); auto using delete_forall.
Qed.
