(** Unit propagation with a list of clauses as used by the hints of proofs (compare rup.rs:39-203, for
    example); this is part of specifications and independent of the model. *)
From Verif Require Import Spec Lit.

(** Unit propagation with the clauses of a list in order, starting with the literals of [K]: every
    clause has at most one literal that is not false, which is then true; the last one has none. *)
Inductive rup : list N -> list (list N) -> Prop :=
| rup_conflict K D rest : (forall x, In x D -> In (lnot x) K) -> rup K (D :: rest)
| rup_unit K D l rest : In l D -> (forall x, In x D -> x = l \/ In (lnot x) K) -> rup (l :: K) rest -> rup K (D :: rest).

Lemma rup_mono K cs : rup K cs -> forall K', incl K K' -> rup K' cs.
Proof.
  induction 1 as [K D rest H|K D l rest Il H R IH]; intros K' I.
  - apply rup_conflict. auto.
  - apply (rup_unit K' D l); [exact Il|intros x Hx; destruct (H x Hx); auto|]. apply IH. intros x [<-|Hx]; [left; reflexivity|right; auto].
Qed.
