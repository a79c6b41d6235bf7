(** Property C18. *)
From Coq Require Import Sorted.
From Verif Require Import Spec Lit LitProofs SortedLits SortedLitsProofs.

Theorem C18_copy_canonical : forall src,
  let '(target, tautology) := copy_canonical src in
  StronglySorted N.lt target /\ (forall l, In l target <-> In l src) /\
  (tautology = true <-> exists l, In l src /\ In (opp l) src).
Proof.
  intros src. destruct (copy_canonical src) as [t b] eqn:E.
  pose proof (canonical_sorted src) as A. pose proof (canonical_in src) as B. pose proof (canonical_taut src) as C.
  rewrite E in A, B, C. cbn [fst snd] in *. split; [exact A|]. split; [exact B|]. rewrite C.
  split; intros (l&H1&H2); exists l; split; auto; rewrite lnot_opp in *; auto.
Qed.
Print Assumptions C18_copy_canonical.

(** The canonical form is unique: it depends on the set of literals only. *)
Theorem C18_canonical_unique : forall src1 src2, (forall l, In l src1 <-> In l src2) ->
  copy_canonical src1 = copy_canonical src2.
Proof.
  intros a b H. unfold copy_canonical. 
  assert (E : dedup (sort_lits a) = dedup (sort_lits b)).
  { apply ssorted_ext; [apply (canonical_sorted a)|apply (canonical_sorted b)|].
    intros x. rewrite (canonical_in a x : In x (dedup (sort_lits a)) <-> _), (canonical_in b x : In x (dedup (sort_lits b)) <-> _). apply H. }
  rewrite E. reflexivity.
Qed.
Print Assumptions C18_canonical_unique.

Theorem C18_is_subset : forall sub sup strict, StronglySorted N.lt sub -> StronglySorted N.lt sup ->
  (is_subset sub sup strict = true <->
   incl sub sup /\ (strict = true -> exists l, In l sup /\ ~ In l sub)).
Proof. exact is_subset_spec. Qed.
Print Assumptions C18_is_subset.

Example C18_ex :
  copy_canonical [7; 2; 7; 5; 2] = ([2; 5; 7], false) /\ copy_canonical [9; 4; 8; 9] = ([4; 8; 9], true) /\
  StronglySorted N.lt [2; 7] /\ StronglySorted N.lt [2; 5; 7] /\
  is_subset [2; 7] [2; 5; 7] true = true /\ is_subset [2; 5; 7] [2; 5; 7] true = false /\
  is_subset [2; 5; 7] [2; 5; 7] false = true /\ is_subset [2; 6] [2; 5; 7] false = false.
Proof. repeat split; try (vm_compute; reflexivity); repeat constructor. Qed.
