(** Property C01. *)
From Coq Require Import ZArith.
From Verif Require Import Spec Lit LitProofs.

Theorem C01_dimacs_to_lit_roundtrip : forall n : Z,
  (n <> 0)%Z -> (Z.abs n <= 2^28)%Z ->
  lit_from_dimacs n < 2^29 /\ lit_to_dimacs (lit_from_dimacs n) = n.
Proof.
  intros n H0 H1. destruct (dimacs_roundtrip n H0) as [V R].
  - rewrite max_count_val. exact H1.
  - split; [|exact R]. unfold valid_lit in V. rewrite N.leb_le, max_var_val in V.
    change (2^29) with 536870912. lia.
Qed.
Print Assumptions C01_dimacs_to_lit_roundtrip.
Example C01_dimacs_to_lit_ex : lit_from_dimacs (-268435456) = 536870911
  /\ lit_from_dimacs 1 = 0 /\ lit_to_dimacs 536870911 = (-268435456)%Z.
Proof. repeat split; vm_compute; reflexivity. Qed.

Theorem C01_lit_to_dimacs_roundtrip : forall l : N, l < 2^29 ->
  (lit_to_dimacs l <> 0)%Z /\ (Z.abs (lit_to_dimacs l) <= 2^28)%Z /\
  lit_from_dimacs (lit_to_dimacs l) = l.
Proof.
  intros l H. change (2^28)%Z with (Z.of_N 268435456). rewrite <- max_count_val.
  apply lit_roundtrip. unfold valid_lit. rewrite N.leb_le, max_var_val.
  change (2^29) with 536870912 in H. lia.
Qed.
Print Assumptions C01_lit_to_dimacs_roundtrip.

Theorem C01_negation : forall l : N,
  lnot l = opp l /\ lnot (lnot l) = l /\ lnot l <> l /\
  lit_var (lnot l) = lit_var l /\ is_negative (lnot l) = negb (is_negative l) /\
  (l < 2^29 -> lnot l < 2^29) /\
  (forall a, lit_holds a (lnot l) = negb (lit_holds a l)).
Proof.
  intros l. repeat split.
  - apply lnot_opp.
  - apply lnot_invol.
  - apply lnot_neq.
  - apply lnot_var.
  - apply lnot_sign.
  - intros H. assert (V : valid_lit l = true).
    { unfold valid_lit. rewrite N.leb_le, max_var_val. change (2^29) with 536870912 in H. lia. }
    rewrite <- valid_lit_lnot in V. unfold valid_lit in V. rewrite N.leb_le, max_var_val in V.
    change (2^29) with 536870912. lia.
  - intros a. apply lit_holds_lnot.
Qed.
Print Assumptions C01_negation.

Theorem C01_constructors : forall v, v < 2^28 ->
  lit_positive v = 2 * v /\ lit_negative v = 2 * v + 1 /\
  lit_from_index v true = 2 * v /\ lit_from_index v false = 2 * v + 1 /\
  (forall b, lit_var (lit_from_var v b) = v /\ is_positive (lit_from_var v b) = b) /\
  (forall b c, lxor_bool (lit_from_var v b) c = lit_from_var v (xorb b c)).
Proof.
  intros v H. assert (Hm : v <= max_var) by (rewrite max_var_val; change (2^28) with 268435456 in H; lia).
  destruct (constructors_agree v Hm) as (A&B&C&D&E). repeat (split; [assumption|]).
  intros b c. rewrite xor_bool_spec, !lit_from_var_val by exact Hm.
  destruct c; [|rewrite xorb_false_r; reflexivity].
  rewrite lnot_opp, opp_val, div2_val, odd_val. destruct b; reflexivity.
Qed.
Print Assumptions C01_constructors.

Theorem C01_codes : forall l, l < 2^29 ->
  lit_from_code l = l /\ lit_from_var (lit_var l) (is_positive l) = l /\
  lit_from_code_dbg l = Some l /\
  (forall f, f (lit_var l) < 2^28 ->
     lit_var (map_var f l) = f (lit_var l) /\ is_negative (map_var f l) = is_negative l).
Proof.
  intros l H. assert (V : valid_lit l = true).
  { unfold valid_lit. rewrite N.leb_le, max_var_val. change (2^29) with 536870912 in H. lia. }
  destruct (code_roundtrip l V) as (A&B&C). repeat (split; [assumption|]). split.
  - unfold lit_from_code_dbg. unfold valid_lit in V. rewrite V. f_equal. exact A.
  - intros f Hf. apply map_var_spec. rewrite max_var_val. change (2^28) with 268435456 in Hf. lia.
Qed.
Print Assumptions C01_codes.
Example C01_codes_ex : lit_from_code_dbg 536870911 = Some 536870911 /\ lit_from_code_dbg 536870912 = None.
Proof. split; reflexivity. Qed.
