(** Property C36. *)
From Coq Require Import Permutation Lia.
From Verif Require Import Spec Lit Hash HashProofs.

Theorem C36_hash_permutation : forall a b, Permutation a b -> clause_hash a = clause_hash b.
Proof. intros a b H. rewrite !clause_hash_xor. apply xor_all_perm. exact H. Qed.
Print Assumptions C36_hash_permutation.

(** Clauses without repeated literals: only the set of literals matters. *)
Theorem C36_hash_set : forall a b, NoDup a -> NoDup b -> (forall l, In l a <-> In l b) ->
  clause_hash a = clause_hash b.
Proof. intros a b A B H. apply C36_hash_permutation. apply NoDup_Permutation; assumption. Qed.
Print Assumptions C36_hash_set.

(** Hashing a reason clause from its propagated literal and the other literals,
    at whatever position the propagated literal is stored. *)
Theorem C36_hash_parts : forall a b, clause_hash (a ++ b) = N.lxor (clause_hash a) (clause_hash b).
Proof. intros. rewrite !clause_hash_xor. apply xor_all_app. Qed.
Print Assumptions C36_hash_parts.

Theorem C36_hash_reason : forall pre lit post,
  clause_hash (pre ++ lit :: post) = N.lxor (clause_hash (pre ++ post)) (lit_hash lit).
Proof.
  intros. rewrite (C36_hash_permutation (pre ++ lit :: post) (lit :: pre ++ post)) by (symmetry; apply Permutation_middle).
  rewrite !clause_hash_xor. cbn [xor_all fold_right]. apply N.lxor_comm.
Qed.
Print Assumptions C36_hash_reason.

(** The hash is a 64-bit word, and single literals never collide. *)
Theorem C36_hash_u64 : forall c, clause_hash c < 2^64.
Proof. intros c. rewrite clause_hash_xor. apply xor_all_lt. intros x. apply lit_code_hash_lt. Qed.
Print Assumptions C36_hash_u64.

Theorem C36_hash_lit_injective : forall a b, valid_lit a = true -> valid_lit b = true ->
  clause_hash [a] = clause_hash [b] -> a = b.
Proof.
  intros a b A B H. rewrite !clause_hash_xor in H. cbn [xor_all fold_right] in H. rewrite !N.lxor_0_r in H.
  unfold valid_lit, max_var in *. change (N.shiftr (2 ^ 32 - 1) 4) with 268435455 in *.
  apply N.leb_le in A, B. apply lit_code_hash_inj in H; lia.
Qed.
Print Assumptions C36_hash_lit_injective.

Example C36_ex :
  clause_hash [2; 5; 8] = clause_hash [8; 2; 5] /\ clause_hash [2; 5; 8] <> clause_hash [2; 4; 8] /\
  clause_hash [] = 0 /\ clause_hash [0] = 0x9e3779b97f4a7c15 /\ clause_hash [3; 3] = 0 /\ NoDup [2; 5; 8].
Proof. repeat split; try (vm_compute; congruence). repeat constructor; cbn; intuition discriminate. Qed.
