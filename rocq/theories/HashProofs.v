From Coq Require Import Arith ZArith ZifyBool ZifyNat ZifyN Permutation.
From Verif Require Import Spec Lit Bits Hash.

(** xor of [f x] over a list *)
Definition xor_all (f : N -> N) (l : list N) : N := fold_right (fun x h => N.lxor (f x) h) 0 l.

Lemma fold_xor f l : forall h, fold_left (fun hash x => N.lxor hash (f x)) l h = N.lxor h (xor_all f l).
Proof.
  induction l as [|x l IH]; intros h; cbn [fold_left xor_all fold_right]; [symmetry; apply N.lxor_0_r|].
  rewrite IH. fold (xor_all f l). apply N.lxor_assoc.
Qed.

Lemma clause_hash_xor l : clause_hash l = xor_all lit_hash l.
Proof. unfold clause_hash. rewrite fold_xor. apply N.lxor_0_l. Qed.

Lemma xor_all_perm f a b : Permutation a b -> xor_all f a = xor_all f b.
Proof.
  induction 1; cbn [xor_all fold_right]; auto.
  - f_equal. assumption.
  - rewrite <- !N.lxor_assoc. f_equal. apply N.lxor_comm.
  - congruence.
Qed.

Lemma xor_all_app f a b : xor_all f (a ++ b) = N.lxor (xor_all f a) (xor_all f b).
Proof.
  induction a as [|x a IH]; cbn [xor_all fold_right app]; [symmetry; apply N.lxor_0_l|].
  fold (xor_all f (a ++ b)). rewrite IH. symmetry. apply N.lxor_assoc.
Qed.

Lemma lxor_lt a b k : a < 2^k -> b < 2^k -> N.lxor a b < 2^k.
Proof.
  intros A B. apply lt_pow2_testbit. intros i Hi. rewrite N.lxor_spec.
  rewrite (testbit_ge a k i), (testbit_ge b k i) by assumption. reflexivity.
Qed.

Lemma lit_code_hash_lt c : lit_code_hash c < 2^64.
Proof. apply N.mod_lt. discriminate. Qed.

Lemma xor_all_lt f k l : (forall x, f x < 2^k) -> xor_all f l < 2^k.
Proof.
  intros H. induction l as [|x l IH]; cbn [xor_all fold_right]; [apply pow2_pos|].
  apply lxor_lt; auto.
Qed.

(** The multiplier is odd, hence invertible modulo 2^64. *)
Lemma lit_code_hash_inj a b : a < 2^64 -> b < 2^64 -> lit_code_hash a = lit_code_hash b -> a = b.
Proof.
  intros A B H. unfold lit_code_hash in H.
  rewrite (N.mod_small a), (N.mod_small b) in H by assumption.
  assert (K : forall x, x < 2^64 -> ((x * 0x61c8864680b583eb) mod 2^64 * 0xe217c1e66c88cc3) mod 2^64 = x).
  { intros x Hx. rewrite N.mul_mod_idemp_l by discriminate. rewrite <- N.mul_assoc, N.mul_mod by discriminate.
    replace ((0x61c8864680b583eb * 0xe217c1e66c88cc3) mod 2^64) with 1 by (vm_compute; reflexivity).
    rewrite N.mul_1_r, N.mod_mod by discriminate. apply N.mod_small. exact Hx. }
  set (x := 2^64 - 1 - a) in *. set (y := 2^64 - 1 - b) in *.
  assert (E : x = y). { rewrite <- (K x), <- (K y) by (subst x y; lia). rewrite H. reflexivity. }
  subst x y. lia.
Qed.
