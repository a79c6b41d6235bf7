(** Bit-level lemmas over [N]. *)
From Coq Require Import Arith ZArith ZifyBool ZifyNat ZifyN.
From Verif Require Import Spec.

Lemma lor_shiftl_add a b k : a < 2^k -> N.lor a (N.shiftl b k) = a + b * 2^k.
Proof.
  intros H.
  assert (L : N.land a (N.shiftl b k) = 0).
  { apply N.bits_inj. intros i. rewrite N.land_spec, N.bits_0.
    destruct (N.ltb_spec i k).
    - rewrite N.shiftl_spec_low by assumption. apply andb_false_r.
    - replace (N.testbit a i) with false; [reflexivity|]. symmetry.
      destruct (N.eq_dec a 0) as [->|Ha]; [apply N.bits_0|].
      apply N.bits_above_log2. apply N.log2_lt_pow2; [lia|].
      eapply N.lt_le_trans; [exact H|]. apply N.pow_le_mono_r; lia. }
  rewrite <- N.lxor_lor by exact L. rewrite <- N.add_nocarry_lxor by exact L.
  rewrite N.shiftl_mul_pow2. reflexivity.
Qed.

Lemma land_mask a k : N.land a (2^k - 1) = a mod 2^k.
Proof. rewrite <- N.land_ones. f_equal. rewrite N.ones_equiv. lia. Qed.

Lemma pow2_nz k : 2^k <> 0.
Proof. apply N.pow_nonzero. discriminate. Qed.

Lemma pow2_pos k : 0 < 2^k.
Proof. pose proof (pow2_nz k). lia. Qed.

Lemma mod_pow2_lor a b k : (N.lor a b) mod 2^k = N.lor (a mod 2^k) (b mod 2^k).
Proof. rewrite <- !N.land_ones. apply N.land_lor_distr_l. Qed.

Lemma testbit_ge a k i : a < 2^k -> k <= i -> N.testbit a i = false.
Proof.
  intros H Hi. destruct (N.eq_dec a 0) as [->|Ha]; [apply N.bits_0|].
  apply N.bits_above_log2. apply N.log2_lt_pow2; [lia|].
  eapply N.lt_le_trans; [exact H|]. apply N.pow_le_mono_r; lia.
Qed.

Lemma lt_pow2_testbit a k : (forall i, k <= i -> N.testbit a i = false) -> a < 2^k.
Proof.
  intros H. destruct (N.eq_dec a 0) as [->|Ha]; [apply pow2_pos|].
  apply N.log2_lt_pow2; [lia|]. destruct (N.ltb_spec (N.log2 a) k) as [|L]; [assumption|].
  pose proof (N.bit_log2 a Ha) as B. rewrite (H _ L) in B. discriminate.
Qed.

Lemma size_spec v : v < 2^(N.size v).
Proof.
  destruct (N.eq_dec v 0) as [->|H]; [apply pow2_pos|].
  rewrite N.size_log2 by exact H. apply N.log2_spec. lia.
Qed.

Lemma size_le v k : v < 2^k -> N.size v <= k.
Proof.
  intros H. destruct (N.eq_dec v 0) as [->|Hv]; [simpl; lia|].
  rewrite N.size_log2 by exact Hv. apply N.log2_lt_pow2 in H; lia.
Qed.
