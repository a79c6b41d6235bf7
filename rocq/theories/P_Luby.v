(** C20: restart intervals follow the Luby sequence. *)
From Coq Require Import Lia Arith ZArith ZifyBool ZifyNat ZifyN.
From Verif Require Import Spec Luby.

(** The Luby sequence by its textbook recurrence (Luby, Sinclair and Zuckerman 1993,
    numbered from 1): t(i) = 2^k if i = 2^(k+1) - 1, and t(i) = t(i - 2^k + 1) if
    2^k <= i < 2^(k+1) - 1. *)
Inductive is_luby : N -> N -> Prop :=
| is_luby_top k : is_luby (2^(k+1) - 1) (2^k)
| is_luby_rec k i x : 2^k <= i -> i < 2^(k+1) - 1 -> is_luby (i - 2^k + 1) x -> is_luby i x.

Lemma is_luby_det i x y : is_luby i x -> is_luby i y -> x = y.
Proof.
  assert (K : forall k j a, 2^k <= a -> a < 2^(k+1) -> 2^j <= a -> a < 2^(j+1) -> k = j).
  { intros k j a H1 H2 H3 H4.
    destruct (N.lt_trichotomy k j) as [L | [-> | L]]; [|reflexivity|].
    - assert (2^(k+1) <= 2^j) by (apply N.pow_le_mono_r; lia). lia.
    - assert (2^(j+1) <= 2^k) by (apply N.pow_le_mono_r; lia). lia. }
  assert (P : forall k, 1 <= 2^k /\ 2^(k+1) = 2 * 2^k).
  { intros k. split. { pose proof (N.pow_nonzero 2 k). lia. }
    rewrite N.add_1_r, N.pow_succ_r by lia. reflexivity. }
  intros H. revert y. induction H as [k | k i x L U H IH]; intros y H'.
  - inversion H' as [j E1 E2 | j i' y' L' U' H'' E1 E2].
    + destruct (P k), (P j). f_equal. symmetry. apply (K _ _ (2^(j+1) - 1)); lia.
    + exfalso. subst. destruct (P k), (P j).
      assert (k = j) as -> by (apply (K _ _ (2^(k+1) - 1)); lia). lia.
  - inversion H' as [j E1 E2 | j i' y' L' U' H'' E1 E2].
    + exfalso. subst. destruct (P k), (P j).
      assert (k = j) as -> by (apply (K _ _ (2^(j+1) - 1)); lia). lia.
    + subst. assert (k = j) as -> by (destruct (P k), (P j); apply (K _ _ i); lia).
      apply IH. exact H''.
Qed.

(** * The lowest set bit *)
Lemma lnot_low a n : a < 2^n -> a + N.lnot a n = 2^n - 1 /\ N.land a (N.lnot a n) = 0.
Proof.
  intros H. destruct (N.eq_dec a 0) as [->|Z].
  - rewrite N.lnot_0_l, N.ones_equiv. split; [lia|reflexivity].
  - assert (N.log2 a < n) by (apply N.log2_lt_pow2; lia).
    rewrite N.add_lnot_diag_low, N.land_lnot_diag_low by assumption.
    rewrite N.ones_equiv. split; [lia|reflexivity].
Qed.

Lemma land_scaled k a b : N.land (2^k * (2 * a + 1)) (2^k * (2 * b + 1)) = 2^k * (2 * N.land a b + 1).
Proof.
  rewrite !(N.mul_comm (2^k)), <- !N.shiftl_mul_pow2, <- N.shiftl_land. f_equal.
  apply N.bits_inj. intros n. rewrite N.land_spec.
  destruct n as [|p].
  - rewrite !N.testbit_odd_0. reflexivity.
  - replace (N.pos p) with (N.succ (N.pred (N.pos p))) by lia.
    rewrite !N.testbit_odd_succ by lia. rewrite N.land_spec. reflexivity.
Qed.

Lemma lowbit_odd k a : 2^k * (2 * a + 1) < 2^64 ->
  N.land (2^k * (2 * a + 1)) (wneg64 (2^k * (2 * a + 1))) = 2^k.
Proof.
  intros H.
  assert (Hk : k < 64).
  { destruct (N.lt_ge_cases k 64) as [|G]; [assumption|exfalso].
    assert (2^64 <= 2^k) by (apply N.pow_le_mono_r; lia). nia. }
  assert (E64 : 2^64 = 2^k * (2 * 2^(63 - k))).
  { rewrite <- N.pow_succ_r by lia. rewrite <- N.pow_add_r. f_equal. lia. }
  assert (P : 2^k <> 0) by (apply N.pow_nonzero; lia).
  assert (La : a < 2^(63 - k)) by nia.
  destruct (lnot_low a (63 - k) La) as [Es Ed].
  assert (W : wneg64 (2^k * (2 * a + 1)) = 2^k * (2 * N.lnot a (63 - k) + 1)).
  { unfold wneg64. rewrite (N.mod_small _ _ H).
    assert (Q : 2^64 - 2^k * (2 * a + 1) = 2^k * (2 * N.lnot a (63 - k) + 1)).
    { rewrite E64. nia. }
    rewrite Q. apply N.mod_small. rewrite <- Q. nia. }
  rewrite W, land_scaled, Ed. lia.
Qed.

Lemma lowbit_not k a w : N.land (2^(k+1) * a) w <> 2^k.
Proof.
  intros E. apply (f_equal (fun x => N.testbit x k)) in E.
  rewrite N.land_spec, N.pow2_bits_true in E.
  rewrite N.mul_comm, N.mul_pow2_bits_low in E by lia. discriminate.
Qed.

(** * Running the iterator *)
Fixpoint run (n : nat) (l : luby) : luby :=
  match n with O => l | S n => run n (snd (luby_advance l)) end.

Lemma take_app n m l : luby_take (n + m) l = luby_take n l ++ luby_take m (run n l).
Proof.
  revert l. induction n as [|n IH]; intros l; [reflexivity|].
  cbn [Nat.add luby_take run]. destruct (luby_advance l) as [x l']. cbn [snd app].
  rewrite IH. reflexivity.
Qed.

Lemma run_add n m l : run (n + m) l = run m (run n l).
Proof. revert l. induction n as [|n IH]; intros l; [reflexivity|]. cbn [Nat.add run]. apply IH. Qed.

Lemma take_length n l : length (luby_take n l) = n.
Proof.
  revert l. induction n as [|n IH]; intros l; [reflexivity|].
  cbn [luby_take]. destruct (luby_advance l). cbn [length]. rewrite IH. reflexivity.
Qed.

(** The first 2^k - 1 elements. *)
Fixpoint block (k : nat) : list N :=
  match k with O => [] | S k => block k ++ block k ++ [2^N.of_nat k] end.

Lemma block_length k : (N.of_nat (length (block k)) = 2^N.of_nat k - 1).
Proof.
  induction k as [|k IH]; [reflexivity|].
  cbn [block]. rewrite !app_length, Nat2N.inj_succ, N.pow_succ_r by lia.
  cbn [length]. pose proof (N.pow_nonzero 2 (N.of_nat k)). lia.
Qed.

Lemma pow64_pos : 2^64 <> 0. Proof. discriminate. Qed.

Lemma blocks_run (k : nat) : forall q, 2^N.of_nat k * q + 2^N.of_nat k < 2^64 ->
  let n := (length (block k) + length (block k))%nat in
  luby_take n (Luby (2^N.of_nat k * q + 1) 1) = block k ++ block k
  /\ run n (Luby (2^N.of_nat k * q + 1) 1) = Luby (2^N.of_nat k * q + 2^N.of_nat k) (2^N.of_nat k).
Proof.
  induction k as [|k IH]; intros q B.
  - cbn. split; reflexivity.
  - cbv zeta in *.
    set (K := N.of_nat k) in *.
    assert (ES : N.of_nat (S k) = K + 1) by lia. rewrite ES in *.
    assert (E2 : 2^(K+1) = 2^K * 2).
    { rewrite N.add_1_r, N.pow_succ_r by lia. lia. }
    pose proof (N.pow_nonzero 2 K ltac:(lia)) as PK.
    set (b := length (block k)) in *.
    assert (LB : length (block (S k)) = (b + b + 1)%nat).
    { cbn [block]. rewrite !app_length. cbn [length]. unfold b. lia. }
    rewrite LB.
    replace (b + b + 1 + (b + b + 1))%nat with ((b + b) + (1 + ((b + b) + 1)))%nat by lia.
    destruct (IH (2 * q)) as [T1 R1]; [nia|].
    replace (2^K * (2 * q)) with (2^(K+1) * q) in * by nia.
    rewrite (take_app (b+b)), (run_add (b+b)), T1, R1.
    (* end of the first copy *)
    assert (A1 : luby_advance (Luby (2^(K+1) * q + 2^K) (2^K))
                 = (2^K, Luby (2^(K+1) * q + 2^K + 1) 1)).
    { unfold luby_advance. cbn [lb_u lb_v].
      replace (2^(K+1) * q + 2^K) with (2^K * (2 * q + 1)) at 1 2 by nia.
      rewrite lowbit_odd by nia. rewrite N.eqb_refl, N.mod_small by nia. reflexivity. }
    rewrite (take_app 1), (run_add 1 (b+b+1)). cbn [luby_take run]. rewrite A1. cbn [fst snd].
    destruct (IH (2 * q + 1)) as [T2 R2]; [nia|].
    replace (2^K * (2 * q + 1)) with (2^(K+1) * q + 2^K) in * by nia.
    rewrite (take_app (b+b)), (run_add (b+b)), T2, R2.
    assert (A2 : luby_advance (Luby (2^(K+1) * q + 2^K + 2^K) (2^K))
                 = (2^K, Luby (2^(K+1) * q + 2^(K+1)) (2^(K+1)))).
    { unfold luby_advance. cbn [lb_u lb_v].
      replace (2^(K+1) * q + 2^K + 2^K) with (2^(K+1) * (q + 1)) by nia.
      rewrite (proj2 (N.eqb_neq _ _) (lowbit_not K (q+1) _)).
      rewrite N.shiftl_mul_pow2. change (2^1) with 2. rewrite <- E2, N.mod_small by nia.
      f_equal. f_equal. nia. }
    cbn [luby_take run]. rewrite A2. cbn [fst snd].
    split; [|reflexivity].
    cbn [block]. fold K. rewrite <- !app_assoc. reflexivity.
Qed.

Lemma blocks_take (k : nat) : (k < 64)%nat ->
  luby_take (length (block (S k))) luby_default = block (S k).
Proof.
  intros Hk.
  assert (P : 2^N.of_nat k <= 2^63) by (apply N.pow_le_mono_r; lia).
  destruct (blocks_run k 0) as [T R].
  { assert (2^63 < 2^64) by reflexivity. lia. }
  rewrite N.mul_0_r in T, R. cbn [N.add] in T, R.
  assert (L : length (block (S k)) = (length (block k) + length (block k) + 1)%nat).
  { cbn [block]. rewrite !app_length. cbn [length]. lia. }
  rewrite L, take_app. change luby_default with (Luby 1 1).
  change (0 + 1) with 1 in T, R. rewrite T, R.
  cbn [block luby_take luby_advance lb_u lb_v]. rewrite <- app_assoc. reflexivity.
Qed.

Lemma block_luby (k : nat) : forall i : nat, (i < length (block k))%nat ->
  is_luby (N.of_nat i + 1) (nth i (block k) 0).
Proof.
  induction k as [|k IH]; intros i Hi; [cbn in Hi; lia|].
  pose proof (block_length k) as Lk.
  set (K := N.of_nat k) in *.
  pose proof (N.pow_nonzero 2 K ltac:(lia)) as PK.
  assert (E2 : 2^(K+1) = 2 * 2^K) by (rewrite N.add_1_r, N.pow_succ_r by lia; reflexivity).
  cbn [block] in *. rewrite !app_length in Hi. cbn [length] in Hi.
  destruct (Nat.lt_ge_cases i (length (block k))) as [L|G].
  { rewrite app_nth1 by assumption. apply IH. assumption. }
  rewrite app_nth2 by assumption.
  destruct (Nat.lt_ge_cases (i - length (block k)) (length (block k))) as [L|G'].
  { rewrite app_nth1 by assumption.
    apply is_luby_rec with (k := K); [lia | lia |].
    replace (N.of_nat i + 1 - 2^K + 1) with (N.of_nat (i - length (block k)) + 1) by lia.
    apply IH. assumption. }
  rewrite app_nth2 by assumption.
  replace (i - length (block k) - length (block k))%nat with 0%nat by lia. cbn [nth]. fold K.
  replace (N.of_nat i + 1) with (2^(K+1) - 1) by lia. apply is_luby_top.
Qed.

(** The value returned by the [i]-th call (counting from one). *)
Definition luby_value (i : N) : N := fst (luby_advance (run (N.to_nat (i - 1)) luby_default)).

Lemma take_nth n : forall i l, (i < n)%nat -> nth i (luby_take n l) 0 = fst (luby_advance (run i l)).
Proof.
  induction n as [|n IH]; intros i l H; [lia|].
  cbn [luby_take]. destruct (luby_advance l) as [x l'] eqn:E.
  destruct i as [|i]; cbn [nth run]; rewrite E; cbn [fst snd]; [reflexivity|].
  apply IH. lia.
Qed.

(** C20.  Before the 64 bit counter overflows, which takes at least 2^64 - 1 calls,
    the value of every call is the element of the sequence with the same number. *)
Theorem C20_luby : forall i : N, 1 <= i -> i < 2^64 -> is_luby i (luby_value i).
Proof.
  intros i L U.
  assert (Len : N.of_nat (length (block 64)) = 2^64 - 1) by (apply (block_length 64)).
  assert (Hi : (N.to_nat (i - 1) < length (block 64))%nat) by lia.
  pose proof (block_luby 64 _ Hi) as B.
  rewrite <- (blocks_take 63) in B by lia.
  rewrite take_nth in B.
  - replace (N.of_nat (N.to_nat (i - 1)) + 1) with i in B by lia. exact B.
  - exact Hi.
Qed.
Print Assumptions C20_luby.

(** The recurrence determines the sequence, so no other value is possible. *)
Theorem C20_luby_unique : forall i x : N, 1 <= i -> i < 2^64 -> is_luby i x -> luby_value i = x.
Proof. intros i x L U H. exact (is_luby_det _ _ _ (C20_luby i L U) H). Qed.
Print Assumptions C20_luby_unique.

Example C20_luby_ex : luby_value 1 = 1 /\ luby_value 31 = 16 /\ luby_value 1000 = 2
  /\ luby_take 15 luby_default = [1;1;2;1;1;2;4;1;1;2;1;1;2;4;8].
Proof. repeat split; vm_compute; reflexivity. Qed.
