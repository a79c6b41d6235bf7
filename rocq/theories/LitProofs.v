From Coq Require Import ZArith ZifyBool ZifyNat ZifyN.
From Verif Require Import Spec Lit.
Ltac Zify.zify_post_hook ::= Z.div_mod_to_equations.

Lemma max_var_val : max_var = 268435455. Proof. reflexivity. Qed.
Lemma max_count_val : max_count = 268435456. Proof. reflexivity. Qed.
Global Opaque max_var max_count.

Lemma u32_small x : x < 2^32 -> u32 x = x.
Proof. intros H. unfold u32. apply N.mod_small. exact H. Qed.

Lemma u32_lt x : u32 x < 2^32.
Proof. unfold u32. apply N.mod_lt. discriminate. Qed.

Lemma lor_even_1 x : N.lor (2 * x) 1 = 2 * x + 1.
Proof. destruct x; reflexivity. Qed.

Lemma lit_from_var_val v b : v <= max_var ->
  lit_from_var v b = 2 * v + (if b then 0 else 1).
Proof.
  intros H. unfold lit_from_var. rewrite max_var_val in H.
  rewrite N.shiftl_mul_pow2. change (2^1) with 2.
  rewrite u32_small by (change (2^32) with 4294967296; lia).
  rewrite N.mul_comm. destruct b; [rewrite N.lor_0_r; lia | apply lor_even_1].
Qed.

Lemma lit_var_div l : lit_var l = N.div2 l.
Proof. unfold lit_var. rewrite <- N.div2_spec. reflexivity. Qed.

Lemma is_negative_odd l : is_negative l = N.odd l.
Proof.
  unfold is_negative. destruct l as [|[p|p|]]; try reflexivity.
Qed.

Lemma is_positive_even l : is_positive l = negb (N.odd l).
Proof. unfold is_positive. rewrite is_negative_odd. reflexivity. Qed.

Lemma div2_odd_eq l : l = 2 * N.div2 l + (if N.odd l then 1 else 0).
Proof. rewrite (N.div2_odd l) at 1. destruct (N.odd l); reflexivity. Qed.

Lemma lnot_opp l : lnot l = opp l.
Proof. unfold lnot, opp. destruct l as [|[p|p|]]; try reflexivity. Qed.

Lemma opp_val l : opp l = 2 * N.div2 l + (if N.odd l then 0 else 1).
Proof.
  unfold opp. pose proof (div2_odd_eq l) as E. destruct (N.odd l); lia.
Qed.

Lemma odd_val v (b : bool) : N.odd (2 * v + (if b then 0 else 1)) = negb b.
Proof.
  destruct b.
  - rewrite N.add_0_r, N.odd_mul. reflexivity.
  - rewrite N.odd_add, N.odd_mul. reflexivity.
Qed.

Lemma div2_val v (b : bool) : N.div2 (2 * v + (if b then 0 else 1)) = v.
Proof.
  rewrite N.div2_div. destruct b.
  - rewrite N.add_0_r, N.mul_comm. apply N.div_mul. lia.
  - symmetry. apply (N.div_unique _ 2 v 1); lia.
Qed.

Lemma lnot_var l : lit_var (lnot l) = lit_var l.
Proof. rewrite !lit_var_div, lnot_opp, opp_val.
  pose proof (div2_val (N.div2 l) (N.odd l)) as H. exact H. Qed.

Lemma lnot_sign l : is_negative (lnot l) = negb (is_negative l).
Proof. rewrite !is_negative_odd, lnot_opp, opp_val. apply odd_val. Qed.

Lemma lnot_invol l : lnot (lnot l) = l.
Proof. unfold lnot. rewrite N.lxor_assoc. change (N.lxor 1 1) with 0. apply N.lxor_0_r. Qed.

Lemma lnot_neq l : lnot l <> l.
Proof. intros H. pose proof (lnot_sign l) as S. rewrite H in S. destruct (is_negative l); discriminate. Qed.

Lemma lnot_inj a b : lnot a = lnot b -> a = b.
Proof. intros H. rewrite <- (lnot_invol a), H. apply lnot_invol. Qed.

Lemma lit_eq_split a b : lit_var a = lit_var b -> is_negative a = is_negative b -> a = b.
Proof.
  rewrite !lit_var_div, !is_negative_odd. intros H1 H2.
  rewrite (div2_odd_eq a), (div2_odd_eq b), H1, H2. reflexivity.
Qed.

Lemma same_var_cases a b : lit_var a = lit_var b -> a = b \/ a = lnot b.
Proof.
  intros H. destruct (Bool.bool_dec (is_negative a) (is_negative b)) as [E|E].
  - left. apply lit_eq_split; assumption.
  - right. apply lit_eq_split; [rewrite lnot_var; exact H|].
    rewrite lnot_sign. destruct (is_negative a), (is_negative b); simpl; congruence.
Qed.

Lemma lit_holds_lnot a l : lit_holds a (lnot l) = negb (lit_holds a l).
Proof.
  unfold lit_holds. rewrite <- (is_negative_odd l), <- (is_negative_odd (lnot l)).
  rewrite <- (lit_var_div l), <- (lit_var_div (lnot l)), lnot_var, lnot_sign.
  destruct (a (lit_var l)), (is_negative l); reflexivity.
Qed.

Lemma valid_lit_var l : valid_lit l = valid_var (lit_var l).
Proof.
  unfold valid_lit, valid_var. rewrite lit_var_div.
  pose proof (div2_odd_eq l) as E. destruct (N.odd l); apply Bool.eq_iff_eq_true;
  rewrite !N.leb_le; lia.
Qed.

Lemma valid_lit_lnot l : valid_lit (lnot l) = valid_lit l.
Proof. rewrite !valid_lit_var, lnot_var. reflexivity. Qed.

Lemma lit_to_dimacs_val l : valid_lit l = true ->
  lit_to_dimacs l = (if N.odd l then - Z.of_N (N.div2 l + 1) else Z.of_N (N.div2 l + 1))%Z.
Proof.
  rewrite valid_lit_var. unfold valid_var. rewrite N.leb_le, lit_var_div, max_var_val. intros H.
  unfold lit_to_dimacs, var_to_dimacs. rewrite is_negative_odd, lit_var_div.
  rewrite u32_small by (change (2^32) with 4294967296; lia). reflexivity.
Qed.

Lemma lit_from_dimacs_val n : (n <> 0)%Z -> (Z.abs n <= Z.of_N max_count)%Z ->
  lit_from_dimacs n = 2 * Z.to_N (Z.abs n - 1) + (if (0 <? n)%Z then 0 else 1).
Proof.
  rewrite max_count_val. intros H0 H1.
  unfold lit_from_dimacs, var_from_dimacs, var_from_index.
  rewrite (Z.mod_small (Z.abs n - 1)%Z) by lia.
  rewrite u32_small by (change (2^32) with 4294967296; lia).
  rewrite lit_from_var_val by (rewrite max_var_val; lia). reflexivity.
Qed.

Lemma dimacs_roundtrip n : (n <> 0)%Z -> (Z.abs n <= Z.of_N max_count)%Z ->
  valid_lit (lit_from_dimacs n) = true /\ lit_to_dimacs (lit_from_dimacs n) = n.
Proof.
  intros H0 H1. rewrite (lit_from_dimacs_val n H0 H1).
  rewrite max_count_val in H1.
  assert (V : valid_lit (2 * Z.to_N (Z.abs n - 1) + (if (0 <? n)%Z then 0 else 1)) = true).
  { rewrite valid_lit_var, lit_var_div, div2_val. unfold valid_var.
    rewrite N.leb_le, max_var_val. lia. }
  split; [exact V|]. rewrite lit_to_dimacs_val by exact V.
  rewrite odd_val, div2_val. destruct (Z.ltb_spec 0 n); simpl negb; cbv iota; lia.
Qed.

Lemma lit_roundtrip l : valid_lit l = true ->
  (lit_to_dimacs l <> 0)%Z /\ (Z.abs (lit_to_dimacs l) <= Z.of_N max_count)%Z /\
  lit_from_dimacs (lit_to_dimacs l) = l.
Proof.
  intros V. rewrite (lit_to_dimacs_val l V).
  rewrite valid_lit_var in V. unfold valid_var in V. rewrite N.leb_le, lit_var_div, max_var_val in V.
  assert (A : (Z.abs (if N.odd l then - Z.of_N (N.div2 l + 1) else Z.of_N (N.div2 l + 1)))%Z
              = Z.of_N (N.div2 l + 1)) by (destruct (N.odd l); lia).
  repeat split.
  - destruct (N.odd l); lia.
  - rewrite A, max_count_val. lia.
  - rewrite lit_from_dimacs_val; [|destruct (N.odd l); lia|rewrite A, max_count_val; lia].
    rewrite A. etransitivity; [|symmetry; apply div2_odd_eq].
    destruct (N.odd l).
    + destruct (Z.ltb_spec 0 (- Z.of_N (N.div2 l + 1))); lia.
    + destruct (Z.ltb_spec 0 (Z.of_N (N.div2 l + 1))); lia.
Qed.

Lemma constructors_agree v : v <= max_var ->
  lit_positive v = 2 * v /\ lit_negative v = 2 * v + 1 /\
  lit_from_index v true = 2 * v /\ lit_from_index v false = 2 * v + 1 /\
  (forall b, lit_var (lit_from_var v b) = v /\ is_positive (lit_from_var v b) = b).
Proof.
  intros H. unfold lit_positive, lit_negative, lit_from_index, var_from_index.
  assert (S : u32 v = v) by (apply u32_small; rewrite max_var_val in H;
    change (2^32) with 4294967296; lia).
  rewrite S, !lit_from_var_val by assumption.
  repeat split; try lia.
  - rewrite lit_from_var_val, lit_var_div by assumption. apply div2_val.
  - rewrite lit_from_var_val, is_positive_even by assumption. rewrite odd_val. apply negb_involutive.
Qed.

Lemma code_roundtrip l : valid_lit l = true ->
  lit_from_code l = l /\ lit_from_var (lit_var l) (is_positive l) = l /\ l < 2^32.
Proof.
  intros V. pose proof V as V'. unfold valid_lit in V. rewrite N.leb_le, max_var_val in V.
  assert (L : l < 2^32) by (change (2^32) with 4294967296; lia).
  repeat split; [apply u32_small; exact L| |exact L].
  rewrite valid_lit_var in V'. unfold valid_var in V'. rewrite N.leb_le in V'.
  rewrite lit_from_var_val by exact V'.
  rewrite lit_var_div, is_positive_even. etransitivity; [|symmetry; apply div2_odd_eq]. destruct (N.odd l); reflexivity.
Qed.

Lemma xor_bool_spec l b : lxor_bool l b = if b then lnot l else l.
Proof. unfold lxor_bool, lnot. destruct b; [reflexivity|apply N.lxor_0_r]. Qed.

Lemma map_var_spec f l : f (lit_var l) <= max_var ->
  lit_var (map_var f l) = f (lit_var l) /\ is_negative (map_var f l) = is_negative l.
Proof.
  intros H. unfold map_var.
  destruct (constructors_agree _ H) as (_&_&_&_&C).
  destruct (C (is_positive l)) as [C1 C2]. split; [exact C1|].
  unfold is_positive in *. destruct (is_negative l), (is_negative _); simpl in *; congruence.
Qed.
