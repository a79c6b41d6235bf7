(** Facts about the single precision arithmetic of F32.v, by way of Flocq's description of
    floats by real numbers.  (The standard library's axioms of the real numbers enter here.) *)
From Coq Require Import ZArith Reals SpecFloat Lia Lra.
From Flocq Require Import Core BinarySingleNaN.
From Verif Require Import Spec F32.
Local Open Scope R_scope.

Local Notation prec := 24%Z.
Local Notation emax := 128%Z.
Local Notation bf := (binary_float prec emax).
#[local] Instance Hprec : FLX.Prec_gt_0 prec := eq_refl _.
#[local] Instance Hmax : Prec_lt_emax prec emax := eq_refl _.

Local Notation rnd := (round radix2 (fexp prec emax) (round_mode mode_NE)).
#[local] Instance vexp : Valid_exp (fexp prec emax) := FLT_exp_valid (emin prec emax) prec.

Lemma round_nearest_even_equiv s m l : round_nearest_even m l = choice_mode mode_NE s m l.
Proof.
  case l; [reflexivity|intro c]. case c; [ | reflexivity..].
  now simpl; unfold Round.cond_incr; case Z.even.
Qed.

Lemma binary_round_aux_equiv sx mx ex lx :
  SpecFloat.binary_round_aux prec emax sx mx ex lx = binary_round_aux prec emax mode_NE sx mx ex lx.
Proof.
  unfold SpecFloat.binary_round_aux, binary_round_aux.
  set (mrse' := shr_fexp _ _ _). case mrse'; intros mrs' e'; simpl.
  now rewrite (round_nearest_even_equiv sx).
Qed.

Lemma binary_round_equiv s m e :
  SpecFloat.binary_round prec emax s m e = binary_round prec emax mode_NE s m e.
Proof.
  unfold SpecFloat.binary_round, binary_round, shl_align_fexp.
  set (mez := shl_align _ _ _); case mez as [mz ez]. apply binary_round_aux_equiv.
Qed.

Lemma binary_normalize_equiv m e szero :
  SpecFloat.binary_normalize prec emax m e szero
  = B2SF (binary_normalize prec emax Hprec Hmax mode_NE m e szero).
Proof.
  case m as [ | p | p].
  - now simpl.
  - simpl; rewrite B2SF_SF2B; apply binary_round_equiv.
  - simpl; rewrite B2SF_SF2B; apply binary_round_equiv.
Qed.

Lemma f32_mul_B (x y : bf) : f32_mul (B2SF x) (B2SF y) = B2SF (Bmult mode_NE x y).
Proof.
  case x as [sx|sx| |sx mx ex Bx]; case y as [sy|sy| |sy my ey By]; [now trivial.. | ].
  simpl. rewrite B2SF_SF2B. apply binary_round_aux_equiv.
Qed.

Lemma f32_add_B (x y : bf) : f32_add (B2SF x) (B2SF y) = B2SF (Bplus mode_NE x y).
Proof.
  case x as [sx|sx| |sx mx ex Bx]; case y as [sy|sy| |sy my ey By];
    [now (trivial || simpl; case Bool.eqb).. | ].
  apply binary_normalize_equiv.
Qed.

Lemma f32_div_B (x y : bf) : f32_div (B2SF x) (B2SF y) = B2SF (Bdiv mode_NE x y).
Proof.
  case x as [sx|sx| |sx mx ex Bx]; case y as [sy|sy| |sy my ey By];
    [now (trivial || simpl; case Bool.eqb).. | ].
  simpl. rewrite B2SF_SF2B. set (melz := SFdiv_core_binary _ _ _ _ _ _).
  case melz as [[mz ez] lz]. apply binary_round_aux_equiv.
Qed.

(** [reads x r]: the float [x] is finite, not negative and has the value [r]. *)
Definition reads (x : f32) (r : R) : Prop :=
  exists b : bf, x = B2SF b /\ is_finite b = true /\ Bsign b = false /\ B2R b = r.

Lemma B2R_nonneg (b : bf) : Bsign b = false -> 0 <= B2R b.
Proof.
  destruct b as [s|s| |s m e H]; cbn [Bsign B2R]; try lra.
  intros ->. apply F2R_ge_0. cbn. lia.
Qed.

Lemma reads_nonneg x r : reads x r -> 0 <= r.
Proof. intros (b & _ & _ & Sb & <-). apply B2R_nonneg. exact Sb. Qed.

Lemma rnd_nonneg r : 0 <= r -> 0 <= rnd r.
Proof. intros H. apply round_ge_generic; [apply vexp | apply valid_rnd_N | apply generic_format_0 | exact H]. Qed.

Lemma rnd_mono a b : a <= b -> rnd a <= rnd b.
Proof. intros H. apply round_le; [apply vexp | apply valid_rnd_N | exact H]. Qed.

Lemma reads_format x r : reads x r -> rnd r = r.
Proof.
  intros (b & _ & _ & _ & <-). apply round_generic; [apply valid_rnd_N|]. apply generic_format_B2R.
Qed.

(** A value bounded by a representable one does not overflow. *)
Lemma reads_lt_emax x r : reads x r -> r < bpow radix2 emax.
Proof.
  intros (b & _ & _ & _ & <-). apply Rle_lt_trans with (Rabs (B2R b)); [apply Rle_abs|].
  apply abs_B2R_lt_emax.
Qed.

Lemma reads_le_rnd x r y s : reads x r -> reads y s -> forall v, v <= s -> rnd v <= s.
Proof. intros Hx Hy v L. rewrite <- (reads_format y s Hy). apply rnd_mono. exact L. Qed.

Lemma no_overflow y s v : reads y s -> 0 <= v -> v <= s ->
  Rlt_bool (Rabs (rnd v)) (bpow radix2 emax) = true.
Proof.
  intros Hy P L. apply Rlt_bool_true.
  rewrite Rabs_pos_eq by (apply rnd_nonneg; exact P).
  apply Rle_lt_trans with s; [|exact (reads_lt_emax y s Hy)].
  rewrite <- (reads_format y s Hy). apply rnd_mono. exact L.
Qed.

Lemma reads_mul x y r s z t : reads x r -> reads y s -> reads z t -> r * s <= t ->
  reads (f32_mul x y) (rnd (r * s)).
Proof.
  intros Hx Hy Hz L.
  pose proof (reads_nonneg x r Hx) as Px. pose proof (reads_nonneg y s Hy) as Py.
  assert (P : 0 <= r * s) by (apply Rmult_le_pos; assumption).
  pose proof (no_overflow z t _ Hz P L) as O.
  destruct Hx as (a & -> & Fa & Sa & <-). destruct Hy as (b & -> & Fb & Sb & <-).
  pose proof (Bmult_correct prec emax Hprec Hmax mode_NE a b) as M. rewrite O in M.
  destruct M as (Mv & Mf & Ms). exists (Bmult mode_NE a b).
  rewrite Fa, Fb in Mf. repeat split; [apply f32_mul_B | exact Mf | | exact Mv].
  rewrite Ms, Sa, Sb; [reflexivity|]. destruct (Bmult mode_NE a b); cbn in Mf |- *; congruence.
Qed.

Lemma reads_add x y r s z t : reads x r -> reads y s -> reads z t -> r + s <= t ->
  reads (f32_add x y) (rnd (r + s)).
Proof.
  intros Hx Hy Hz L.
  pose proof (reads_nonneg x r Hx) as Px. pose proof (reads_nonneg y s Hy) as Py.
  assert (P : 0 <= r + s) by lra.
  pose proof (no_overflow z t _ Hz P L) as O.
  destruct Hx as (a & -> & Fa & Sa & <-). destruct Hy as (b & -> & Fb & Sb & <-).
  pose proof (Bplus_correct prec emax Hprec Hmax mode_NE a b Fa Fb) as M. rewrite O in M.
  destruct M as (Mv & Mf & Ms). exists (Bplus mode_NE a b).
  repeat split; [apply f32_add_B | exact Mf | | exact Mv].
  rewrite Ms, Sa, Sb. destruct (Rcompare_spec (B2R a + B2R b) 0); [lra|reflexivity|reflexivity].
Qed.

Lemma reads_div x y r s z t : reads x r -> reads y s -> 0 < s -> reads z t -> r / s <= t ->
  reads (f32_div x y) (rnd (r / s)).
Proof.
  intros Hx Hy Ps Hz L.
  pose proof (reads_nonneg x r Hx) as Px.
  assert (P : 0 <= r / s).
  { apply Rmult_le_pos; [exact Px|]. apply Rlt_le, Rinv_0_lt_compat. exact Ps. }
  pose proof (no_overflow z t _ Hz P L) as O.
  destruct Hx as (a & -> & Fa & Sa & <-). destruct Hy as (b & -> & Fb & Sb & <-).
  pose proof (Bdiv_correct prec emax Hprec Hmax mode_NE a b ltac:(lra)) as M. rewrite O in M.
  destruct M as (Mv & Mf & Ms). exists (Bdiv mode_NE a b).
  rewrite Fa in Mf. repeat split; [apply f32_div_B | exact Mf | | exact Mv].
  rewrite Ms, Sa, Sb; [reflexivity|]. destruct (Bdiv mode_NE a b); cbn in Mf |- *; congruence.
Qed.

Lemma reads_compare x y r s : reads x r -> reads y s -> SFcompare x y = Some (Rcompare r s).
Proof.
  intros (a & -> & Fa & Sa & <-) (b & -> & Fb & Sb & <-). exact (Bcompare_correct prec emax a b Fa Fb).
Qed.

Lemma reads_of_ge x y r s : reads x r -> reads y s -> (of_ge x y = true <-> r >= s).
Proof.
  intros Hx Hy. unfold of_ge, of_cmp. rewrite (reads_compare x y r s Hx Hy).
  destruct (Rcompare_spec r s); split; intros; try lra; try reflexivity; discriminate.
Qed.

Lemma reads_f32_ge x y r s : reads x r -> reads y s -> (f32_ge x y = true <-> r >= s).
Proof.
  intros Hx Hy. unfold f32_ge, SFleb. rewrite (reads_compare y x s r Hy Hx).
  destruct (Rcompare_spec s r); split; intros; try lra; try reflexivity; discriminate.
Qed.

Lemma reads_f32_lt x y r s : reads x r -> reads y s -> (f32_lt x y = true <-> r < s).
Proof.
  intros Hx Hy. unfold f32_lt, SFltb. rewrite (reads_compare x y r s Hx Hy).
  destruct (Rcompare_spec r s); split; intros; try lra; try reflexivity; discriminate.
Qed.

(** Constants *)
Lemma reads_zero : reads f32_zero 0.
Proof. exists (B754_zero false). repeat split. Qed.

Lemma reads_const m e : SpecFloat.bounded prec emax m e = true ->
  reads (S754_finite false m e) (IZR (Zpos m) * bpow radix2 e).
Proof. intros H. exists (B754_finite false m e H). repeat split. Qed.

Definition fL : R := IZR 16777215 * bpow radix2 100.
Lemma rescale_limit_val : rescale_limit = S754_finite false 16777215 100.
Proof. vm_compute. reflexivity. Qed.
Lemma reads_limit : reads rescale_limit fL.
Proof. rewrite rescale_limit_val. apply reads_const. reflexivity. Qed.

Lemma reads_two_limits : exists z, reads z (2 * fL).
Proof.
  exists (S754_finite false 16777215 101). replace (2 * fL) with (IZR 16777215 * bpow radix2 101).
  - apply reads_const. reflexivity.
  - unfold fL. change 101%Z with (100 + 1)%Z. rewrite (bpow_plus radix2 100 1).
    change (bpow radix2 1) with 2. lra.
Qed.

Lemma reads_16_limits : exists z, reads z (16 * fL).
Proof.
  exists (S754_finite false 16777215 104). replace (16 * fL) with (IZR 16777215 * bpow radix2 104).
  - apply reads_const. reflexivity.
  - unfold fL. change 104%Z with (100 + 4)%Z. rewrite (bpow_plus radix2 100 4). change (bpow radix2 4) with 16. lra.
Qed.

Lemma reads_one : reads f32_one 1.
Proof.
  replace 1 with (IZR 8388608 * bpow radix2 (-23)).
  - apply reads_const. reflexivity.
  - change 8388608%Z with (2^23)%Z. change (IZR (2^23)) with (bpow radix2 23).
    rewrite <- bpow_plus. reflexivity.
Qed.

Lemma reads_16 : reads (S754_finite false 8388608 (-19)) 16.
Proof.
  replace 16 with (IZR 8388608 * bpow radix2 (-19)).
  - apply reads_const. reflexivity.
  - change 8388608%Z with (2^23)%Z. change (IZR (2^23)) with (bpow radix2 23).
    rewrite <- bpow_plus. reflexivity.
Qed.

Lemma fL_large : 1000 < fL.
Proof.
  unfold fL. assert (1 <= bpow radix2 100).
  { change 1 with (bpow radix2 0). apply bpow_le. lia. }
  nra.
Qed.

Lemma of_ge_refl x : of_ge x x = true.
Proof.
  unfold of_ge, of_cmp. destruct x as [s|s| |s m e]; cbn; try (destruct s; reflexivity); try reflexivity.
  destruct s; rewrite Z.compare_refl, Pos.compare_cont_refl; reflexivity.
Qed.

Lemma of_lt_ge x y : of_lt x y = negb (of_ge x y).
Proof. unfold of_ge, of_lt. destruct (of_cmp x y); reflexivity. Qed.
