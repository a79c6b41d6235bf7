From Coq Require Import Arith ZArith ZifyBool ZifyNat ZifyN.
From Verif Require Import Spec Bits Vli.

(* ---- ctz ---- *)
Lemma ctz_pos_spec p : N.testbit (Npos p) (ctz_pos p) = true /\
  forall i, i < ctz_pos p -> N.testbit (Npos p) i = false.
Proof.
  induction p as [p IH|p IH|]; [ change (ctz_pos p~1) with 0 | change (ctz_pos p~0) with (1 + ctz_pos p) | change (ctz_pos 1) with 0 ].
  - split; [reflexivity|]. intros i Hi. lia.
  - destruct IH as [A B]. assert (E2 : Npos p~0 = 2 * Npos p) by reflexivity. rewrite E2. clear E2. split.
    + replace (1 + ctz_pos p) with (N.succ (ctz_pos p)) by lia. rewrite N.testbit_even_succ by lia. exact A.
    + intros i Hi. destruct (N.eq_dec i 0) as [->|Hi0].
      * apply N.testbit_even_0.
      * replace i with (N.succ (N.pred i)) by lia. rewrite N.testbit_even_succ by lia. apply B. lia.
  - split; [reflexivity|]. intros i Hi. lia.
Qed.

Lemma ctz_spec x : x <> 0 -> N.testbit x (ctz x) = true /\ forall i, i < ctz x -> N.testbit x i = false.
Proof. destruct x as [|p]; [congruence|]. intros _. apply ctz_pos_spec. Qed.

Lemma ctz_unique x k : N.testbit x k = true -> (forall i, i < k -> N.testbit x i = false) -> ctz x = k.
Proof.
  intros H1 H2. assert (Hx : x <> 0) by (intros ->; rewrite N.bits_0 in H1; discriminate).
  destruct (ctz_spec x Hx) as [A B].
  destruct (N.lt_trichotomy (ctz x) k) as [L|[E|L]]; [|exact E|].
  - rewrite (H2 _ L) in A. discriminate.
  - rewrite (B _ L) in H1. discriminate.
Qed.

Lemma testbit_512 i : N.testbit 512 i = (i =? 9).
Proof. change 512 with (2^9). rewrite N.pow2_bits_eqb. apply N.eqb_sym. Qed.

Lemma lor512_nz x : N.lor x 512 <> 0.
Proof. intros H. apply (f_equal (fun y => N.testbit y 9)) in H.
  rewrite N.lor_spec, testbit_512, orb_true_r, N.bits_0 in H. discriminate. Qed.

Lemma ctz512_le x : ctz (N.lor x 512) <= 9.
Proof.
  destruct (ctz_spec _ (lor512_nz x)) as [A B].
  destruct (N.leb_spec (ctz (N.lor x 512)) 9); [assumption|].
  specialize (B 9). rewrite N.lor_spec, testbit_512, orb_true_r in B. discriminate B. assumption.
Qed.

(** ctz of [x | 512] depends only on the low 10 bits *)
Lemma ctz512_ext x y : (forall i, i < 10 -> N.testbit x i = N.testbit y i) ->
  ctz (N.lor x 512) = ctz (N.lor y 512).
Proof.
  intros H. destruct (ctz_spec _ (lor512_nz y)) as [A B]. pose proof (ctz512_le y) as L.
  apply ctz_unique.
  - rewrite N.lor_spec, H by lia. rewrite <- N.lor_spec. exact A.
  - intros i Hi. rewrite N.lor_spec, H by lia. rewrite <- N.lor_spec. apply B. exact Hi.
Qed.

(* ---- byte lists ---- *)
Definition is_byte (b : N) : Prop := b < 256.

Lemma le_val_bound bs : Forall is_byte bs -> le_val bs < 2^(8 * N.of_nat (length bs)).
Proof.
  induction 1 as [|b bs Hb H IH]; cbn [le_val]; [apply pow2_pos|].
  unfold is_byte in Hb.
  replace (8 * N.of_nat (length (b :: bs))) with (8 + 8 * N.of_nat (length bs)) by (simpl length; lia).
  rewrite N.pow_add_r. change (2^8) with 256. nia.
Qed.

Lemma le_val_app x y : le_val (x ++ y) = le_val x + 2^(8 * N.of_nat (length x)) * le_val y.
Proof.
  induction x as [|b x IH]; cbn [app le_val].
  - change (2^(8 * N.of_nat (length (@nil N)))) with 1. lia.
  - rewrite IH. replace (8 * N.of_nat (length (b :: x))) with (8 + 8 * N.of_nat (length x)) by (simpl length; lia).
    rewrite N.pow_add_r. change (2^8) with 256. nia.
Qed.

Lemma le_bytes_length n x : length (le_bytes n x) = n.
Proof. revert x. induction n; simpl; intros; [reflexivity|]. rewrite IHn. reflexivity. Qed.

Lemma le_bytes_bytes n x : Forall is_byte (le_bytes n x).
Proof. revert x. induction n; simpl; intros; constructor; [apply N.mod_lt; discriminate|apply IHn]. Qed.

Lemma le_val_le_bytes n x : le_val (le_bytes n x) = x mod 2^(8 * N.of_nat n).
Proof.
  revert x. induction n as [|n IH]; intros x.
  - simpl. rewrite N.mod_1_r. reflexivity.
  - simpl le_bytes. cbn [le_val]. rewrite IH.
    replace (8 * N.of_nat (S n)) with (8 + 8 * N.of_nat n) by lia.
    rewrite N.pow_add_r. change (2^8) with 256.
    rewrite (N.mod_mul_r x 256) by (try discriminate; apply pow2_nz). reflexivity.
Qed.

Lemma firstn_le_bytes k n x : (k <= n)%nat -> firstn k (le_bytes n x) = le_bytes k x.
Proof.
  revert n x. induction k as [|k IH]; intros n x H; [reflexivity|].
  destruct n as [|n]; [lia|]. simpl. rewrite IH by lia. reflexivity.
Qed.

Lemma le_bytes_app n m x : le_bytes (n + m) x = le_bytes n x ++ le_bytes m (x / 2^(8 * N.of_nat n)).
Proof.
  revert x. induction n as [|n IH]; intros x.
  - simpl. rewrite N.div_1_r. reflexivity.
  - cbn [Nat.add le_bytes app]. rewrite IH. f_equal. f_equal. f_equal.
    replace (8 * N.of_nat (S n)) with (8 + 8 * N.of_nat n) by lia.
    rewrite N.pow_add_r. change (2^8) with 256.
    rewrite N.div_div by (try discriminate; apply pow2_nz). reflexivity.
Qed.

Lemma le_bytes_mod n x k : (8 * N.of_nat n <= k) -> le_bytes n (x mod 2^k) = le_bytes n x.
Proof.
  revert x k. induction n as [|n IH]; intros x k H; [reflexivity|]. cbn [le_bytes].
  replace k with (8 + (k - 8)) by lia. rewrite N.pow_add_r. change (2^8) with 256.
  rewrite (N.mod_mul_r x 256) by (try discriminate; apply pow2_nz).
  f_equal.
  - rewrite N.mul_comm, N.mod_add, N.mod_mod by discriminate. reflexivity.
  - rewrite (N.add_comm (x mod 256)), N.mul_comm, N.div_add_l by discriminate.
    rewrite N.div_small with (a := x mod 256) by (apply N.mod_lt; discriminate).
    rewrite N.add_0_r. apply IH. lia.
Qed.

(* ---- the specification of decoding on a flat byte stream ---- *)
Definition vli_len (bs : list N) : N := ctz (N.lor (le_val (firstn 2 bs)) 512) + 1.

Definition vli_decode (bs : list N) : option (N * list N) :=
  let len := N.to_nat (vli_len bs) in
  if Nat.leb len (length bs)
  then Some ((le_val (firstn len bs) / 2^(vli_len bs)) mod 2^64, skipn len bs)
  else None.

Definition flat (r : reader) : list N := fst r ++ concat (snd r).
Definition reader_ok (r : reader) : Prop := Forall (fun c => c <> []) (snd r).

Lemma fill_buf_flat r : flat (fill_buf r) = flat r.
Proof. destruct r as [[|b buf] [|c rest]]; reflexivity. Qed.

Lemma fill_buf_ok r : reader_ok r -> reader_ok (fill_buf r).
Proof. destruct r as [[|b buf] [|c rest]]; unfold reader_ok; simpl; auto. intros H. inversion H; auto. Qed.

Lemma read_byte_spec r : reader_ok r ->
  match flat r with
  | [] => read_byte r = None
  | b :: s => exists r', read_byte r = Some (b, r') /\ flat r' = s /\ reader_ok r'
  end.
Proof.
  destruct r as [[|b buf] [|c rest]]; unfold reader_ok, flat, read_byte; simpl; intros H.
  - reflexivity.
  - inversion H; subst. destruct c as [|b c]; [congruence|]. simpl. eexists; repeat split; assumption.
  - eexists; repeat split; assumption.
  - eexists; repeat split; assumption.
Qed.

Lemma firstn_S_snoc {A} (d : A) k l : (k < length l)%nat -> firstn (S k) l = firstn k l ++ [nth k l d].
Proof.
  revert l. induction k as [|k IH]; intros [|a l] H; simpl in *; try lia; [reflexivity|].
  rewrite <- IH by lia. reflexivity.
Qed.

Lemma skipn_skipn {A} a b (l : list A) : skipn a (skipn b l) = skipn (a + b) l.
Proof.
  revert l. induction b as [|b IH]; intros l; [rewrite Nat.add_0_r; reflexivity|].
  rewrite Nat.add_succ_r. destruct l as [|x l]; [destruct a; reflexivity|]. apply IH.
Qed.

Lemma Forall_firstn {A} (P : A -> Prop) k l : Forall P l -> Forall P (firstn k l).
Proof. intros H. revert k. induction H; intros [|k]; simpl; constructor; auto. Qed.

Lemma Forall_skipn {A} (P : A -> Prop) k l : Forall P l -> Forall P (skipn k l).
Proof. intros H. revert k. induction H; intros [|k]; simpl; auto. Qed.

Lemma read_rest_spec n : forall i len full result r,
  Forall is_byte full -> reader_ok r ->
  flat r = skipn (N.to_nat i) full -> len <= 8 * i -> (N.to_nat i <= length full)%nat ->
  result = (le_val (firstn (N.to_nat i) full) / 2^len) mod 2^64 ->
  let e := (N.to_nat i + n)%nat in
  if Nat.leb e (length full) then
    exists r', read_rest n i len result r = Some ((le_val (firstn e full) / 2^len) mod 2^64, r')
               /\ flat r' = skipn e full /\ reader_ok r'
  else read_rest n i len result r = None.
Proof.
  induction n as [|n IH]; intros i len full result r HB HR HF HL HI HX e.
  - unfold e. rewrite Nat.add_0_r. destruct (Nat.leb_spec (N.to_nat i) (length full)); [|lia].
    simpl. subst result. eauto.
  - simpl read_rest. pose proof (read_byte_spec r HR) as RB. rewrite HF in RB.
    destruct (skipn (N.to_nat i) full) as [|b s] eqn:ES.
    + rewrite RB. assert (length full - N.to_nat i = 0)%nat by (rewrite <- skipn_length, ES; reflexivity).
      unfold e. destruct (Nat.leb_spec (N.to_nat i + S n) (length full)); [lia|reflexivity].
    + destruct RB as (r'&RB&Fr&Or). rewrite RB.
      assert (LS : (length full - N.to_nat i = S (length s))%nat) by (rewrite <- skipn_length, ES; reflexivity).
      assert (EN : nth (N.to_nat i) full 0 = b).
      { rewrite <- (firstn_skipn (N.to_nat i) full) at 1. rewrite app_nth2; rewrite firstn_length; [|lia].
        replace (N.to_nat i - Nat.min (N.to_nat i) (length full))%nat with 0%nat by lia. rewrite ES. reflexivity. }
      assert (FS : firstn (N.to_nat (i + 1)) full = firstn (N.to_nat i) full ++ [b]).
      { replace (N.to_nat (i + 1)) with (S (N.to_nat i)) by lia.
        rewrite (firstn_S_snoc 0) by lia. rewrite EN. reflexivity. }
      assert (Hb : is_byte b).
      { rewrite Forall_forall in HB. apply HB. rewrite <- (firstn_skipn (N.to_nat i) full), ES.
        apply in_or_app. right. left. reflexivity. }
      specialize (IH (i + 1) len full
        (N.lor result (u64 (N.shiftl b (8 * i - len)))) r' HB Or).
      assert (SK : flat r' = skipn (N.to_nat (i + 1)) full).
      { rewrite Fr. replace (N.to_nat (i + 1)) with (1 + N.to_nat i)%nat by lia.
        rewrite <- skipn_skipn, ES. reflexivity. }
      specialize (IH SK). assert (len <= 8 * (i + 1)) as HL' by lia. specialize (IH HL').
      assert ((N.to_nat (i + 1) <= length full)%nat) as HI' by lia. specialize (IH HI').
      assert (RX : N.lor result (u64 (N.shiftl b (8 * i - len))) =
                   (le_val (firstn (N.to_nat (i + 1)) full) / 2^len) mod 2^64).
      { rewrite FS, le_val_app. cbn [le_val]. rewrite N.mul_0_r, N.add_0_r.
        assert (FL : length (firstn (N.to_nat i) full) = N.to_nat i) by (rewrite firstn_length; lia).
        rewrite FL, N2Nat.id.
        set (X := le_val (firstn (N.to_nat i) full)) in *.
        assert (BX : X < 2^(8 * i)).
        { pose proof (le_val_bound _ (Forall_firstn _ (N.to_nat i) _ HB)) as BB. rewrite FL, N2Nat.id in BB. exact BB. }
        replace (2^(8*i)) with (2^(8*i - len) * 2^len) by (rewrite <- N.pow_add_r; f_equal; lia).
        replace (X + 2^(8*i-len) * 2^len * b) with (2^(8*i-len) * b * 2^len + X) by lia.
        rewrite N.div_add_l by apply pow2_nz.
        rewrite HX. unfold u64. rewrite <- mod_pow2_lor. f_equal.
        assert (BX' : X / 2^len < 2^(8*i-len)).
        { apply N.div_lt_upper_bound; [apply pow2_nz|]. rewrite <- N.pow_add_r.
          replace (len + (8 * i - len)) with (8 * i) by lia. exact BX. }
        rewrite lor_shiftl_add by exact BX'. lia. }
      specialize (IH RX). cbv zeta in IH.
      unfold e. replace (N.to_nat i + S n)%nat with (N.to_nat (i + 1) + n)%nat by lia. exact IH.
Qed.

Lemma vli_len_bounds bs : 1 <= vli_len bs <= 10.
Proof. unfold vli_len. pose proof (ctz512_le (le_val (firstn 2 bs))). lia. Qed.

Lemma byte_lor_512 b : is_byte b -> b <> 0 -> ctz (N.lor b 512) = ctz b /\ ctz b <= 7.
Proof.
  intros Hb H0. unfold is_byte in Hb. destruct (ctz_spec b H0) as [A B].
  assert (L : ctz b <= 7).
  { destruct (N.leb_spec (ctz b) 7); [assumption|].
    rewrite (testbit_ge b 8) in A; [discriminate|exact Hb|lia]. }
  split; [|exact L]. apply ctz_unique.
  - rewrite N.lor_spec, A. reflexivity.
  - intros i Hi. rewrite N.lor_spec, testbit_512, (B i Hi). simpl.
    destruct (N.eqb_spec i 9); [lia|reflexivity].
Qed.

(** when the first byte is non-zero, its own trailing zeros decide *)
Lemma vli_len_1 b s : is_byte b -> b <> 0 -> vli_len (b :: s) = ctz (N.lor b 512) + 1.
Proof.
  intros Hb H0. destruct (byte_lor_512 b Hb H0) as [E L].
  unfold vli_len. f_equal. destruct s as [|b1 s]; cbn [firstn]; cbn [le_val].
  - rewrite N.add_0_r. reflexivity.
  - destruct (ctz_spec b H0) as [A B]. rewrite E. apply ctz_unique.
    + rewrite N.lor_spec. replace (b + 256 * (b1 + 256 * 0)) with (b + b1 * 2^8) by (change (2^8) with 256; lia).
      rewrite <- lor_shiftl_add by exact Hb. rewrite N.lor_spec, A. reflexivity.
    + intros i Hi. rewrite N.lor_spec, testbit_512.
      replace (b + 256 * (b1 + 256 * 0)) with (b + b1 * 2^8) by (change (2^8) with 256; lia).
      rewrite <- lor_shiftl_add by exact Hb. rewrite N.lor_spec, (B i Hi), N.shiftl_spec_low by lia.
      destruct (N.eqb_spec i 9); [lia|reflexivity].
Qed.

Lemma div_small_mod x y : x < 2^64 -> (x / y) mod 2^64 = x / y.
Proof.
  intros H. destruct (N.eq_dec y 0) as [->|Hy]; [destruct x; reflexivity|].
  apply N.mod_small. apply N.div_lt_upper_bound; [exact Hy|]. nia.
Qed.

Lemma read_u64_slow_spec r : reader_ok r -> Forall is_byte (flat r) ->
  match vli_decode (flat r) with
  | Some (v, s) => exists r', read_u64_slow r = Some (v, r') /\ flat r' = s /\ reader_ok r'
  | None => read_u64_slow r = None
  end.
Proof.
  intros HR HB. unfold read_u64_slow. pose proof (read_byte_spec r HR) as RB.
  destruct (flat r) as [|b0 s0] eqn:EF.
  - rewrite RB. unfold vli_decode. pose proof (vli_len_bounds []) as [L _].
    destruct (Nat.leb_spec (N.to_nat (vli_len [])) (length (@nil N))); [simpl in *; lia|reflexivity].
  - destruct RB as (r1&RB&F1&O1). rewrite RB.
    assert (Hb0 : is_byte b0) by (inversion HB; assumption).
    destruct (N.eqb_spec b0 0) as [Z|Z].
    + pose proof (read_byte_spec r1 O1) as RB1. rewrite F1 in RB1. destruct s0 as [|b1 s1].
      * rewrite RB1. subst b0. reflexivity.
      * destruct RB1 as (r2&RB1&F2&O2). rewrite RB1.
        assert (Hb1 : is_byte b1) by (inversion HB as [|? ? ? HB']; inversion HB'; assumption).
        assert (EL : ctz (N.lor (N.lor (N.shiftl 1 9) b0) (N.shiftl b1 8)) + 1 = vli_len (b0 :: b1 :: s1)).
        { unfold vli_len. f_equal. cbn [firstn]. cbn [le_val].
          replace (b0 + 256 * (b1 + 256 * 0)) with (b0 + b1 * 2^8) by (change (2^8) with 256; lia).
          rewrite <- lor_shiftl_add by exact Hb0. change (N.shiftl 1 9) with 512.
          f_equal. rewrite (N.lor_comm 512), <- !N.lor_assoc. f_equal. apply N.lor_comm. }
        rewrite EL. pose proof (vli_len_bounds (b0 :: b1 :: s1)) as [L1 L2].
        assert (L9 : 9 <= vli_len (b0 :: b1 :: s1)).
        { rewrite <- EL. assert (8 <= ctz (N.lor (N.lor (N.shiftl 1 9) b0) (N.shiftl b1 8))); [|lia].
          subst b0. rewrite N.lor_0_r.
          assert (NZ : N.lor (N.shiftl 1 9) (N.shiftl b1 8) <> 0).
          { rewrite N.lor_comm. apply lor512_nz. }
          destruct (ctz_spec _ NZ) as [A _].
          destruct (N.leb_spec 8 (ctz (N.lor (N.shiftl 1 9) (N.shiftl b1 8)))) as [|HH]; [assumption|].
          rewrite N.lor_spec, !N.shiftl_spec_low in A by lia. discriminate. }
        set (len := vli_len (b0 :: b1 :: s1)) in *.
        pose proof (read_rest_spec (N.to_nat (len - 2)) 2 len (b0 :: b1 :: s1)
          (N.shiftr (N.lor b0 (N.shiftl b1 8)) len) r2 HB O2) as RR.
        cbv zeta in RR. unfold vli_decode. fold len.
        replace (N.to_nat 2 + N.to_nat (len - 2))%nat with (N.to_nat len) in RR by lia.
        assert (Q : N.shiftr (N.lor b0 (N.shiftl b1 8)) len =
          (le_val (firstn (N.to_nat 2) (b0 :: b1 :: s1)) / 2^len) mod 2^64).
        { change (N.to_nat 2) with 2%nat. cbn [firstn le_val]. rewrite lor_shiftl_add by exact Hb0. rewrite N.shiftr_div_pow2.
          replace (b0 + 256 * (b1 + 256 * 0)) with (b0 + b1 * 2^8) by (change (2^8) with 256; lia).
          unfold is_byte in *. symmetry. apply div_small_mod. change (2^8) with 256. change (2^64) with 18446744073709551616. lia. }
        specialize (RR F2 ltac:(lia) ltac:(simpl; lia) Q).
        destruct (Nat.leb (N.to_nat len) (length (b0 :: b1 :: s1))); exact RR.
    + assert (EL : ctz (N.lor (N.shiftl 1 9) b0) + 1 = vli_len (b0 :: s0)).
      { rewrite vli_len_1 by assumption. rewrite N.lor_comm. reflexivity. }
      assert (L8 : vli_len (b0 :: s0) <= 8).
      { rewrite vli_len_1 by assumption. destruct (byte_lor_512 b0 Hb0 Z). lia. }
      cbv zeta. rewrite EL. pose proof (vli_len_bounds (b0 :: s0)) as [L1 _].
      set (len := vli_len (b0 :: s0)) in *.
      pose proof (read_rest_spec (N.to_nat (len - 1)) 1 len (b0 :: s0) (N.shiftr b0 len) r1 HB O1) as RR.
      cbv zeta in RR. unfold vli_decode. fold len.
      replace (N.to_nat 1 + N.to_nat (len - 1))%nat with (N.to_nat len) in RR by lia.
      assert (Q : N.shiftr b0 len = (le_val (firstn (N.to_nat 1) (b0 :: s0)) / 2^len) mod 2^64).
      { change (N.to_nat 1) with 1%nat. cbn [firstn le_val]. rewrite N.shiftr_div_pow2, N.mul_0_r, N.add_0_r. unfold is_byte in *. symmetry.
        apply div_small_mod. change (2^64) with 18446744073709551616. lia. }
      specialize (RR F1 ltac:(lia) ltac:(simpl; lia) Q).
      destruct (Nat.leb (N.to_nat len) (length (b0 :: s0))); exact RR.
Qed.

Lemma firstn_prefix {A} k n (l : list A) : (k <= n)%nat -> firstn k (firstn n l) = firstn k l.
Proof. intros H. rewrite firstn_firstn. f_equal. lia. Qed.

Lemma read_u64_fast_spec bs : Forall is_byte bs -> length bs = 16%nat ->
  read_u64_fast bs = ((le_val (firstn (N.to_nat (vli_len bs)) bs) / 2^(vli_len bs)) mod 2^64, vli_len bs).
Proof.
  intros HB HL. unfold read_u64_fast. change (N.shiftl 1 9) with 512.
  assert (EL : ctz (N.lor (le_val (firstn 8 bs)) 512) + 1 = vli_len bs).
  { unfold vli_len. f_equal. apply ctz512_ext. intros i Hi.
    rewrite <- (firstn_skipn 2 (firstn 8 bs)), firstn_prefix by lia. rewrite le_val_app.
    assert (F2 : length (firstn 2 bs) = 2%nat) by (rewrite firstn_length; lia). rewrite F2.
    change (8 * N.of_nat 2) with 16. pose proof (le_val_bound _ (Forall_firstn _ 2 _ HB)) as BB.
    rewrite F2 in BB. change (8 * N.of_nat 2) with 16 in BB.
    rewrite N.mul_comm, <- lor_shiftl_add by exact BB.
    rewrite N.lor_spec, N.shiftl_spec_low by lia. apply orb_false_r. }
  cbv zeta. rewrite EL. pose proof (vli_len_bounds bs) as [L1 L2]. set (len := vli_len bs) in *.
  assert (F8 : length (firstn 8 bs) = 8%nat) by (rewrite firstn_length; lia).
  pose proof (le_val_bound _ (Forall_firstn _ 8 _ HB)) as B8. rewrite F8 in B8. change (8 * N.of_nat 8) with 64 in B8.
  assert (MASK : forall k, k <= 64 -> N.shiftr (2^64 - 1) (64 - k) = 2^k - 1).
  { intros k Hk. replace (2^64-1) with (N.ones 64) by reflexivity.
    rewrite N.shiftr_div_pow2, N.ones_div_pow2 by lia. rewrite N.ones_equiv. replace (64 - (64 - k)) with k by lia.
    pose proof (pow2_pos k). lia. }
  destruct (N.leb_spec len 8) as [Le|Gt].
  - rewrite MASK by lia. rewrite land_mask, N.shiftr_div_pow2.
    rewrite <- (firstn_skipn (N.to_nat len) (firstn 8 bs)) at 1. rewrite firstn_prefix by lia.
    rewrite le_val_app.
    assert (FL : length (firstn (N.to_nat len) bs) = N.to_nat len) by (rewrite firstn_length; lia).
    rewrite FL, N2Nat.id. pose proof (le_val_bound _ (Forall_firstn _ (N.to_nat len) _ HB)) as BB.
    rewrite FL, N2Nat.id in BB.
    rewrite (N.mul_comm (2^(8*len))), N.mod_add by apply pow2_nz.
    rewrite (N.mod_small (le_val _)) by exact BB. f_equal. symmetry. apply div_small_mod.
    eapply N.lt_le_trans; [exact BB|]. apply N.pow_le_mono_r; lia.
  - rewrite MASK by lia. rewrite land_mask, N.shiftr_div_pow2. f_equal.
    assert (SP : firstn (N.to_nat len) bs = firstn 8 bs ++ firstn (N.to_nat (len - 8)) (skipn 8 bs)).
    { rewrite <- (firstn_skipn 8 bs) at 1. rewrite firstn_app, F8, firstn_firstn.
      replace (Nat.min (N.to_nat len) 8) with 8%nat by lia.
      replace (N.to_nat len - 8)%nat with (N.to_nat (len - 8)) by lia. reflexivity. }
    rewrite SP, le_val_app, F8. change (8 * N.of_nat 8) with 64.
    assert (S8 : length (skipn 8 bs) = 8%nat) by (rewrite skipn_length; lia).
    set (X := le_val (firstn 8 bs)) in *.
    assert (H2 : le_val (skipn 8 bs) mod 2^(8 * (len - 8)) = le_val (firstn (N.to_nat (len - 8)) (skipn 8 bs))).
    { rewrite <- (firstn_skipn (N.to_nat (len - 8)) (skipn 8 bs)) at 1. rewrite le_val_app.
      assert (FL : length (firstn (N.to_nat (len - 8)) (skipn 8 bs)) = N.to_nat (len - 8)) by (rewrite firstn_length; lia).
      rewrite FL, N2Nat.id. pose proof (le_val_bound _ (Forall_firstn _ (N.to_nat (len - 8)) _ (Forall_skipn _ 8 _ HB))) as BB.
      rewrite FL, N2Nat.id in BB. rewrite (N.mul_comm (2^(8*(len-8)))), N.mod_add by apply pow2_nz.
      apply N.mod_small. exact BB. }
    rewrite H2. set (Y := le_val (firstn (N.to_nat (len - 8)) (skipn 8 bs))) in *.
    replace (X + 2^64 * Y) with ((2^(64-len) * Y) * 2^len + X).
    2:{ replace (2^64) with (2^(64-len) * 2^len) by (rewrite <- N.pow_add_r; f_equal; lia). lia. }
    rewrite N.div_add_l by apply pow2_nz.
    assert (BX' : X / 2^len < 2^(64-len)).
    { apply N.div_lt_upper_bound; [apply pow2_nz|]. rewrite <- N.pow_add_r.
      replace (len + (64 - len)) with 64 by lia. exact B8. }
    replace (2^(64-len) * Y + X / 2^len) with (X / 2^len + Y * 2^(64-len)) by lia.
    rewrite <- lor_shiftl_add by exact BX'. rewrite mod_pow2_lor. unfold u64. f_equal.
    symmetry. apply div_small_mod. exact B8.
Qed.

Lemma read_u64_spec r : reader_ok r -> Forall is_byte (flat r) ->
  match vli_decode (flat r) with
  | Some (v, s) => exists r', read_u64 r = Some (v, r') /\ flat r' = s /\ reader_ok r'
  | None => read_u64 r = None
  end.
Proof.
  intros HR HB. unfold read_u64. rewrite <- (fill_buf_flat r) in *.
  pose proof (fill_buf_ok r HR) as OK. set (q := fill_buf r) in *. clearbody q.
  destruct (Nat.leb_spec 16 (length (fst q))) as [L|L]; [|apply read_u64_slow_spec; assumption].
  assert (F16 : length (firstn 16 (fst q)) = 16%nat) by (rewrite firstn_length; lia).
  assert (PFX : forall k, (k <= 16)%nat -> firstn k (flat q) = firstn k (firstn 16 (fst q))).
  { intros k Hk. rewrite firstn_prefix by lia. unfold flat. rewrite firstn_app.
    replace (k - length (fst q))%nat with 0%nat by lia. simpl. apply app_nil_r. }
  assert (VL : vli_len (firstn 16 (fst q)) = vli_len (flat q)).
  { unfold vli_len. rewrite (PFX 2%nat) by lia. reflexivity. }
  pose proof (vli_len_bounds (flat q)) as [L1 L2].
  rewrite read_u64_fast_spec; [|apply Forall_firstn; unfold flat in HB; apply Forall_app in HB; tauto|exact F16].
  rewrite VL. unfold vli_decode.
  assert (LF : (length (fst q) <= length (flat q))%nat) by (unfold flat; rewrite app_length; lia).
  destruct (Nat.leb_spec (N.to_nat (vli_len (flat q))) (length (flat q))); [|lia].
  rewrite (PFX (N.to_nat (vli_len (flat q)))) by lia.
  eexists. split; [reflexivity|]. split; [|exact OK].
  unfold consume, flat. simpl. rewrite skipn_app.
  replace (N.to_nat (vli_len (fst q ++ concat (snd q))) - length (fst q))%nat with 0%nat; [reflexivity|].
  fold (flat q). lia.
Qed.

(* ---- encoder ---- *)
Definition enc_blocks (v : N) : N := N.size v * 9 / 64.

Lemma blocks_table : forallb (fun b => (N.of_nat b <=? 7 * (N.of_nat b * 9 / 64 + 1)) && (N.of_nat b * 9 / 64 <=? 9)
    && ((57 <=? N.of_nat b) || (N.of_nat b * 9 / 64 <=? 7))
    && ((N.of_nat b <=? 56) || (8 <=? N.of_nat b * 9 / 64)) ) (seq 0 65) = true.
Proof. vm_compute. reflexivity. Qed.

Lemma enc_blocks_props v : v < 2^64 ->
  v < 2^(7 * (enc_blocks v + 1)) /\ enc_blocks v <= 9 /\
  (v < 2^56 -> enc_blocks v <= 7) /\ (2^56 <= v -> 8 <= enc_blocks v).
Proof.
  intros H. pose proof (size_le v 64 H) as S.
  pose proof blocks_table as T. rewrite forallb_forall in T.
  specialize (T (N.to_nat (N.size v))). rewrite N2Nat.id in T. fold (enc_blocks v) in T.
  assert (I : In (N.to_nat (N.size v)) (seq 0 65)) by (apply in_seq; lia). specialize (T I).
  rewrite !andb_true_iff, !orb_true_iff, !N.leb_le in T. destruct T as [[[T1 T2] T3] T4].
  repeat split.
  - eapply N.lt_le_trans; [apply size_spec|]. apply N.pow_le_mono_r; lia.
  - exact T2.
  - intros Hv. apply size_le in Hv. lia.
  - intros Hv. destruct (N.leb_spec (N.size v) 56) as [Q|Q]; [|lia].
    pose proof (size_spec v) as SS.
    assert (2^(N.size v) <= 2^56) by (apply N.pow_le_mono_r; lia). lia.
Qed.

Definition enc_word (v : N) : N := (2 * v + 1) * 2^(enc_blocks v).

Lemma lor_double_1 v : N.lor (2 * v) 1 = 2 * v + 1.
Proof. destruct v; reflexivity. Qed.

Lemma enc_inner v : v < 2^64 ->
  u64 (N.shiftl (N.lor (u64 (N.shiftl v 1)) 1) (enc_blocks v)) = enc_word v mod 2^64.
Proof.
  intros H. unfold u64, enc_word. rewrite !N.shiftl_mul_pow2. change (2^1) with 2.
  replace (N.lor ((v * 2) mod 2^64) 1) with ((2 * v + 1) mod 2^64).
  - rewrite N.mul_mod_idemp_l by discriminate. reflexivity.
  - rewrite <- lor_double_1, mod_pow2_lor. f_equal. f_equal. lia.
Qed.

Lemma write_u64_val v : v < 2^64 ->
  write_u64 v = le_bytes (N.to_nat (enc_blocks v + 1)) (enc_word v).
Proof.
  intros H. unfold write_u64. change (64 / 7) with 9. fold (enc_blocks v). cbv zeta.
  rewrite enc_inner by exact H. change (8 * 7) with 56.
  destruct (enc_blocks_props v H) as (P1&P2&P3&P4).
  destruct (N.ltb_spec v (2^56)) as [L|L].
  - specialize (P3 L). rewrite firstn_le_bytes by lia. apply le_bytes_mod. lia.
  - specialize (P4 L). rewrite firstn_le_bytes by lia.
    replace (N.to_nat (enc_blocks v + 1)) with (8 + N.to_nat (enc_blocks v + 1 - 8))%nat by lia.
    rewrite le_bytes_app. change (8 * N.of_nat 8) with 64.
    rewrite (le_bytes_mod 8 (enc_word v) 64) by (simpl; lia). f_equal. f_equal.
    rewrite N.shiftr_div_pow2. unfold enc_word.
    replace (2^64) with (2^(64 - (enc_blocks v + 1)) * 2 * 2^(enc_blocks v)).
    2:{ replace (2^(64 - (enc_blocks v + 1)) * 2) with (2^(64 - (enc_blocks v + 1)) * 2^1) by reflexivity.
        rewrite <- !N.pow_add_r. f_equal. lia. }
    rewrite N.div_mul_cancel_r by (try apply pow2_nz; pose proof (pow2_nz (64 - (enc_blocks v + 1))); lia).
    rewrite (N.mul_comm _ 2), <- N.div_div by (try discriminate; apply pow2_nz). f_equal.
    apply (N.div_unique _ 2 v 1); lia.
Qed.

Lemma enc_word_bound v : v < 2^64 -> enc_word v < 2^(8 * (enc_blocks v + 1)).
Proof.
  intros H. destruct (enc_blocks_props v H) as (P1&_). unfold enc_word.
  replace (8 * (enc_blocks v + 1)) with (7 * (enc_blocks v + 1) + 1 + enc_blocks v) by lia.
  rewrite !N.pow_add_r. change (2^1) with 2. pose proof (pow2_pos (enc_blocks v)). nia.
Qed.

Lemma write_u64_decode v rest : v < 2^64 -> vli_decode (write_u64 v ++ rest) = Some (v, rest).
Proof.
  intros H. rewrite write_u64_val by exact H.
  destruct (enc_blocks_props v H) as (P1&P2&P3&P4). pose proof (enc_word_bound v H) as EB.
  set (k := enc_blocks v) in *. set (n := N.to_nat (k + 1)).
  set (bs := le_bytes n (enc_word v)).
  assert (LB : length bs = n) by apply le_bytes_length.
  assert (VL : vli_len (bs ++ rest) = k + 1).
  { unfold vli_len. f_equal. apply ctz_unique.
    - rewrite N.lor_spec. destruct (N.eqb_spec k 9) as [->|NE]; [apply orb_true_r|].
      apply orb_true_intro. left.
      assert (F : firstn 2 (bs ++ rest) = firstn (Nat.min 2 n) bs ++ firstn (2 - n) rest).
      { rewrite firstn_app, LB. f_equal. destruct (Nat.min_spec 2 n) as [[? ->]|[? E]]; [reflexivity|].
        rewrite E. rewrite !firstn_all2 by lia. reflexivity. }
      rewrite F, le_val_app. unfold bs. rewrite firstn_le_bytes by lia. rewrite le_val_le_bytes, le_bytes_length.
      set (m := N.of_nat (Nat.min 2 n)).
      assert (KM : k < 8 * m) by (unfold m, n; lia).
      rewrite (N.mul_comm _ (le_val _)), <- lor_shiftl_add by (apply N.mod_lt; apply pow2_nz).
      rewrite N.lor_spec. rewrite N.mod_pow2_bits_low by exact KM.
      unfold enc_word. rewrite N.mul_pow2_bits_high by (subst k; lia).
      fold k. rewrite N.sub_diag. rewrite N.testbit_odd_0. reflexivity.
    - intros i Hi. rewrite N.lor_spec, testbit_512. destruct (N.eqb_spec i 9) as [?|_]; [lia|].
      rewrite orb_false_r.
      assert (F : firstn 2 (bs ++ rest) = firstn (Nat.min 2 n) bs ++ firstn (2 - n) rest).
      { rewrite firstn_app, LB. f_equal. destruct (Nat.min_spec 2 n) as [[? ->]|[? E]]; [reflexivity|].
        rewrite E. rewrite !firstn_all2 by lia. reflexivity. }
      rewrite F, le_val_app. unfold bs. rewrite firstn_le_bytes by lia. rewrite le_val_le_bytes, le_bytes_length.
      set (m := N.of_nat (Nat.min 2 n)).
      assert (KM : k < 8 * m \/ 9 <= k) by (unfold m, n; lia).
      assert (KM' : i < 8 * m) by (unfold m, n in *; lia).
      rewrite (N.mul_comm _ (le_val _)), <- lor_shiftl_add by (apply N.mod_lt; apply pow2_nz).
      rewrite N.lor_spec. rewrite N.mod_pow2_bits_low by exact KM'.
      rewrite N.shiftl_spec_low by exact KM'. unfold enc_word. fold k. rewrite N.mul_pow2_bits_low by exact Hi.
      reflexivity. }
  unfold vli_decode. rewrite VL. fold n.
  rewrite app_length, LB. destruct (Nat.leb_spec n (n + length rest)); [|lia].
  rewrite firstn_app, LB, Nat.sub_diag. cbn [firstn]. rewrite app_nil_r.
  rewrite firstn_all2 by lia. unfold bs. rewrite le_val_le_bytes.
  replace (8 * N.of_nat n) with (8 * (k + 1)) by (unfold n; lia).
  rewrite (N.mod_small (enc_word v)) by exact EB.
  replace (enc_word v / 2^(k+1)) with v.
  2:{ unfold enc_word. fold k. rewrite (N.add_1_r k), N.pow_succ_r'.
      rewrite N.div_mul_cancel_r by (try discriminate; apply pow2_nz).
      apply (N.div_unique _ 2 v 1); lia. }
  rewrite N.mod_small by exact H. f_equal. f_equal. fold bs.
  rewrite skipn_app, LB, Nat.sub_diag, skipn_all2 by lia. reflexivity.
Qed.

Lemma write_u64_bytes v : v < 2^64 -> Forall is_byte (write_u64 v).
Proof. intros H. rewrite write_u64_val by exact H. apply le_bytes_bytes. Qed.

Lemma write_u64_length v : v < 2^64 -> (1 <= length (write_u64 v) <= 10)%nat.
Proof. intros H. rewrite write_u64_val, le_bytes_length by exact H. destruct (enc_blocks_props v H) as (_&P&_). lia. Qed.

(** sequences *)
Fixpoint read_many (n : nat) (r : reader) : option (list N * reader) :=
  match n with
  | O => Some ([], r)
  | S n => match read_u64 r with
           | None => None
           | Some (v, r) => match read_many n r with None => None | Some (vs, r) => Some (v :: vs, r) end
           end
  end.

Lemma read_u64_write v rest r : v < 2^64 -> reader_ok r -> Forall is_byte rest ->
  flat r = write_u64 v ++ rest ->
  exists r', read_u64 r = Some (v, r') /\ flat r' = rest /\ reader_ok r'.
Proof.
  intros Hv HR HB HF. pose proof (read_u64_spec r HR) as RS. rewrite HF in RS.
  rewrite write_u64_decode in RS by exact Hv. apply RS. apply Forall_app. split; [apply write_u64_bytes; exact Hv|exact HB].
Qed.

Lemma read_many_write vs rest r : Forall (fun v => v < 2^64) vs -> reader_ok r -> Forall is_byte rest ->
  flat r = flat_map write_u64 vs ++ rest ->
  exists r', read_many (length vs) r = Some (vs, r') /\ flat r' = rest /\ reader_ok r'.
Proof.
  intros HV. revert r. induction HV as [|v vs Hv HV IH]; intros r HR HB HF; simpl in *.
  - eauto.
  - rewrite <- app_assoc in HF.
    destruct (read_u64_write v (flat_map write_u64 vs ++ rest) r Hv HR) as (r1&E1&F1&O1).
    + apply Forall_app. split; [|exact HB]. clear - HV. induction HV; simpl; [constructor|].
      apply Forall_app. split; [apply write_u64_bytes; assumption|assumption].
    + exact HF.
    + rewrite E1. destruct (IH r1 O1 HB F1) as (r2&E2&F2&O2). rewrite E2. eauto.
Qed.
