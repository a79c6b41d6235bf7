(** C22: the fields of a clause header; C23: the clauses in the buffer. *)
From Coq Require Import Lia Arith PeanoNat.
From Verif Require Import Spec Lit ClauseAlloc.

(** * Bit fields *)
Lemma get_field_bits o k w i : N.testbit (get_field o (N.ones k) w) i = N.testbit w (i + o) && (i <? k).
Proof.
  unfold get_field. rewrite N.land_spec, N.shiftr_spec'. f_equal.
  destruct (N.ltb_spec i k); [apply N.ones_spec_low|apply N.ones_spec_high]; assumption.
Qed.
Lemma ones_shift_bits o k j : N.testbit (N.shiftl (N.ones k) o) j = (o <=? j) && (j <? o + k).
Proof.
  destruct (N.leb_spec o j) as [H|H].
  - rewrite N.shiftl_spec_high' by exact H. cbn [andb].
    destruct (N.ltb_spec j (o + k)).
    + apply N.ones_spec_low. lia.
    + apply N.ones_spec_high. lia.
  - rewrite N.shiftl_spec_low by exact H. reflexivity.
Qed.
Lemma set_field_bits o k w v j : v < 2^k -> o + k <= 32 -> w < 2^32 ->
  N.testbit (set_field o (N.ones k) w v) j =
  if (o <=? j) && (j <? o + k) then N.testbit v (j - o) else N.testbit w j.
Proof.
  intros Hv Ho Hw. unfold set_field, word_max. rewrite N.lor_spec, N.land_spec, N.lxor_spec, ones_shift_bits.
  change (2^32 - 1) with (N.ones 32).
  assert (Sv : N.testbit (N.shiftl v o) j = (o <=? j) && (j <? o + k) && N.testbit v (j - o)).
  { destruct (N.leb_spec o j) as [H|H].
    - rewrite N.shiftl_spec_high' by exact H. destruct (N.ltb_spec j (o + k)); [reflexivity|].
      cbn [andb]. destruct (N.eq_dec v 0) as [->|Nz]; [apply N.bits_0|]. apply N.bits_above_log2.
      apply N.log2_lt_pow2; [lia|]. eapply N.lt_le_trans; [exact Hv|]. apply N.pow_le_mono_r; lia.
    - rewrite N.shiftl_spec_low by exact H. reflexivity. }
  rewrite Sv. destruct ((o <=? j) && (j <? o + k)) eqn:E; cbn [andb].
  - apply andb_true_iff in E. destruct E as [E1 E2]. apply N.leb_le in E1. apply N.ltb_lt in E2.
    rewrite N.ones_spec_low by lia. cbn [xorb]. rewrite andb_false_r. reflexivity.
  - rewrite xorb_false_r, orb_false_r. destruct (N.ltb_spec j 32).
    + rewrite N.ones_spec_low by assumption. apply andb_true_r.
    + assert (N.testbit w j = false) as ->; [|reflexivity]. destruct (N.eq_dec w 0) as [->|Nz]; [apply N.bits_0|].
      apply N.bits_above_log2. apply N.lt_le_trans with 32; [|exact H]. apply N.log2_lt_pow2; lia.
Qed.
Lemma set_field_small o k w v : v < 2^k -> o + k <= 32 -> w < 2^32 -> set_field o (N.ones k) w v < 2^32.
Proof.
  intros Hv Ho Hw. destruct (N.eq_dec (set_field o (N.ones k) w v) 0) as [->|Nz]; [lia|].
  apply N.log2_lt_pow2; [lia|]. destruct (N.lt_ge_cases (N.log2 (set_field o (N.ones k) w v)) 32) as [H|H]; [exact H|exfalso].
  pose proof (N.bit_log2 _ Nz) as B. rewrite set_field_bits in B by assumption.
  destruct (_ && _) eqn:E.
  - apply andb_true_iff in E. destruct E as [_ E]. apply N.ltb_lt in E. lia.
  - assert (N.testbit w (N.log2 (set_field o (N.ones k) w v)) = false); [|congruence].
    destruct (N.eq_dec w 0) as [->|Nw]; [apply N.bits_0|]. apply N.bits_above_log2.
    apply N.lt_le_trans with 32; [|exact H]. apply N.log2_lt_pow2; lia.
Qed.
Lemma get_set_same o k w v : v < 2^k -> o + k <= 32 -> w < 2^32 ->
  get_field o (N.ones k) (set_field o (N.ones k) w v) = v.
Proof.
  intros Hv Ho Hw. apply N.bits_inj. intros i. rewrite get_field_bits, set_field_bits by assumption.
  destruct (N.ltb_spec i k) as [H|H].
  - replace (o <=? i + o) with true by (symmetry; apply N.leb_le; lia).
    replace (i + o <? o + k) with true by (symmetry; apply N.ltb_lt; lia). cbn [andb].
    rewrite N.add_sub, andb_true_r. reflexivity.
  - rewrite andb_false_r. symmetry. destruct (N.eq_dec v 0) as [->|Nz]; [apply N.bits_0|].
    apply N.bits_above_log2. apply N.lt_le_trans with k; [|exact H]. apply N.log2_lt_pow2; lia.
Qed.
Lemma get_set_other o k w v o' k' : v < 2^k -> o + k <= 32 -> w < 2^32 -> o + k <= o' \/ o' + k' <= o ->
  get_field o' (N.ones k') (set_field o (N.ones k) w v) = get_field o' (N.ones k') w.
Proof.
  intros Hv Ho Hw D. apply N.bits_inj. intros i. rewrite !get_field_bits.
  destruct (N.ltb_spec i k') as [H|H]; [|rewrite !andb_false_r; reflexivity].
  rewrite set_field_bits by assumption.
  replace ((o <=? i + o') && (i + o' <? o + k)) with false; [reflexivity|]. symmetry. apply andb_false_iff.
  destruct D; [right; apply N.ltb_ge; lia|left; apply N.leb_gt; lia].
Qed.

(** * C22 *)
Inductive hop :=
| HLen (n : N) | HTier (t : N) | HDeleted (b : bool) | HMark (b : bool) | HActive (b : bool)
| HGlue (g : N) | HAct (bits : N).
(** Tiers are those of the enumeration, and lengths are at most the number of variables. *)
Definition hop_ok (o : hop) : Prop :=
  match o with HLen n => n <= max_var + 1 | HTier t => t < 4 | HAct a => a < 2^32 | _ => True end.
Definition happly (h : header) (o : hop) : header :=
  match o with
  | HLen n => hd_set_len h n | HTier t => hd_set_tier h t | HDeleted b => hd_set_deleted h b
  | HMark b => hd_set_mark h b | HActive b => hd_set_active h b | HGlue g => hd_set_glue h g
  | HAct a => hd_set_act h a
  end.

(** The last value set in a sequence of updates, or the initial one *)
Definition last_of {A} (d : A) (f : hop -> option A) (ops : list hop) : A :=
  fold_left (fun x o => match f o with Some y => y | None => x end) ops d.

Lemma bool_field b : negb (b2n b =? 0) = b.
Proof. destruct b; reflexivity. Qed.

Ltac fields := split; [first [assumption|reflexivity]|]; split; [first [assumption|reflexivity]|];
  split; [first [assumption|reflexivity]|]; split; [first [assumption|reflexivity]|];
  split; [first [assumption|reflexivity]|]; split; [first [assumption|reflexivity]|];
  split; [first [assumption|reflexivity]|].

(** Whatever is set in whatever order, each field reads as last set, and [glue] saturates. *)
Theorem C22_fields : forall ops, Forall hop_ok ops ->
  let h := fold_left happly ops header_new in
  hd_len h = last_of 0 (fun o => match o with HLen n => Some n | _ => None end) ops /\
  hd_tier h = last_of 0 (fun o => match o with HTier t => Some t | _ => None end) ops /\
  hd_deleted h = last_of false (fun o => match o with HDeleted b => Some b | _ => None end) ops /\
  hd_mark h = last_of false (fun o => match o with HMark b => Some b | _ => None end) ops /\
  hd_active h = last_of false (fun o => match o with HActive b => Some b | _ => None end) ops /\
  hd_glue h = N.min (last_of 0 (fun o => match o with HGlue g => Some g | _ => None end) ops) 63 /\
  hd_act h = last_of 0 (fun o => match o with HAct a => Some a | _ => None end) ops /\
  Forall (fun w => w < 2^32) (words h).
Proof.
  intros ops H. cbv zeta. revert H. apply rev_ind with (l := ops); clear ops.
  - intros _. fields. do 3 (apply Forall_cons; [reflexivity|]). apply Forall_nil.
  - intros o ops IH H. apply Forall_app in H. destruct H as [H Ho]. apply Forall_inv in Ho.
    specialize (IH H). unfold last_of in *. rewrite !fold_left_app. cbn [fold_left].
    set (h := fold_left happly ops header_new) in *. clearbody h.
    destruct IH as (A & B & C & D & E & F & G & W). unfold words in W. rewrite !Forall_cons_iff in W.
    destruct W as (W1 & W2 & W3 & _).
    unfold hd_len, hd_tier, hd_deleted, hd_mark, hd_active, hd_glue, hd_act in *.
    change (get_field 0 3) with (get_field 0 (N.ones 2)) in *.
    change (get_field 2 1) with (get_field 2 (N.ones 1)) in *.
    change (get_field 3 1) with (get_field 3 (N.ones 1)) in *.
    change (get_field 4 63) with (get_field 4 (N.ones 6)) in *.
    change (get_field 10 1) with (get_field 10 (N.ones 1)) in *.
    assert (Small : forall o k v, v < 2^k -> o + k <= 32 -> Forall (fun w => w < 2^32) [hw_act h; set_field o (N.ones k) (hw_bits h) v; hw_len h]).
    { intros. apply Forall_cons; [assumption|]. apply Forall_cons; [|apply Forall_cons; [assumption|apply Forall_nil]]. apply set_field_small; assumption. }
    assert (B1 : forall b, b2n b < 2^1) by (intros []; cbn; lia).
    destruct o as [n|t|b|b|b|g|a]; cbn [happly hd_set_len hd_set_tier hd_set_deleted hd_set_mark hd_set_active hd_set_glue hd_set_act hw_act hw_bits hw_len hop_ok] in *;
      unfold words; cbn [happly hd_set_len hd_set_tier hd_set_deleted hd_set_mark hd_set_active hd_set_glue hd_set_act hw_act hw_bits hw_len].
    + assert (n < 2^32) by (apply N.le_lt_trans with (1 := Ho); reflexivity). rewrite N.mod_small by assumption.
      fields. apply Forall_cons; [assumption|]. apply Forall_cons; [assumption|]. apply Forall_cons; [assumption|apply Forall_nil].
    + change (set_field 0 3) with (set_field 0 (N.ones 2)). rewrite (get_set_same 0 2) by (try assumption; lia).
      rewrite !(get_set_other 0 2) by (try assumption; lia). fields. apply Small; [exact Ho|lia].
    + change (set_field 2 1) with (set_field 2 (N.ones 1)). rewrite (get_set_same 2 1) by (try apply B1; try assumption; lia). rewrite bool_field.
      rewrite !(get_set_other 2 1) by (try apply B1; try assumption; lia). fields. apply Small; [apply B1|lia].
    + change (set_field 3 1) with (set_field 3 (N.ones 1)). rewrite (get_set_same 3 1) by (try apply B1; try assumption; lia). rewrite bool_field.
      rewrite !(get_set_other 3 1) by (try apply B1; try assumption; lia). fields. apply Small; [apply B1|lia].
    + change (set_field 10 1) with (set_field 10 (N.ones 1)). rewrite (get_set_same 10 1) by (try apply B1; try assumption; lia). rewrite bool_field.
      rewrite !(get_set_other 10 1) by (try apply B1; try assumption; lia). fields. apply Small; [apply B1|lia].
    + assert (N.min g 63 < 2^6) by (change (2^6) with 64; lia).
      change (set_field 4 63) with (set_field 4 (N.ones 6)). rewrite (get_set_same 4 6) by (try assumption; lia).
      rewrite !(get_set_other 4 6) by (try assumption; lia). fields. apply Small; [assumption|lia].
    + fields. apply Forall_cons; [assumption|]. apply Forall_cons; [assumption|]. apply Forall_cons; [assumption|apply Forall_nil].
Qed.
Print Assumptions C22_fields.

(** Update fields of a header repeatedly, with all of them interfering *)
Example ex_fields :
  let h := fold_left happly [HGlue 200; HTier 2; HMark true; HLen 7; HDeleted true; HTier 3; HActive true;
                             HMark false; HAct 5; HGlue 9; HDeleted false] header_new in
  (hd_len h, hd_tier h, hd_deleted h, hd_mark h, hd_active h, hd_glue h, hd_act h) =
  (7, 3, false, false, true, 9, 5).
Proof. reflexivity. Qed.

(** * C23: the buffer *)
Open Scope nat_scope.

Lemma nth_read buf off k i :
  nth_error (read buf off k) i = if Nat.ltb i k then nth_error buf (N.to_nat off + i) else None.
Proof.
  unfold read. destruct (Nat.ltb_spec i k).
  - revert i k H. generalize (N.to_nat off). intros n. revert buf. induction n as [|n IH]; intros buf i k H.
    + cbn [skipn Nat.add]. revert i k H. induction buf as [|x b IH]; intros [|i] [|k] H; cbn; try reflexivity; try lia.
      apply IH. lia.
    + destruct buf as [|x b]; [rewrite skipn_nil; destruct k, i; reflexivity|]. cbn [skipn Nat.add nth_error]. apply IH, H.
  - apply nth_error_None. rewrite firstn_length. lia.
Qed.
Lemma nth_write buf off ws i : N.to_nat off + length ws <= length buf ->
  nth_error (write buf off ws) i =
  if Nat.leb (N.to_nat off) i && Nat.ltb i (N.to_nat off + length ws) then nth_error ws (i - N.to_nat off)
  else nth_error buf i.
Proof.
  intros H. unfold write. generalize dependent (N.to_nat off). intros n H.
  destruct (Nat.leb_spec n i) as [A|A]; cbn [andb].
  - rewrite nth_error_app2 by (rewrite firstn_length; lia). rewrite firstn_length, Nat.min_l by lia.
    destruct (Nat.ltb_spec i (n + length ws)) as [B|B].
    + rewrite nth_error_app1 by lia. reflexivity.
    + rewrite nth_error_app2 by lia.
      assert (Sk : forall (l : list N) k j, nth_error (skipn k l) j = nth_error l (k + j)).
      { intros l k. revert l. induction k as [|k IH]; intros l j; [reflexivity|].
        destruct l; [rewrite skipn_nil; destruct j; reflexivity|]. cbn. apply IH. }
      rewrite Sk. f_equal. lia.
  - rewrite nth_error_app1 by (rewrite firstn_length; lia). clear -A. revert buf i A.
    induction n as [|n IH]; intros buf i A; [lia|]. destruct buf, i; cbn; try reflexivity. apply IH. lia.
Qed.
Lemma write_length buf off ws : N.to_nat off + length ws <= length buf ->
  length (write buf off ws) = length buf.
Proof. intros H. unfold write. rewrite !app_length, firstn_length, skipn_length. lia. Qed.

Lemma nth_ext' (a b : list N) : (forall i, nth_error a i = nth_error b i) -> a = b.
Proof.
  revert b. induction a as [|x a IH]; intros [|y b] H; try reflexivity;
    [specialize (H 0); discriminate|specialize (H 0); discriminate|].
  f_equal; [specialize (H 0); cbn in H; congruence|apply IH; intros i; apply (H (S i))].
Qed.
Lemma read_write_same buf off ws : N.to_nat off + length ws <= length buf ->
  read (write buf off ws) off (length ws) = ws.
Proof.
  intros H. apply nth_ext'. intros i. rewrite nth_read. destruct (Nat.ltb_spec i (length ws)) as [A|A].
  - rewrite nth_write by exact H.
    replace (Nat.leb _ _ && Nat.ltb _ _) with true; [f_equal; lia|].
    symmetry. apply andb_true_iff. split; [apply Nat.leb_le|apply Nat.ltb_lt]; lia.
  - symmetry. apply nth_error_None. exact A.
Qed.
Lemma read_write_other buf off ws off' k : N.to_nat off + length ws <= length buf ->
  N.to_nat off' + k <= N.to_nat off \/ N.to_nat off + length ws <= N.to_nat off' ->
  read (write buf off ws) off' k = read buf off' k.
Proof.
  intros H D. apply nth_ext'. intros i. rewrite !nth_read. destruct (Nat.ltb_spec i k) as [A|A]; [|reflexivity].
  rewrite nth_write by exact H.
  replace (Nat.leb _ _ && Nat.ltb _ _) with false; [reflexivity|].
  symmetry. apply andb_false_iff. destruct D; [left; apply Nat.leb_gt|right; apply Nat.ltb_ge]; lia.
Qed.
Lemma read_app buf ws off k : N.to_nat off + k <= length buf -> read (buf ++ ws) off k = read buf off k.
Proof.
  intros H. apply nth_ext'. intros i. rewrite !nth_read. destruct (Nat.ltb_spec i k) as [A|A]; [|reflexivity].
  apply nth_error_app1. lia.
Qed.
Lemma read_split buf off j k : read buf off (j + k) = read buf off j ++ read buf (off + N.of_nat j) k.
Proof.
  apply nth_ext'. intros i. destruct (Nat.ltb_spec i (length (read buf off j))) as [A|A].
  - rewrite nth_error_app1 by exact A. rewrite !nth_read. unfold read in A. rewrite firstn_length, skipn_length in A.
    replace (i <? j + k) with true by (symmetry; apply Nat.ltb_lt; lia).
    replace (i <? j) with true by (symmetry; apply Nat.ltb_lt; lia). reflexivity.
  - rewrite nth_error_app2 by exact A. rewrite !nth_read. unfold read in *. rewrite firstn_length, skipn_length in *.
    destruct (Nat.ltb_spec i (j + k)) as [B|B].
    + destruct (Nat.le_gt_cases (length buf) (N.to_nat off + i)) as [C|C].
      * rewrite (proj2 (nth_error_None _ _) C). destruct (Nat.ltb _ k); [|reflexivity].
        symmetry. apply nth_error_None. lia.
      * rewrite Nat.min_l by lia. replace (i - j <? k) with true by (symmetry; apply Nat.ltb_lt; lia).
        f_equal. lia.
    + destruct (Nat.ltb_spec (i - Nat.min j (length buf - N.to_nat off)) k) as [C|C]; [|reflexivity].
      symmetry. apply nth_error_None. lia.
Qed.
Lemma read_length buf off k : N.to_nat off + k <= length buf -> length (read buf off k) = k.
Proof. intros H. unfold read. rewrite firstn_length, skipn_length. lia. Qed.

(** A clause as its user knows it: where it is, its header and its literals *)
Definition entry : Type := N * header * list N.

(** The histories: adding a clause, updating its header, in particular with a smaller length
    (unit_simplify.rs:166-170), and overwriting its literals *)
Inductive stored : list N -> list entry -> Prop :=
| St_new : stored [] []
| St_add buf es h lits buf' c : stored buf es -> (N.of_nat (length lits) < 2^32)%N ->
    alloc_add buf h lits = Some (buf', c) ->
    stored buf' (es ++ [(c, hd_set_len h (N.of_nat (length lits)), lits)])
| St_header buf es1 c h lits es2 h' buf' : stored buf (es1 ++ (c, h, lits) :: es2) ->
    (hd_len h' <= hd_len h)%N -> alloc_set_header buf c h' = Some buf' ->
    stored buf' (es1 ++ (c, h', firstn (N.to_nat (hd_len h')) lits) :: es2)
| St_lits buf es1 c h lits es2 lits' buf' : stored buf (es1 ++ (c, h, lits) :: es2) ->
    length lits' = length lits -> alloc_set_lits buf c lits' = Some buf' ->
    stored buf' (es1 ++ (c, h, lits') :: es2).

(** The regions of the clauses follow each other. *)
Fixpoint chain (lo : nat) (es : list entry) (hi : nat) : Prop :=
  match es with
  | [] => lo <= hi
  | (c, _, lits) :: es => lo <= N.to_nat c /\ chain (N.to_nat c + 3 + length lits) es hi
  end.
Lemma chain_le lo es hi : chain lo es hi -> lo <= hi.
Proof.
  revert lo. induction es as [|[[c h] l] es IH]; intros lo; cbn [chain]; [auto|]. intros [A B]. apply IH in B. lia.
Qed.
Lemma chain_weaken lo es hi lo' hi' : chain lo es hi -> lo' <= lo -> hi <= hi' -> chain lo' es hi'.
Proof.
  revert lo lo'. induction es as [|[[c h] l] es IH]; intros lo lo'; cbn [chain]; [lia|].
  intros [A B] C D. split; [lia|]. eapply IH; [exact B|lia|exact D].
Qed.
Lemma chain_app lo es1 es2 hi : chain lo (es1 ++ es2) hi <-> exists mid, chain lo es1 mid /\ chain mid es2 hi.
Proof.
  revert lo. induction es1 as [|[[c h] l] es IH]; intros lo; cbn [chain app].
  - split; [intros H; exists lo; auto|]. intros (m & A & B). eapply chain_weaken; [exact B|exact A|lia].
  - rewrite IH. split; [intros (A & m & B & C); exists m; auto|intros (m & (A & B) & C); eauto].
Qed.
Lemma chain_in lo es hi c h lits : chain lo es hi -> In (c, h, lits) es ->
  lo <= N.to_nat c /\ N.to_nat c + 3 + length lits <= hi.
Proof.
  intros H I. apply in_split in I. destruct I as (a & b & ->). apply chain_app in H.
  destruct H as (m & A & B). cbn [chain] in B. destruct B as [B C]. apply chain_le in A. apply chain_le in C. lia.
Qed.

Definition reads (buf : list N) (e : entry) : Prop :=
  let '(c, h, lits) := e in
  read buf c 3 = words h /\ hd_len h = N.of_nat (length lits) /\ read buf (c + 3) (length lits) = lits.

Lemma reads_header buf c h lits : reads buf (c, h, lits) -> alloc_header buf c = Some h.
Proof. intros (A & _). unfold alloc_header. rewrite A. destruct h; reflexivity. Qed.
Lemma reads_lits buf c h lits : reads buf (c, h, lits) -> N.to_nat c + 3 + length lits <= length buf ->
  alloc_lits buf c = Some lits.
Proof.
  intros H L. unfold alloc_lits. rewrite (reads_header _ _ _ _ H). destruct H as (_ & E & R). rewrite E.
  destruct (N.ltb_spec (N.of_nat (length buf)) (c + 3 + N.of_nat (length lits))); [lia|].
  rewrite Nat2N.id, R. reflexivity.
Qed.
Lemma reads_write buf c h lits off ws : N.to_nat off + length ws <= length buf ->
  N.to_nat c + 3 + length lits <= N.to_nat off \/ N.to_nat off + length ws <= N.to_nat c ->
  reads buf (c, h, lits) -> reads (write buf off ws) (c, h, lits).
Proof.
  intros L D (A & B & C). split; [|split; [exact B|]].
  - rewrite read_write_other; [exact A|exact L|lia].
  - rewrite read_write_other; [exact C|exact L|lia].
Qed.

Lemma stored_inv buf es : stored buf es -> chain 0 es (length buf) /\ Forall (reads buf) es.
Proof.
  induction 1 as [|buf es h lits buf' c R [IC IR] Ll H|buf es1 c h lits es2 h' buf' R [IC IR] Ll H|buf es1 c h lits es2 lits' buf' R [IC IR] Ll H].
  - split; [cbn; lia|constructor].
  - unfold alloc_add in H. destruct (_ || _); [discriminate|]. assert (E : buf' = buf ++ words (hd_set_len h (N.of_nat (length lits))) ++ lits) by congruence.
    assert (c = N.of_nat (length buf)) as -> by congruence. clear H. subst buf'.
    assert (Lw : length (buf ++ words (hd_set_len h (N.of_nat (length lits))) ++ lits) = length buf + 3 + length lits)
      by (rewrite !app_length; cbn; lia).
    split.
    + apply chain_app. exists (length buf). split; [exact IC|]. cbn [chain]. rewrite Lw. lia.
    + apply Forall_app. split.
      * rewrite Forall_forall in *. intros [[c h0] l] I. specialize (IR _ I). apply (chain_in _ _ _ _ _ _ IC) in I.
        destruct IR as (A & B & C). split; [|split; [exact B|]]; rewrite read_app; [exact A|lia|exact C|lia].
      * constructor; [|constructor]. split; [|split].
        -- unfold read. rewrite Nat2N.id, skipn_app, skipn_all, Nat.sub_diag. reflexivity.
        -- unfold hd_set_len, hd_len. cbn [hw_len]. apply N.mod_small, Ll.
        -- unfold read. replace (N.to_nat (N.of_nat (length buf) + 3)) with (length buf + 3) by lia.
           rewrite app_assoc, skipn_app, (skipn_all2 (n := length buf + 3)) by (rewrite app_length; cbn; lia).
           rewrite app_length. cbn [words length app]. rewrite Nat.sub_diag. cbn [skipn]. apply firstn_all.
  - unfold alloc_set_header in H.
    assert (IE := proj1 (Forall_forall _ _) IR (c, h, lits) (in_elt _ _ _)).
    rewrite (reads_header _ _ _ _ IE) in H. injection H as <-.
    pose proof (chain_in _ _ _ _ _ _ IC (in_elt _ _ _)) as B.
    destruct IE as (A1 & A2 & A3).
    assert (W : N.to_nat c + length (words h') <= length buf) by (cbn; lia).
    assert (Lk : length (firstn (N.to_nat (hd_len h')) lits) = N.to_nat (hd_len h')) by (rewrite firstn_length; lia).
    apply chain_app in IC. destruct IC as (m & C1 & C2). cbn [chain] in C2. destruct C2 as [C2 C3].
    rewrite write_length by exact W. split.
    + apply chain_app. exists m. split; [exact C1|]. cbn [chain]. split; [exact C2|].
      eapply chain_weaken; [exact C3|lia|lia].
    + apply Forall_app in IR. destruct IR as [R1 R2]. inversion R2 as [|? ? _ R3]; subst. rewrite Forall_forall in R1, R3.
      apply Forall_app. split; [|constructor]; rewrite ?Forall_forall.
      * intros [[c' h''] l'] I. apply reads_write; [exact W| |apply R1, I].
        apply (chain_in _ _ _ _ _ _ C1) in I. lia.
      * split; [|split].
        -- exact (read_write_same buf c (words h') W).
        -- rewrite Lk. lia.
        -- rewrite Lk. rewrite read_write_other; [|exact W|cbn; lia].
           replace (length lits) with (N.to_nat (hd_len h') + (length lits - N.to_nat (hd_len h'))) in A3 by lia.
           rewrite read_split in A3. rewrite <- A3. rewrite firstn_app, read_length, Nat.sub_diag by lia.
           cbn [firstn]. rewrite app_nil_r, firstn_all2; [reflexivity|]. rewrite read_length; lia.
      * intros [[c' h''] l'] I. apply reads_write; [exact W| |apply R3, I].
        apply (chain_in _ _ _ _ _ _ C3) in I. cbn. lia.
  - unfold alloc_set_lits in H.
    assert (IE := proj1 (Forall_forall _ _) IR (c, h, lits) (in_elt _ _ _)).
    pose proof (chain_in _ _ _ _ _ _ IC (in_elt _ _ _)) as B.
    rewrite (reads_lits _ _ _ _ IE) in H by lia. destruct (Nat.eqb _ _); [|discriminate]. injection H as <-.
    destruct IE as (A1 & A2 & A3).
    assert (W : N.to_nat (c + 3) + length lits' <= length buf) by lia.
    apply chain_app in IC. destruct IC as (m & C1 & C2). cbn [chain] in C2. destruct C2 as [C2 C3].
    rewrite write_length by exact W. split.
    + apply chain_app. exists m. split; [exact C1|]. cbn [chain]. rewrite Ll. split; [exact C2|exact C3].
    + apply Forall_app in IR. destruct IR as [R1 R2]. inversion R2 as [|? ? _ R3]; subst. rewrite Forall_forall in R1, R3.
      apply Forall_app. split; [|constructor]; rewrite ?Forall_forall.
      * intros [[c' h''] l'] I. apply reads_write; [exact W| |apply R1, I].
        apply (chain_in _ _ _ _ _ _ C1) in I. lia.
      * split; [|split].
        -- rewrite read_write_other; [exact A1|exact W|lia].
        -- rewrite Ll. exact A2.
        -- exact (read_write_same buf (c + 3) lits' W).
      * intros [[c' h''] l'] I. apply reads_write; [exact W| |apply R3, I].
        apply (chain_in _ _ _ _ _ _ C3) in I. lia.
Qed.

(** Whatever happens to other clauses, each clause reads back as last written; no two are at the
    same place; updates of a clause are always possible, and adding is unless the clause is too
    short or the buffer full. *)
Theorem C23_buffer : forall buf es, stored buf es ->
  (forall c h lits, In (c, h, lits) es ->
     alloc_header buf c = Some h /\ alloc_lits buf c = Some lits /\
     (forall h', exists buf', alloc_set_header buf c h' = Some buf') /\
     (forall lits', length lits' = length lits -> exists buf', alloc_set_lits buf c lits' = Some buf')) /\
  NoDup (map (fun e : entry => fst (fst e)) es) /\
  (forall h lits, alloc_add buf h lits = None <->
     length lits < 3 \/ (2^32 <= N.of_nat (length buf))%N).
Proof.
  intros buf es H. apply stored_inv in H. destruct H as [C R]. rewrite Forall_forall in R. split; [|split].
  - intros c h lits I. pose proof (R _ I) as E. pose proof (chain_in _ _ _ _ _ _ C I) as [_ B].
    split; [eapply reads_header, E|]. split; [eapply reads_lits; [exact E|exact B]|]. split.
    + intros h'. unfold alloc_set_header. rewrite (reads_header _ _ _ _ E). eauto.
    + intros l' L. unfold alloc_set_lits. rewrite (reads_lits _ _ _ _ E B), (proj2 (Nat.eqb_eq _ _) (eq_sym L)). eauto.
  - clear R. revert C. generalize 0 at 1. induction es as [|[[c h] l] es IH]; intros lo C; [constructor|].
    cbn [chain map fst] in *. destruct C as [_ C]. constructor; [|eapply IH, C].
    intros I. apply in_map_iff in I. destruct I as ([[c' h'] l'] & E & I). cbn [fst] in E. subst c'.
    apply (chain_in _ _ _ _ _ _ C) in I. lia.
  - intros h lits. unfold alloc_add, max_offset.
    destruct (N.ltb_spec (N.of_nat (length lits)) 3), (N.ltb_spec (2^32 - 1) (N.of_nat (length buf))); cbn [orb];
      split; try reflexivity; try discriminate; try lia.
Qed.
Print Assumptions C23_buffer.

(** Two clauses of which the first is shortened and the second reordered *)
Definition ex_h : header := happly (happly header_new (HTier 1)) (HGlue 5).
Example ex_stored : exists buf es, stored buf es /\
  map snd es = [[2; 4; 6]; [9; 3; 5]]%N /\
  option_map hd_mark (alloc_header buf 0) = Some true /\ alloc_lits buf 7 = Some [9; 3; 5]%N.
Proof.
  pose proof (St_add _ _ ex_h [2; 4; 6; 8]%N _ _ St_new eq_refl eq_refl) as S1.
  pose proof (St_add _ _ ex_h [3; 5; 9]%N _ _ S1 eq_refl eq_refl) as S2.
  assert (L : (hd_len (hd_set_mark (hd_set_len ex_h 3) true) <= 4)%N) by (apply N.lt_le_incl; reflexivity).
  pose proof (St_header _ [] _ _ _ [_] (hd_set_mark (hd_set_len ex_h 3) true) _ S2 L eq_refl) as S3.
  pose proof (St_lits _ [_] _ _ _ [] [9; 3; 5]%N _ S3 eq_refl eq_refl) as S4.
  eexists. eexists. split; [exact S4|]. split; [|split]; reflexivity.
Qed.
