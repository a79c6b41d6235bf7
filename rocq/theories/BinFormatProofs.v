From Coq Require Import Arith ZArith ZifyBool ZifyNat ZifyN.
From Verif Require Import Spec Bits Lit LitProofs Vli VliProofs BinFormat.

(* ---- parametricity of the parser in its source ---- *)
Section Param.
Context {S1 S2 : Type} (R : S1 -> S2 -> Prop) (lax : Prop).
Context (rd1 : S1 -> option (N * S1)) (rd2 : S2 -> option (N * S2)).

Definition rel_res {A} (x : presult (A * S1)) (y : presult (A * S2)) : Prop :=
  match x with
  | POk (a, s) => exists s', y = POk (a, s') /\ R s s'
  | PEof => y = PEof \/ lax
  | PBad => y = PBad
  | PPanic => y = PPanic
  end.

Context (Hrd : forall s1 s2, R s1 s2 -> rel_res (rd_p rd1 s1) (rd_p rd2 s2)).

Lemma rel_bind {A B} (x : presult (A * S1)) y (f : A * S1 -> presult (B * S1)) g :
  rel_res x y -> (forall a s1 s2, R s1 s2 -> rel_res (f (a, s1)) (g (a, s2))) ->
  rel_res (pbind x f) (pbind y g).
Proof.
  intros H HF. destruct x as [[a s]| | |]; simpl in *.
  - destruct H as (s'&->&HR). apply HF. exact HR.
  - destruct H as [->|H]; [left; reflexivity|right; exact H].
  - subst y. reflexivity.
  - subst y. reflexivity.
Qed.

Lemma rel_ret {A} (a : A) s1 s2 : R s1 s2 -> rel_res (POk (a, s1)) (POk (a, s2)).
Proof. intros H. simpl. eauto. Qed.

Lemma rel_rd_n conv n : forall s1 s2, R s1 s2 -> rel_res (rd_n rd1 conv n s1) (rd_n rd2 conv n s2).
Proof.
  induction n as [|n IH]; intros s1 s2 H; cbn [rd_n]; [apply rel_ret; exact H|].
  apply rel_bind; [apply Hrd; exact H|]. intros a t1 t2 HT.
  apply rel_bind; [apply IH; exact HT|]. intros l u1 u2 HU. apply rel_ret. exact HU.
Qed.

Lemma rel_rd_pairs n : forall s1 s2, R s1 s2 -> rel_res (rd_pairs rd1 n s1) (rd_pairs rd2 n s2).
Proof.
  induction n as [|n IH]; intros s1 s2 H; cbn [rd_pairs]; [apply rel_ret; exact H|].
  apply rel_bind; [apply Hrd; exact H|]. intros a t1 t2 HT.
  apply rel_bind; [apply Hrd; exact HT|]. intros b v1 v2 HV.
  apply rel_bind; [apply IH; exact HV|]. intros l u1 u2 HU. apply rel_ret. exact HU.
Qed.

Lemma rel_read_literals s1 s2 : R s1 s2 -> rel_res (read_literals rd1 s1) (read_literals rd2 s2).
Proof.
  intros H. apply rel_bind; [apply Hrd; exact H|]. intros a t1 t2 HT.
  destruct (reserve_ok a 4); [apply rel_rd_n; exact HT|reflexivity].
Qed.
Lemma rel_read_hashes s1 s2 : R s1 s2 -> rel_res (read_hashes rd1 s1) (read_hashes rd2 s2).
Proof.
  intros H. apply rel_bind; [apply Hrd; exact H|]. intros a t1 t2 HT.
  destruct (reserve_ok a 8); [apply rel_rd_n; exact HT|reflexivity].
Qed.
Lemma rel_read_unit_clauses s1 s2 : R s1 s2 -> rel_res (read_unit_clauses rd1 s1) (read_unit_clauses rd2 s2).
Proof.
  intros H. apply rel_bind; [apply Hrd; exact H|]. intros a t1 t2 HT.
  destruct (reserve_ok a 16); [apply rel_rd_pairs; exact HT|reflexivity].
Qed.

Lemma rel_parse_step s1 s2 : R s1 s2 -> rel_res (parse_step_gen rd1 s1) (parse_step_gen rd2 s2).
Proof.
  intros H. unfold parse_step_gen. apply rel_bind; [apply Hrd; exact H|]. intros code t1 t2 HT.
  repeat match goal with
  | |- rel_res (if ?b then _ else _) (if ?b then _ else _) => destruct b
  | |- rel_res (let x := ?e in _) _ => cbv zeta
  | |- rel_res (pbind _ _) (pbind _ _) => apply rel_bind; [|intros ? ? ? ?]
  | |- rel_res (POk (?a, _)) (POk (?a, _)) => apply rel_ret; assumption
  | |- rel_res (rd_p _ _) _ => apply Hrd; assumption
  | |- rel_res (read_literals _ _) _ => apply rel_read_literals; assumption
  | |- rel_res (read_hashes _ _) _ => apply rel_read_hashes; assumption
  | |- rel_res (read_unit_clauses _ _) _ => apply rel_read_unit_clauses; assumption
  | |- rel_res PBad PBad => reflexivity
  end.
Qed.
End Param.

(* ---- reader against flat stream ---- *)
Definition src_rel (r : reader) (s : list N) : Prop := reader_ok r /\ flat r = s /\ Forall is_byte s.

Lemma vli_decode_suffix bs v s : vli_decode bs = Some (v, s) -> exists p, bs = p ++ s /\ p <> [].
Proof.
  unfold vli_decode. pose proof (vli_len_bounds bs) as [L _].
  destruct (Nat.leb_spec (N.to_nat (vli_len bs)) (length bs)); [|discriminate].
  intros E. inversion E; subst. exists (firstn (N.to_nat (vli_len bs)) bs). rewrite firstn_skipn. split; [reflexivity|].
  intros C. apply (f_equal (@length N)) in C. rewrite firstn_length in C. simpl in C. lia.
Qed.

Lemma rd_rel r s : src_rel r s -> rel_res src_rel False (rd_p read_u64 r) (rd_p vli_decode s).
Proof.
  intros (O&F&B). subst s. pose proof (read_u64_spec r O B) as H. unfold rd_p.
  destruct (vli_decode (flat r)) as [[v s]|] eqn:E.
  - destruct H as (r'&->&F'&O'). simpl. exists s. split; [reflexivity|].
    repeat split; try assumption. apply vli_decode_suffix in E. destruct E as (p&E&_). rewrite E in B.
    apply Forall_app in B. tauto.
  - rewrite H. simpl. left. reflexivity.
Qed.

Lemma parse_step_flat r s : src_rel r s ->
  rel_res src_rel False (parse_step r) (parse_step_gen vli_decode s).
Proof. apply rel_parse_step. exact rd_rel. Qed.

(* ---- extension of the stream ---- *)
Lemma vli_len_ext p q : (N.to_nat (vli_len p) <= length p)%nat -> vli_len (p ++ q) = vli_len p.
Proof.
  intros L. destruct p as [|b0 [|b1 p]].
  - pose proof (vli_len_bounds []). simpl in L. lia.
  - (* one byte, so the length is 1 and bit 0 is set *)
    unfold vli_len in *. cbn [firstn length app] in *. f_equal.
    assert (C : ctz (N.lor (le_val [b0]) 512) = 0) by lia. rewrite C.
    destruct (ctz_spec _ (lor512_nz (le_val [b0]))) as [A _]. rewrite C, N.lor_spec, testbit_512, orb_false_r in A.
    apply ctz_unique; [|intros; lia]. rewrite N.lor_spec, testbit_512, orb_false_r.
    destruct q as [|c q]; cbn [firstn le_val] in *; [exact A|].
    rewrite N.bit0_odd in *. rewrite N.odd_add in *. rewrite !N.odd_mul in *. exact A.
  - reflexivity.
Qed.

Lemma vli_decode_ext p q v s : vli_decode p = Some (v, s) -> vli_decode (p ++ q) = Some (v, s ++ q).
Proof.
  unfold vli_decode. destruct (Nat.leb_spec (N.to_nat (vli_len p)) (length p)) as [L|]; [|discriminate].
  intros E. injection E as E1 E2. rewrite vli_len_ext by exact L. rewrite app_length.
  destruct (Nat.leb_spec (N.to_nat (vli_len p)) (length p + length q)); [|lia].
  rewrite firstn_app, skipn_app. replace (N.to_nat (vli_len p) - length p)%nat with 0%nat by lia.
  cbn [firstn skipn]. rewrite app_nil_r. subst. reflexivity.
Qed.

Lemma rd_ext q s1 s2 : s2 = s1 ++ q ->
  rel_res (fun a b => b = a ++ q) True (rd_p vli_decode s1) (rd_p vli_decode s2).
Proof.
  intros ->. unfold rd_p. destruct (vli_decode s1) as [[v s]|] eqn:E.
  - rewrite (vli_decode_ext _ q _ _ E). simpl. eauto.
  - simpl. right. exact I.
Qed.

Lemma parse_ext p q : rel_res (fun a b => b = a ++ q) True
  (parse_step_gen vli_decode p) (parse_step_gen vli_decode (p ++ q)).
Proof. apply (rel_parse_step _ _ _ _ (rd_ext q)). reflexivity. Qed.

(* ---- round trip ---- *)
Definition step_ok (s : proof_step) : Prop :=
  let var v := v <= max_var in
  let lits := Forall (fun l => l <= 2 * max_var + 1) in
  let hash h := h < 2^64 in
  let size {A} (l : list A) k := N.of_nat (length l) * k <= 2^63 - 1 in
  match s with
  | SolverVarName g v | UserVarName g v =>
      var g /\ match v with Some v => var v | None => True end
  | DeleteVar v | ChangeSamplingMode v _ => var v
  | AddClause c | DeleteClause c _ | Model c | Assumptions c => lits c /\ size c 4
  | AtClause _ c hs | FailedAssumptions c hs => lits c /\ size c 4 /\ Forall hash hs /\ size hs 8
  | UnitClauses us => Forall (fun p => fst p <= 2 * max_var + 1 /\ hash (snd p)) us /\ size us 16
  | ChangeHashBits b => b < 2^32
  | End => True
  end.

Lemma rd_p_write v rest : v < 2^64 -> rd_p vli_decode (write_u64 v ++ rest) = POk (v, rest).
Proof. intros H. unfold rd_p. rewrite write_u64_decode by exact H. reflexivity. Qed.

Lemma rd_n_write conv l rest : Forall (fun v => v < 2^64 /\ conv v = v) l ->
  rd_n vli_decode conv (length l) (flat_map write_u64 l ++ rest) = POk (l, rest).
Proof.
  induction 1 as [|v l [Hv Hc] H IH]; cbn [length rd_n flat_map app]; [reflexivity|].
  rewrite <- app_assoc, rd_p_write by exact Hv. cbn [pbind]. rewrite IH. cbn [pbind]. rewrite Hc. reflexivity.
Qed.

Lemma rd_pairs_write l rest :
  Forall (fun p => fst p < 2^32 /\ snd p < 2^64) l ->
  rd_pairs vli_decode (length l) (flat_map (fun p => write_u64 (fst p) ++ write_u64 (snd p)) l ++ rest) = POk (l, rest).
Proof.
  induction 1 as [|[a b] l [Ha Hb] H IH]; cbn [length rd_pairs flat_map app fst snd]; [reflexivity|].
  cbn [fst snd] in *. rewrite <- !app_assoc, rd_p_write by lia. cbn [pbind]. rewrite rd_p_write by exact Hb.
  cbn [pbind]. rewrite IH. cbn [pbind]. unfold lit_from_code. rewrite u32_small by exact Ha. reflexivity.
Qed.

Lemma u64_len n k : n * k <= 2^63 - 1 -> 1 <= k -> u64 n = n /\ n < 2^64.
Proof. intros H K. assert (n < 2^64) by (change (2^64) with (2 * 2^63); nia). split; [apply N.mod_small|]; assumption. Qed.

Lemma read_literals_write c rest : Forall (fun l => l <= 2 * max_var + 1) c ->
  N.of_nat (length c) * 4 <= 2^63 - 1 -> read_literals vli_decode (write_list c ++ rest) = POk (c, rest).
Proof.
  intros H L. unfold read_literals, write_list. destruct (u64_len _ _ L) as [-> B]; [lia|].
  rewrite <- app_assoc, rd_p_write by exact B. cbn [pbind]. unfold reserve_ok.
  rewrite (proj2 (N.leb_le _ _) L), Nat2N.id. apply rd_n_write.
  eapply Forall_impl; [|exact H]. intros l Hl. rewrite max_var_val in Hl.
  split; [lia|]. unfold lit_from_code. apply u32_small. lia.
Qed.

Lemma read_hashes_write c rest : Forall (fun l => l < 2^64) c ->
  N.of_nat (length c) * 8 <= 2^63 - 1 -> read_hashes vli_decode (write_list c ++ rest) = POk (c, rest).
Proof.
  intros H L. unfold read_hashes, write_list. destruct (u64_len _ _ L) as [-> B]; [lia|].
  rewrite <- app_assoc, rd_p_write by exact B. cbn [pbind]. unfold reserve_ok.
  rewrite (proj2 (N.leb_le _ _) L), Nat2N.id. apply rd_n_write.
  eapply Forall_impl; [|exact H]. intros l Hl. split; [exact Hl|reflexivity].
Qed.

Lemma read_units_write c rest : Forall (fun p => fst p <= 2 * max_var + 1 /\ snd p < 2^64) c ->
  N.of_nat (length c) * 16 <= 2^63 - 1 -> read_unit_clauses vli_decode (write_unit_clauses c ++ rest) = POk (c, rest).
Proof.
  intros H L. unfold read_unit_clauses, write_unit_clauses. destruct (u64_len _ _ L) as [-> B]; [lia|].
  rewrite <- app_assoc, rd_p_write by exact B. cbn [pbind]. unfold reserve_ok.
  rewrite (proj2 (N.leb_le _ _) L), Nat2N.id. apply rd_pairs_write.
  eapply Forall_impl; [|exact H]. cbn beta. intros [a b] [Ha Hb]. rewrite max_var_val in Ha. cbn [fst snd] in *.
  split; [lia|exact Hb].
Qed.

Ltac codes := cbn [N.eqb Pos.eqb orb CODE_SOLVER_VAR_NAME_UPDATE CODE_SOLVER_VAR_NAME_REMOVE CODE_USER_VAR_NAME_UPDATE
 CODE_USER_VAR_NAME_REMOVE CODE_DELETE_VAR CODE_CHANGE_SAMPLING_MODE_SAMPLE CODE_CHANGE_SAMPLING_MODE_WITNESS
 CODE_AT_CLAUSE_RED CODE_AT_CLAUSE_IRRED CODE_UNIT_CLAUSES CODE_DELETE_CLAUSE_REDUNDANT CODE_DELETE_CLAUSE_SIMPLIFIED
 CODE_DELETE_CLAUSE_SATISFIED CODE_CHANGE_HASH_BITS CODE_MODEL CODE_ADD_CLAUSE CODE_ASSUMPTIONS CODE_FAILED_ASSUMPTIONS CODE_END].

Lemma parse_write_flat s rest : step_ok s ->
  parse_step_gen vli_decode (write_step s ++ rest) = POk (s, rest).
Proof.
  assert (VF : forall v, v <= max_var -> var_from_index v = v).
  { intros v Hv. rewrite max_var_val in Hv. apply u32_small. lia. }
  assert (V64 : forall v, v <= max_var -> v < 2^64).
  { intros v Hv. rewrite max_var_val in Hv. lia. }
  intros H. unfold parse_step_gen.
  destruct s as [g [v|]|g [v|]|v|v b|c|red c hs|us|c p|bits|a|a|c hs|]; cbn [write_step step_ok] in *;
    rewrite <- ?app_assoc;
    match goal with |- context[match ?p with DRedundant => _ | DSimplified => _ | DSatisfied => _ end] => destruct p | _ => idtac end;
    try match goal with |- context[write_u64 (if ?b then _ else _)] => destruct b end;
    rewrite rd_p_write by reflexivity; cbn [pbind]; codes;
    repeat match goal with H : _ /\ _ |- _ => destruct H end;
    rewrite ?rd_p_write by (auto; try lia); cbn [pbind];
    rewrite ?rd_p_write by (auto; try lia); cbn [pbind];
    rewrite ?VF by assumption; try reflexivity;
    rewrite ?read_literals_write by assumption; cbn [pbind];
    rewrite ?read_hashes_write by assumption; cbn [pbind];
    rewrite ?read_units_write by assumption; cbn [pbind]; try reflexivity.
  rewrite u32_small by assumption. reflexivity.
Qed.

Lemma write_list_bytes l : Forall (fun v => v < 2^64) l -> Forall is_byte (write_list l).
Proof.
  intros H. unfold write_list. apply Forall_app. split.
  - apply write_u64_bytes. apply N.mod_lt. discriminate.
  - induction H; cbn [flat_map]; [constructor|]. apply Forall_app. split; [apply write_u64_bytes|]; assumption.
Qed.

Lemma write_step_bytes s : step_ok s -> Forall is_byte (write_step s).
Proof.
  assert (V64 : forall v, v <= max_var -> v < 2^64).
  { intros v Hv. rewrite max_var_val in Hv. lia. }
  assert (L64 : forall c, Forall (fun l => l <= 2 * max_var + 1) c -> Forall (fun l => l < 2^64) c).
  { intros c. apply Forall_impl. intros l Hl. rewrite max_var_val in Hl. lia. }
  intros H. destruct s as [g [v|]|g [v|]|v|v b|c|red c hs|us|c p|bits|a|a|c hs|]; cbn [write_step step_ok] in *;
    repeat match goal with H : _ /\ _ |- _ => destruct H end;
    rewrite ?Forall_app; repeat split;
    repeat match goal with |- context[write_u64 (if ?b then _ else _)] => destruct b end;
    repeat match goal with |- context[match ?p with DRedundant => _ | DSimplified => _ | DSatisfied => _ end] => destruct p end;
    try (apply write_u64_bytes; first [reflexivity | auto; lia]);
    try (apply write_list_bytes; auto).
  unfold write_unit_clauses. apply Forall_app. split.
  - apply write_u64_bytes. apply N.mod_lt. discriminate.
  - match goal with H : Forall _ us |- _ => induction H as [|[a b] us [Ha Hb] HU IH] end; cbn [flat_map]; [constructor|].
    cbn [fst snd] in *. rewrite max_var_val in Ha. rewrite !Forall_app. repeat split; try (apply write_u64_bytes; lia).
    apply IH. cbn [length] in *. lia.
Qed.

(** parse [n] steps in a row *)
Fixpoint parse_many (n : nat) (r : reader) : presult (list proof_step * reader) :=
  match n with
  | O => POk ([], r)
  | S n => pbind (parse_step r) (fun '(s, r) => pbind (parse_many n r) (fun '(l, r) => POk (s :: l, r)))
  end.

Lemma parse_step_write s rest r : step_ok s -> reader_ok r -> Forall is_byte rest ->
  flat r = write_step s ++ rest ->
  exists r', parse_step r = POk (s, r') /\ flat r' = rest /\ reader_ok r'.
Proof.
  intros HS HR HB HF.
  assert (SR : src_rel r (write_step s ++ rest)).
  { repeat split; try assumption. apply Forall_app. split; [apply write_step_bytes|]; assumption. }
  pose proof (parse_step_flat _ _ SR) as H. rewrite parse_write_flat in H by exact HS.
  destruct (parse_step r) as [[s' r']| | |]; simpl in H.
  - destruct H as (q&E&(O&F&B)). inversion E; subst. eauto.
  - destruct H as [H|[]]; discriminate.
  - discriminate.
  - discriminate.
Qed.

Lemma parse_many_write ss rest r : Forall step_ok ss -> reader_ok r -> Forall is_byte rest ->
  flat r = flat_map write_step ss ++ rest ->
  exists r', parse_many (length ss) r = POk (ss, r') /\ flat r' = rest /\ reader_ok r'.
Proof.
  intros HV. revert r. induction HV as [|v vs Hv HV IH]; intros r HR HB HF; cbn [length parse_many flat_map app] in *.
  - eauto.
  - rewrite <- app_assoc in HF.
    destruct (parse_step_write v (flat_map write_step vs ++ rest) r Hv HR) as (r1&E1&F1&O1).
    + apply Forall_app. split; [|exact HB]. clear - HV. induction HV; cbn [flat_map]; [constructor|].
      apply Forall_app. split; [apply write_step_bytes; assumption|assumption].
    + exact HF.
    + rewrite E1. cbn [pbind]. destruct (IH r1 O1 HB F1) as (r2&E2&F2&O2). rewrite E2. cbn [pbind]. eauto.
Qed.

Lemma write_step_inj s1 s2 r1 r2 : step_ok s1 -> step_ok s2 ->
  write_step s1 ++ r1 = write_step s2 ++ r2 -> s1 = s2 /\ r1 = r2.
Proof.
  intros H1 H2 E. pose proof (parse_write_flat s1 r1 H1) as P. rewrite E, (parse_write_flat s2 r2 H2) in P.
  inversion P. auto.
Qed.

Lemma truncated_eof s p q r : step_ok s -> write_step s = p ++ q -> q <> [] ->
  reader_ok r -> flat r = p -> parse_step r = PEof.
Proof.
  intros HS E Hq HR HF. pose proof (write_step_bytes s HS) as B. rewrite E in B. apply Forall_app in B.
  assert (SR : src_rel r p) by (repeat split; tauto).
  pose proof (parse_step_flat _ _ SR) as H. pose proof (parse_ext p q) as X.
  pose proof (parse_write_flat s [] HS) as W. rewrite app_nil_r, E in W. rewrite W in X.
  destruct (parse_step_gen vli_decode p) as [[s' t]| | |]; simpl in X.
  - destruct X as (u&Y&Z). assert (U : u = []) by congruence. rewrite U in Z. symmetry in Z. apply app_eq_nil in Z. tauto.
  - destruct (parse_step r) as [[s' r']| | |]; simpl in H; try reflexivity; try discriminate.
    destruct H as (?&?&_). discriminate.
  - discriminate.
  - discriminate.
Qed.
