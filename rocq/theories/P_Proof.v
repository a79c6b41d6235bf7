(** Properties C34 and C35: the width of the clause hashes in a proof, and what happens with the
    answers of the checker and with errors. *)
From Coq Require Import Lia Arith ZArith ZifyBool ZifyNat ZifyN.
From Verif Require Import Spec Lit LitProofs BinFormat Hash F32 Vsids VsidsProofs Luby Config Search SearchBase ClauseDb
  Analyze SolverCtx CtxFrame Solver VarsProofs P_Vars CtxEvents.
From Verif Require Checker CheckerRun CheckerNames.
Local Open Scope N_scope.

(** * The width of the hashes *)

Lemma grow_ge n : forall b k, b <= grow_bits n b k.
Proof. induction n as [|n IH]; intros b k; cbn [grow_bits]; [lia|]. destruct (_ <? _)%Z; [|lia]. specialize (IH (b + 2) k). lia. Qed.
Lemma grow_enough n : forall b k, (k <= 2 ^ 32)%Z -> 64 <= b + 2 * N.of_nat n ->
  (k <= 2 ^ Z.of_N (grow_bits n b k / 2))%Z.
Proof.
  induction n as [|n IH]; intros b k K B; cbn [grow_bits].
  - assert (32 <= b / 2) by (apply N.div_le_lower_bound; lia).
    assert (2 ^ 32 <= 2 ^ Z.of_N (b / 2))%Z by (apply Z.pow_le_mono_r; lia). lia.
  - destruct (Z.ltb_spec (2 ^ Z.of_N (b / 2)) k) as [Q|Q]; [|exact Q]. apply IH; [exact K|lia].
Qed.
Lemma grow_le n : forall h k, (k <= 2 ^ 32)%Z -> h <= 32 -> exists h', grow_bits n (2 * h) k = 2 * h' /\ h <= h' <= 32.
Proof.
  induction n as [|n IH]; intros h k K B; cbn [grow_bits]; [exists h; lia|].
  replace (2 * h / 2) with h by (rewrite N.mul_comm, N.div_mul; lia).
  destruct (Z.ltb_spec (2 ^ Z.of_N h) k) as [Q|Q]; [|exists h; lia].
  assert (h <> 32) by (intros ->; change (Z.of_N 32) with 32%Z in Q; lia).
  replace (2 * h + 2) with (2 * (h + 1)) by lia. destruct (IH (h + 1) k K ltac:(lia)) as (h' & E & R). exists h'. split; [exact E|lia].
Qed.
Lemma shrink_le n : forall h k, 3 <= h -> exists h', shrink_bits n (2 * h) k = 2 * h' /\ 3 <= h' <= h /\
  (h' <> h -> (k * 4 < 2 ^ Z.of_N (h' + 1))%Z).
Proof.
  induction n as [|n IH]; intros h k B; cbn [shrink_bits]; [exists h; repeat split; try reflexivity; try lia; congruence|].
  replace (2 * h / 2) with h by (rewrite N.mul_comm, N.div_mul; lia).
  destruct (N.ltb_spec 6 (2 * h)) as [Q|Q]; [|exists h; repeat split; try reflexivity; try lia; congruence]. destruct (Z.ltb_spec (k * 4) (2 ^ Z.of_N h)) as [R|R]; [|exists h; repeat split; try reflexivity; try lia; congruence].
  cbn [andb]. replace (2 * h - 2) with (2 * (h - 1)) by lia. destruct (IH (h - 1) k ltac:(lia)) as (h' & E & X & Y).
  exists h'. split; [exact E|]. split; [lia|]. intros _. destruct (N.eq_dec h' (h - 1)) as [e|NE]; [|apply Y; exact NE].
  subst h'. replace (h - 1 + 1) with h by lia. exact R.
Qed.
(** A width that has just grown is not reduced again, so that the flag of the code tells whether
    the width is another one. *)
Lemma grow_then_keep n m h k : grow_bits n (2 * h) k <> 2 * h -> 0 < h ->
  shrink_bits m (grow_bits n (2 * h) k) k = grow_bits n (2 * h) k.
Proof.
  revert h. induction n as [|n IH]; intros h NE H; cbn [grow_bits] in *; [congruence|].
  replace (2 * h / 2) with h in * by (rewrite N.mul_comm, N.div_mul; lia).
  destruct (Z.ltb_spec (2 ^ Z.of_N h) k) as [Q|Q]; [|congruence].
  replace (2 * h + 2) with (2 * (h + 1)) in * by lia.
  destruct (N.eq_dec (grow_bits n (2 * (h + 1)) k) (2 * (h + 1))) as [E|NE2]; [|apply IH; [exact NE2|lia]].
  rewrite E. destruct m; [reflexivity|]. cbn [shrink_bits].
  replace (2 * (h + 1) / 2) with (h + 1) by (rewrite N.mul_comm, N.div_mul; lia).
  destruct (Z.ltb_spec (k * 4) (2 ^ Z.of_N (h + 1))) as [R|R]; [|destruct (_ <? _); reflexivity].
  exfalso. replace (Z.of_N (h + 1)) with (Z.of_N h + 1)%Z in R by lia. rewrite Z.pow_add_r in R by lia.
  assert (0 < 2 ^ Z.of_N h)%Z by (apply Z.pow_pos_nonneg; lia). lia.
Qed.

Definition width_ok (b : N) : Prop := 6 <= b <= 64 /\ N.even b = true.
Lemma width_half b : width_ok b <-> exists h, b = 2 * h /\ 3 <= h <= 32.
Proof.
  split.
  - intros [A B]. apply N.even_spec in B. destruct B as [h B]. exists h. lia.
  - intros (h & -> & A). split; [lia|]. apply N.even_spec. exists h. reflexivity.
Qed.
Lemma next_bits_ok i b k : width_ok b -> (k <= 2 ^ 32)%Z -> width_ok (next_bits i b k) /\ (k <= 2 ^ Z.of_N (next_bits i b k / 2))%Z.
Proof.
  intros W K. apply width_half in W. destruct W as (h & -> & H). unfold next_bits.
  destruct (grow_le 32 h k K ltac:(lia)) as (h1 & E1 & R1).
  pose proof (grow_enough 32 (2 * h) k K ltac:(lia)) as G. rewrite E1 in *.
  replace (2 * h1 / 2) with h1 in * by (rewrite N.mul_comm, N.div_mul; lia).
  destruct i.
  - destruct (shrink_le 64 h1 k ltac:(lia)) as (h2 & E2 & R2 & L2). rewrite E2.
    replace (2 * h2 / 2) with h2 in * by (rewrite N.mul_comm, N.div_mul; lia).
    split; [apply width_half; exists h2; lia|]. destruct (N.eq_dec h2 h1) as [e|NE]; [subst; exact G|].
    specialize (L2 NE). replace (Z.of_N (h2 + 1)) with (Z.of_N h2 + 1)%Z in L2 by lia. rewrite Z.pow_add_r in L2 by lia.
    assert (0 < 2 ^ Z.of_N h2)%Z by (apply Z.pow_pos_nonneg; lia). lia.
  - replace (2 * h1 / 2) with h1 by (rewrite N.mul_comm, N.div_mul; lia). split; [apply width_half; exists h1; lia|exact G].
Qed.

(** ** What is written *)

(** [announces b ss os]: with hashes of [b] bits agreed on before, [os] are the steps [ss] with
    all hashes reduced to their high bits, where every change of the number of bits comes before the
    first step using it. *)
Definition high (b : N) (s : proof_step) : proof_step := map_hashes (fun h => N.shiftr h (64 - b)) s.
Inductive announces : N -> list proof_step -> list proof_step -> Prop :=
| an_nil b : announces b [] []
| an_step b s ss os : is_bits s = false -> announces b ss os -> announces b (s :: ss) (high b s :: os)
| an_bits b b' ss os : 6 <= b' <= 64 -> b' <> b -> announces b' ss os -> announces b ss (ChangeHashBits b' :: os).

(** The events a checker reading these steps sees, and the width it uses after them *)
Definition seen (os : list proof_step) : list CheckerRun.event := map CheckerRun.Step os.
Definition bits_from (b : N) (os : list proof_step) : N := fold_left CheckerNames.bits_after (seen os) b.
Lemma bits_from_app b os os' : bits_from b (os ++ os') = bits_from (bits_from b os) os'.
Proof. unfold bits_from, seen. rewrite map_app, fold_left_app. reflexivity. Qed.
Lemma high_bits b s : is_bits s = false -> is_bits (high b s) = false.
Proof. destruct s; cbn; congruence. Qed.
Lemma bits_after_other b s : is_bits s = false -> CheckerNames.bits_after b (CheckerRun.Step s) = b.
Proof. destruct s; cbn; congruence. Qed.
Lemma announces_app b ss os : announces b ss os -> forall ss' os', announces (bits_from b os) ss' os' -> announces b (ss ++ ss') (os ++ os').
Proof.
  induction 1; intros ss' os' A; cbn [app].
  - exact A.
  - constructor; [assumption|]. apply IHannounces. unfold bits_from, seen in A. cbn [map fold_left] in A.
    rewrite bits_after_other in A by (apply high_bits; assumption). exact A.
  - constructor; try assumption. apply IHannounces. exact A.
Qed.

(** Writing a sequence of steps, each with whether [solve] was called before *)
Fixpoint write_all (p : proof) (l : list (bool * proof_step)) : option (proof * list N) :=
  match l with
  | [] => Some (p, [])
  | (i, s) :: l =>
      match write_varisat_step i p s with
      | None => None
      | Some (p, bytes) => match write_all p l with None => None | Some (p, r) => Some (p, bytes ++ r) end
      end
  end.
(** The number of clauses stays representable in 64 bit hashes. *)
Fixpoint counts_ok (k : Z) (l : list proof_step) : Prop :=
  match l with [] => True | s :: l => (k + clause_count_delta s <= 2 ^ 32)%Z /\ counts_ok (k + clause_count_delta s) l end.

Lemma write_one i p s : width_ok (p_bits p) -> is_bits s = false ->
  match write_varisat_step i p s with
  | None => (2 ^ 32 < p_count p + clause_count_delta s)%Z
  | Some (p', bytes) => exists os, bytes = flat_map write_step os /\ announces (p_bits p) [s] os /\
      p_bits p' = bits_from (p_bits p) os /\ width_ok (p_bits p') /\
      p_count p' = (p_count p + clause_count_delta s)%Z /\
      p' = Proof (p_format p) (p_checker p) (p_bits p') (p_count p') (p_out p) (p_log p) (p_judge p) (p_io p) /\
      ((p_count p' <= 2 ^ 32)%Z -> (p_count p' <= 2 ^ Z.of_N (p_bits p' / 2))%Z) /\
      (exists b, (os = [high b s] \/ os = [ChangeHashBits b; high b s]) /\ b = p_bits p')
  end.
Proof.
  intros W NB. unfold write_varisat_step. cbv zeta. set (k := (p_count p + clause_count_delta s)%Z). set (b := next_bits i (p_bits p) k).
  destruct (Z.le_gt_cases k (2 ^ 32)) as [K|K].
  - destruct (next_bits_ok i (p_bits p) k W K) as [W' E]. fold b in W', E. destruct (N.ltb_spec 64 b) as [L|L]; [destruct W'; lia|].
    cbn [p_bits p_count].
    assert (G : forall os, bits_from (p_bits p) os = b -> width_ok b -> (exists b0, (os = [high b0 s] \/ os = [ChangeHashBits b0; high b0 s]) /\ b0 = b) ->
      announces (p_bits p) [s] os -> exists os0, flat_map write_step os = flat_map write_step os0 /\ announces (p_bits p) [s] os0 /\ b = bits_from (p_bits p) os0 /\
        width_ok b /\ k = k /\ Proof (p_format p) (p_checker p) b k (p_out p) (p_log p) (p_judge p) (p_io p) =
        Proof (p_format p) (p_checker p) b k (p_out p) (p_log p) (p_judge p) (p_io p) /\ ((k <= 2 ^ 32)%Z -> (k <= 2 ^ Z.of_N (b / 2))%Z) /\
        (exists b0, (os0 = [high b0 s] \/ os0 = [ChangeHashBits b0; high b0 s]) /\ b0 = b)).
    { intros os A B C D. exists os. repeat (split; [first [assumption|reflexivity|symmetry; assumption|intros; exact E]|]). exact C. }
    destruct (N.eqb_spec b (p_bits p)) as [e|NE].
    + replace ([] ++ write_step (map_hashes (fun h => N.shiftr h (64 - b)) s)) with (flat_map write_step [high b s])
        by (cbn [flat_map app]; apply app_nil_r).
      apply G; [unfold bits_from, seen; cbn [map fold_left]; rewrite bits_after_other by (apply high_bits; exact NB); congruence|exact W'|exists b; auto|].
      rewrite e. repeat constructor. exact NB.
    + replace (write_step (ChangeHashBits b) ++ write_step (map_hashes (fun h => N.shiftr h (64 - b)) s))
        with (flat_map write_step [ChangeHashBits b; high b s]) by (cbn [flat_map]; rewrite app_nil_r; reflexivity).
      apply G; [unfold bits_from, seen; cbn [map fold_left]; rewrite bits_after_other by (apply high_bits; exact NB); reflexivity|exact W'|exists b; auto|].
      destruct W'. constructor; [lia|exact NE|]. repeat constructor. exact NB.
  - destruct (N.ltb_spec 64 b) as [L|L]; [lia|]. exfalso.
    (* the loop for more clauses passes 64 *)
    apply width_half in W. destruct W as (h & Eh & H).
    assert (G : forall n x, 33 <= x + N.of_nat n -> (x <= 33) -> exists y, grow_bits n (2 * x) k = 2 * y /\ 33 <= y).
    { induction n as [|n IH]; intros x A B; cbn [grow_bits]; [exists x; lia|].
      replace (2 * x / 2) with x by (rewrite N.mul_comm, N.div_mul; lia).
      destruct (N.eq_dec x 33) as [e|NE].
      { subst x. destruct (Z.ltb_spec (2 ^ Z.of_N 33) k); [|exists 33; lia].
        assert (X : forall m z, 66 <= z -> 66 <= grow_bits m z k) by (intros m z; pose proof (grow_ge m z k); lia).
        clear IH. assert (Y : forall m z, exists y, grow_bits m (2 * z) k = 2 * y /\ z <= y).
        { induction m as [|m IHm]; intros z; cbn [grow_bits]; [exists z; lia|]. destruct (_ <? _)%Z; [|exists z; lia].
          replace (2 * z + 2) with (2 * (z + 1)) by lia. destruct (IHm (z + 1)) as (y & E & F). exists y. split; [exact E|lia]. }
        replace (2 * 33 + 2) with (2 * 34) by lia. destruct (Y n 34) as (y & E & F). exists y. split; [exact E|lia]. }
      destruct (Z.ltb_spec (2 ^ Z.of_N x) k) as [Q|Q].
      - replace (2 * x + 2) with (2 * (x + 1)) by lia. apply IH; lia.
      - exfalso. assert (2 ^ Z.of_N x <= 2 ^ 32)%Z by (apply Z.pow_le_mono_r; lia). lia. }
    unfold b, next_bits in L. rewrite Eh in L. destruct (G 32%nat h ltac:(lia) ltac:(lia)) as (y & E & Y). rewrite E in L.
    destruct i; [|lia]. destruct (shrink_le 64 y k ltac:(lia)) as (z & E2 & R & S2). rewrite E2 in L.
    destruct (N.eq_dec z y) as [e|NE]; [lia|]. specialize (S2 NE).
    assert (2 ^ Z.of_N (z + 1) <= 2 ^ 33)%Z by (apply Z.pow_le_mono_r; lia). change (2 ^ 33)%Z with (2 * 2 ^ 32)%Z in *. lia.
Qed.

Theorem C34_width : forall l p, width_ok (p_bits p) -> Forall (fun x => is_bits (snd x) = false) l ->
  counts_ok (p_count p) (map snd l) ->
  exists p' bytes os, write_all p l = Some (p', bytes) /\ bytes = flat_map write_step os /\
    announces (p_bits p) (map snd l) os /\ p_bits p' = bits_from (p_bits p) os /\ width_ok (p_bits p') /\
    (l <> [] -> (p_count p' <= 2 ^ Z.of_N (p_bits p' / 2))%Z).
Proof.
  induction l as [|[i s] l IH]; intros p W F C; cbn [write_all map] in *.
  - exists p, [], []. repeat split; try reflexivity; try (apply W); try constructor. intros X. congruence.
  - inversion F as [|? ? NB F']; subst. cbn [snd counts_ok] in *. destruct C as [C1 C2].
    pose proof (write_one i p s W NB) as H. destruct (write_varisat_step i p s) as [[p1 b1]|]; [|lia].
    destruct H as (o1 & E1 & A1 & B1 & W1 & K1 & _ & L1 & _).
    destruct (IH p1 W1 F' ltac:(rewrite K1; exact C2)) as (p2 & b2 & o2 & E2 & E3 & A2 & B2 & W2 & L2).
    rewrite E2. exists p2, (b1 ++ b2), (o1 ++ o2). split; [reflexivity|]. rewrite E1, E3, flat_map_app. split; [reflexivity|].
    split; [change (s :: map snd l) with ([s] ++ map snd l); apply announces_app; [exact A1|rewrite <- B1; exact A2]|].
    split; [rewrite bits_from_app, <- B1; exact B2|]. split; [exact W2|]. intros _. destruct l as [|x l]; [|apply L2; discriminate].
    cbn [write_all] in E2. injection E2 as <- _. apply L1. rewrite K1. exact C1.
Qed.
Print Assumptions C34_width.

(** The hypotheses are met by a sequence in which the width grows and shrinks. *)
Example C34_width_case :
  let l := (false, AddClause [0; 2]) :: (true, AtClause true [0; 3] [2 ^ 63 + 5]) ::
           repeat (true, AtClause true [4; 6] [2 ^ 62]) 12 in
  match write_all (proof_default (fun _ => VOk) (fun _ => false)) l with
  | Some (p, bytes) => p_bits p = 8 /\ p_count p = 14%Z /\ length bytes <> 0%nat
  | None => False
  end.
Proof. vm_compute. repeat split; discriminate. Qed.

(** ** The hash the checker computes *)

(** [Lit::from_var] below [Var::max_count] *)
Lemma lit_of_from_var x p : x < max_count -> lit_from_var x p = lit_of x p.
Proof. intros H. unfold lit_of. apply lit_from_var_val. rewrite max_count_val in H. rewrite max_var_val. lia. Qed.
Lemma lit_of_var x p : lit_var (lit_of x p) = x.
Proof. unfold lit_of. rewrite lit_var_div. apply div2_val. Qed.
Lemma lit_of_pos x p : is_positive (lit_of x p) = p.
Proof. unfold lit_of. rewrite is_positive_even, odd_val. apply negb_involutive. Qed.
Lemma lit_of_eta l : lit_of (lit_var l) (is_positive l) = l.
Proof. unfold lit_of. rewrite lit_var_div, is_positive_even. rewrite (div2_odd_eq l) at 3. destruct (N.odd l); reflexivity. Qed.

(** A clause over the names of the solver and the same clause over the names of the proof have the
    same hash, if the reader of the proof has the names of the solver. *)
Lemma hash_agrees gs names b : (forall x g, gs x = Some g -> names g = Some x) ->
  forall lits glits, map_lits gs lits = Some glits -> (forall l, In l lits -> lit_var l < max_count) ->
  CheckerNames.clause_key names b glits = N.shiftr (clause_hash lits) (64 - b).
Proof.
  intros H lits glits E M. unfold CheckerNames.clause_key, clause_hash. f_equal. generalize 0. revert glits E M.
  induction lits as [|l lits IH]; intros glits E M acc; cbn [map_lits] in E; [injection E as <-; reflexivity|].
  destruct (map_lit gs l) as [y|] eqn:Y; [|discriminate]. destruct (map_lits gs lits) as [r|]; [|discriminate]. injection E as <-.
  cbn [fold_left]. replace (CheckerNames.lit_key names y) with (lit_hash l).
  - apply IH; [reflexivity|]. intros x I. apply M. right. exact I.
  - unfold map_lit in Y. destruct (gs (lit_var l)) as [g|] eqn:G; [|discriminate]. injection Y as <-.
    unfold CheckerNames.lit_key. rewrite lit_of_var, (H _ _ G), lit_of_pos.
    rewrite lit_of_from_var by (apply M; left; reflexivity). rewrite lit_of_eta. reflexivity.
Qed.

(** * What [add_step] does *)
Lemma add_step_cases sv s c c' : add_step sv s c = Ret c' ->
  (c' = c /\ (st_error (c_st c) <> None \/ p_active (c_pf c) = false)) \/
  (st_error (c_st c) = None /\ p_active (c_pf c) = true /\ exists s' p bytes,
    (if sv then map_step (v_gs (c_v c)) s else Some s) = Some s' /\
    (p_format (c_pf c) = Some FVarisat -> write_varisat_step (st_invoked (c_st c)) (c_pf c) s' = Some (p, bytes)) /\
    (p_format (c_pf c) <> Some FVarisat -> p = c_pf c) /\
    let p1 := p_write p bytes in
    (p_io (c_pf c) (p_out p1) = true /\ c' = cw_pf (set_error c (Some EIo)) (proof_reset p1)) \/
    (p_checker (c_pf c) = false /\ c' = cw_pf c p1) \/
    (p_checker (c_pf c) = true /\ p_judge (c_pf c) (p_log (c_pf c) ++ [EvStep s']) = VOk /\ c' = cw_pf c (p_push p1 (EvStep s'))) \/
    (p_checker (c_pf c) = true /\ p_judge (c_pf c) (p_log (c_pf c) ++ [EvStep s']) = VProcessor /\
     c' = cw_pf (set_error c (Some EProcessor)) (proof_reset (p_push p1 (EvStep s'))))).
Proof.
  unfold add_step. destruct (st_error (c_st c)) as [e|] eqn:Er; [intros E; injection E as <-; left; split; [reflexivity|left; discriminate]|].
  destruct (p_active (c_pf c)) eqn:A; [|intros E; injection E as <-; left; auto].
  destruct (if sv then map_step (v_gs (c_v c)) s else Some s) as [s'|] eqn:M; [|discriminate].
  intros E. right. split; [reflexivity|]. split; [reflexivity|]. exists s'.
  assert (G : forall p bytes, p_checker p = p_checker (c_pf c) -> p_log p = p_log (c_pf c) -> p_judge p = p_judge (c_pf c) ->
    p_io p = p_io (c_pf c) -> p_format p = p_format (c_pf c) ->
    (let p1 := p_write p bytes in
     let failed := match p_format p1 with Some _ => p_io p1 (p_out p1) | None => false end in
     if failed then Ret (handle_io (cw_pf c p1) true) else if p_checker p1 then ask_checker (cw_pf c p1) (EvStep s') else Ret (cw_pf c p1)) = Ret c' ->
    let p1 := p_write p bytes in
    (p_io (c_pf c) (p_out p1) = true /\ c' = cw_pf (set_error c (Some EIo)) (proof_reset p1)) \/
    (p_checker (c_pf c) = false /\ c' = cw_pf c p1) \/
    (p_checker (c_pf c) = true /\ p_judge (c_pf c) (p_log (c_pf c) ++ [EvStep s']) = VOk /\ c' = cw_pf c (p_push p1 (EvStep s'))) \/
    (p_checker (c_pf c) = true /\ p_judge (c_pf c) (p_log (c_pf c) ++ [EvStep s']) = VProcessor /\
     c' = cw_pf (set_error c (Some EProcessor)) (proof_reset (p_push p1 (EvStep s'))))).
  { intros p bytes E1 E2 E3 E4 E5. cbv zeta. cbn [p_write p_format p_io p_out p_checker]. rewrite E1, E4.
    destruct (match p_format p with Some _ => p_io (c_pf c) (p_out p ++ bytes) | None => false end) eqn:Fl.
    - intros H. injection H as <-. left. split; [|reflexivity]. destruct (p_format p); [exact Fl|discriminate].
    - destruct (p_checker (c_pf c)) eqn:Ch; [|intros H; injection H as <-; right; left; auto].
      unfold ask_checker. cbn [c_pf cw_pf p_push p_judge p_log p_write]. rewrite E2, E3. unfold handle_check.
      destruct (p_judge (c_pf c) (p_log (c_pf c) ++ [EvStep s'])) eqn:J; intros H; [| |discriminate]; injection H as <-; right; right.
      + left. auto.
      + right. auto. }
  destruct (p_format (c_pf c)) as [[]|] eqn:Fo; cbn [bind] in E.
  - destruct (write_varisat_step _ _ _) as [[p bytes]|] eqn:Wr; [|discriminate]. cbn [bind] in E. exists p, bytes.
    split; [reflexivity|]. split; [intros _; reflexivity|]. split; [congruence|].
    assert (p_checker p = p_checker (c_pf c) /\ p_log p = p_log (c_pf c) /\ p_judge p = p_judge (c_pf c) /\ p_io p = p_io (c_pf c) /\ p_format p = p_format (c_pf c)) as (E1&E2&E3&E4&E5).
    { unfold write_varisat_step in Wr. cbv zeta in Wr. destruct (64 <? _); [discriminate|]. injection Wr as <- <-. repeat split. }
    apply G; try assumption; congruence.
  - destruct (Lrat.drat_write_step _) as [bytes|]; [|discriminate]. cbn [bind] in E. exists (c_pf c), bytes.
    split; [reflexivity|]. split; [discriminate|]. split; [reflexivity|]. apply G; try reflexivity; try assumption; congruence.
  - destruct (Lrat.drat_write_binary_step _) as [bytes|]; [|discriminate]. cbn [bind] in E. exists (c_pf c), bytes.
    split; [reflexivity|]. split; [discriminate|]. split; [reflexivity|]. apply G; try reflexivity; try assumption; congruence.
  - exists (c_pf c), []. split; [reflexivity|]. split; [discriminate|]. split; [reflexivity|]. apply G; try reflexivity; try assumption; congruence.
Qed.

(** * The names of the solver in the proof *)

Definition events (l : list pevent) : list CheckerRun.event :=
  flat_map (fun e => match e with EvLoad cl => [CheckerRun.Load cl] | EvStep s => [CheckerRun.Step s] | EvDelayed => [] end) l.
Definition steps (l : list pevent) : list proof_step :=
  flat_map (fun e => match e with EvStep s => [s] | _ => [] end) l.

Record synced (sg : N -> option N) (c : ctx) : Prop := {
  sy_err : st_error (c_st c) <> None -> p_active (c_pf c) = false;
  sy_log : p_checker (c_pf c) = true ->
    (forall g, CheckerNames.current_names (events (p_log (c_pf c))) g = sg g) /\
    CheckerNames.current_bits (events (p_log (c_pf c))) = 64;
  sy_out : p_format (c_pf c) = Some FVarisat -> width_ok (p_bits (c_pf c)) /\
    exists ss os, p_out (c_pf c) = flat_map write_step os /\ announces 64 ss os /\ bits_from 64 os = p_bits (c_pf c) /\
      (forall g, CheckerNames.current_names (seen os) g = sg g) /\
      (p_checker (c_pf c) = true -> ss = steps (p_log (c_pf c))) }.

Lemma synced_ext sg sg' c : (forall g, sg g = sg' g) -> synced sg c -> synced sg' c.
Proof.
  intros H [A B C]. constructor; [exact A| |].
  - intros Q. destruct (B Q) as [B1 B2]. split; [intros g; rewrite B1; apply H|exact B2].
  - intros Q. destruct (C Q) as (W & ss & os & C1 & C2 & C3 & C4 & C5). split; [exact W|]. exists ss, os.
    split; [exact C1|]. split; [exact C2|]. split; [exact C3|]. split; [intros g; rewrite C4; apply H|exact C5].
Qed.
Lemma synced_same sg c c' : c_pf c' = c_pf c -> st_error (c_st c') = st_error (c_st c) -> synced sg c -> synced sg c'.
Proof. intros E1 E2 [A B C]. constructor; rewrite ?E1, ?E2; assumption. Qed.
Lemma synced_off sg c : p_active (c_pf c) = false -> synced sg c.
Proof.
  intros H. unfold p_active in H. apply Bool.orb_false_iff in H. destruct H as [H1 H2].
  constructor; [intros _; unfold p_active; rewrite H1, H2; reflexivity|congruence|]. intros Q. rewrite Q in H2. discriminate.
Qed.

Definition name_step (sg : N -> option N) (s : proof_step) : N -> option N :=
  match s with SolverVarName g x => upd sg g x | _ => sg end.
Lemma names_snoc es s g : CheckerNames.current_names (es ++ [CheckerRun.Step s]) g =
  name_step (CheckerNames.current_names es) s g.
Proof. unfold CheckerNames.current_names. rewrite fold_left_app. cbn [fold_left]. destruct s; reflexivity. Qed.
Lemma name_step_ext f f' s g : (forall x, f x = f' x) -> name_step f s g = name_step f' s g.
Proof. intros H. destruct s; cbn [name_step]; auto. unfold upd. rewrite H. reflexivity. Qed.
Lemma name_step_high b s sg : name_step sg (high b s) = name_step sg s.
Proof. destruct s; reflexivity. Qed.
Lemma map_step_flags gs s s' : map_step gs s = Some s' -> is_bits s' = is_bits s /\ (forall sg, name_step sg s' = name_step sg s).
Proof.
  destruct s; cbn [map_step]; intros E; try (injection E as <-; split; reflexivity);
    match type of E with option_map _ ?m = _ => destruct m; [|discriminate] end; cbn [option_map] in E; injection E as <-; split; reflexivity.
Qed.

Lemma synced_step sg sv s c c' : synced sg c -> is_bits s = false -> add_step sv s c = Ret c' -> synced (name_step sg s) c'.
Proof.
  intros S NB E. destruct (add_step_cases _ _ _ _ E) as [[-> [H|H]]|(Er & A & s' & p & bytes & M & W & NW & R)].
  - apply synced_off. apply (sy_err _ _ S H).
  - apply synced_off. exact H.
  - assert (MS : is_bits s' = false /\ forall sg, name_step sg s' = name_step sg s).
    { destruct sv; [destruct (map_step_flags _ _ _ M) as [X Y]; rewrite X; auto|]. injection M as <-. auto. }
    destruct MS as [NB' NS].
    assert (Keep : p_checker p = p_checker (c_pf c) /\ p_log p = p_log (c_pf c) /\ p_format p = p_format (c_pf c)).
    { destruct (p_format (c_pf c)) as [[]|] eqn:Fo; try (rewrite (NW ltac:(discriminate)); auto).
      specialize (W eq_refl). unfold write_varisat_step in W. cbv zeta in W. destruct (64 <? _); [discriminate|].
      injection W as <- _. cbn. auto. }
    destruct Keep as (K1 & K2 & K3).
    assert (Out : p_format (c_pf c) = Some FVarisat -> width_ok (p_bits p) /\ exists ss os, p_out p ++ bytes = flat_map write_step os /\ announces 64 ss os /\
      bits_from 64 os = p_bits p /\ (forall g, CheckerNames.current_names (seen os) g = name_step sg s g) /\
      (p_checker (c_pf c) = true -> ss = steps (p_log (c_pf c)) ++ [s'])).
    { intros Fo. specialize (W Fo). destruct (sy_out _ _ S Fo) as (Wb & ss & os & O1 & O2 & O3 & O4 & O5).
      pose proof (write_one (st_invoked (c_st c)) (c_pf c) s' Wb NB') as X. rewrite W in X.
      destruct X as (o1 & X1 & X2 & X3 & X4 & X5 & X6 & _ & b & X7 & X8). split; [exact X4|].
      exists (ss ++ [s']), (os ++ o1). rewrite flat_map_app, X6. cbn [p_out]. rewrite O1, X1. split; [reflexivity|].
      split; [apply announces_app; [exact O2|rewrite O3; exact X2]|]. split; [rewrite bits_from_app, O3; symmetry; exact X3|].
      split; [|intros Ch; rewrite (O5 Ch); reflexivity].
      intros g. unfold seen. rewrite map_app. destruct X7 as [-> | ->]; cbn [map].
      - rewrite names_snoc, name_step_high, NS. apply name_step_ext. exact O4.
      - change [CheckerRun.Step (ChangeHashBits b); CheckerRun.Step (high b s')] with ([CheckerRun.Step (ChangeHashBits b)] ++ [CheckerRun.Step (high b s')]).
        rewrite app_assoc, names_snoc, name_step_high, NS. apply name_step_ext. intros x. rewrite names_snoc. apply O4. }
    cbv zeta in R. destruct R as [[_ ->]|[[Ch ->]|[(Ch & J & ->)|(Ch & J & ->)]]].
    + apply synced_off. reflexivity.
    + constructor; cbn [cw_pf c_pf c_st]; [congruence|cbn [p_write p_checker]; congruence|].
      cbn [p_write p_format p_bits p_out p_checker p_log]. rewrite K3, K1. intros Fo. destruct (Out Fo) as (A1 & ss & os & A2 & A3 & A4 & A5 & A6).
      split; [exact A1|]. exists ss, os. split; [exact A2|]. split; [exact A3|]. split; [exact A4|]. split; [exact A5|]. congruence.
    + constructor; cbn [cw_pf c_pf c_st]; [congruence| |].
      * cbn [p_push p_write p_checker p_log]. intros _. rewrite K2. unfold events. rewrite flat_map_app. cbn [flat_map].
        fold (events (p_log (c_pf c))). rewrite app_nil_r. destruct (sy_log _ _ S Ch) as [B1 B2]. split.
        -- intros g. rewrite names_snoc, NS. apply name_step_ext. exact B1.
        -- unfold CheckerNames.current_bits in *. rewrite fold_left_app, B2. cbn [fold_left]. apply bits_after_other. exact NB'.
      * cbn [p_push p_write p_format p_bits p_out p_checker p_log]. rewrite K3, K2. intros Fo. destruct (Out Fo) as (A1 & ss & os & A2 & A3 & A4 & A5 & A6).
        split; [exact A1|]. exists ss, os. split; [exact A2|]. split; [exact A3|]. split; [exact A4|]. split; [exact A5|].
        intros _. rewrite (A6 Ch). unfold steps. rewrite flat_map_app. reflexivity.
    + apply synced_off. reflexivity.
Qed.

Lemma synced_ask sg e c c' : synced sg c -> p_checker (c_pf c) = true -> steps [e] = [] -> (forall g, CheckerNames.current_names (events (p_log (c_pf c) ++ [e])) g = CheckerNames.current_names (events (p_log (c_pf c))) g) ->
  CheckerNames.current_bits (events (p_log (c_pf c) ++ [e])) = CheckerNames.current_bits (events (p_log (c_pf c))) ->
  ask_checker c e = Ret c' -> synced sg c'.
Proof.
  intros S Ch ES EN EB E. unfold ask_checker, handle_check in E. cbv zeta in E.
  destruct (p_judge _ _); [| |discriminate]; injection E as <-; [|apply synced_off; reflexivity].
  constructor; cbn [cw_pf c_pf c_st p_push p_checker p_log p_format p_bits p_out].
  - intros H. pose proof (sy_err _ _ S H) as X. unfold p_active in X. rewrite Ch in X. discriminate.
  - intros _. destruct (sy_log _ _ S Ch) as [B1 B2]. split; [intros g; rewrite EN; apply B1|rewrite EB; exact B2].
  - intros Fo. destruct (sy_out _ _ S Fo) as (A1 & ss & os & A2 & A3 & A4 & A5 & A6). split; [exact A1|].
    exists ss, os. split; [exact A2|]. split; [exact A3|]. split; [exact A4|]. split; [exact A5|].
    intros H. rewrite (A6 H). unfold steps in *. rewrite flat_map_app, ES, app_nil_r. reflexivity.
Qed.

Definition in_sync (c : ctx) : Prop := synced (v_sg (c_v c)) c.
Lemma sync_ev1 c c' : ev1 true c c' -> in_sync c -> in_sync c'.
Proof.
  intros H S. unfold in_sync in *. destruct H as [c c' E|c x _|c u _|sv s c c' NN NB E|cl c c' Ch E|c n|c c1 c' g x R E|c c1 c' g x R E].
  - destruct E as (E0&E1&E2&E3&E4&E5&E6). rewrite E5. eapply synced_same; eassumption.
  - eapply synced_same; [| |exact S]; reflexivity.
  - eapply synced_same; [| |exact S]; reflexivity.
  - destruct (add_step_post _ _ _ _ E) as (e & p & EQ). pose proof (synced_step _ _ _ _ _ S NB E) as X.
    rewrite EQ. rewrite EQ in X. cbn [cw_pf set_error cw_st c_v]. destruct s; try exact X. discriminate.
  - destruct (ask_checker_post _ _ _ E) as (e & p & EQ).
    assert (X : synced (v_sg (c_v c)) c').
    { eapply synced_ask with (e := EvLoad cl); [exact S|exact Ch|reflexivity| | |exact E].
      - intros g. unfold events. rewrite flat_map_app. cbn [flat_map app]. unfold CheckerNames.current_names. rewrite fold_left_app. reflexivity.
      - unfold events. rewrite flat_map_app. cbn [flat_map app]. unfold CheckerNames.current_bits. rewrite fold_left_app. reflexivity. }
    rewrite EQ. rewrite EQ in X. exact X.
  - destruct S as [A B C]. constructor; assumption.
  - destruct R as (R0&R1&R2&R3&R4&R5&R6). pose proof (synced_same _ _ _ R1 R2 S) as S1.
    destruct (add_step_post _ _ _ _ E) as (e & p & EQ). pose proof (synced_step _ _ (SolverVarName g (Some x)) _ _ S1 eq_refl E) as X.
    rewrite EQ. rewrite EQ in X. cbn [cw_pf set_error cw_st c_v]. rewrite R5. exact X.
  - destruct R as (R0&R1&R2&R3&R4&R5&R6). pose proof (synced_same _ _ _ R1 R2 S) as S1.
    destruct (add_step_post _ _ _ _ E) as (e & p & EQ). pose proof (synced_step _ _ (SolverVarName g None) _ _ S1 eq_refl E) as X.
    rewrite EQ. rewrite EQ in X. cbn [cw_pf set_error cw_st c_v]. rewrite R5. exact X.
Qed.
Lemma sync_ev c c' : ev true c c' -> in_sync c -> in_sync c'.
Proof. induction 1; intros S; [exact S|]. apply IHev. eapply sync_ev1; eassumption. Qed.

Lemma sync_flush c : in_sync c -> in_sync (flush_proof c).
Proof.
  intros S. unfold flush_proof, handle_io. destruct (match p_format _ with Some _ => _ | None => _ end); [|exact S].
  apply synced_off. reflexivity.
Qed.
Lemma sync_finished c c' : in_sync c -> solve_finished c = Ret c' -> in_sync c'.
Proof.
  intros S E. unfold solve_finished in E. cbv zeta in E. pose proof (sync_flush c S) as S1. revert S1 E. generalize (flush_proof c). clear c S.
  intros c S E. destruct (p_checker (c_pf c)) eqn:Ch; [|injection E as <-; exact S].
  destruct (ask_checker_post _ _ _ E) as (e & p & EQ). unfold in_sync.
  assert (X : synced (v_sg (c_v c)) c').
  { eapply synced_ask with (e := EvDelayed); [exact S|exact Ch|reflexivity| | |exact E].
    - intros g. unfold events. rewrite flat_map_app. cbn [flat_map app]. rewrite app_nil_r. reflexivity.
    - unfold events. rewrite flat_map_app. cbn [flat_map app]. rewrite app_nil_r. reflexivity. }
  rewrite EQ. rewrite EQ in X. exact X.
Qed.
Lemma sync_take c : in_sync c -> in_sync (fst (take_error c)).
Proof.
  intros S. unfold take_error. destruct (st_error (c_st c)) as [e|] eqn:E; [|exact S].
  apply synced_off. apply (sy_err _ _ S). congruence.
Qed.
Lemma sync_run fuel k c c' a : k <> CCheck -> (forall f, k <> CWriteProof f) -> run fuel k c = Ret (c', a) -> in_sync c -> in_sync c'.
Proof.
  intros NC NW E S. destruct (plain k) eqn:P.
  - apply (sync_ev c); [|exact S]. exact (t_run fuel k c P _ E).
  - destruct k; try discriminate; try congruence; cbn [run] in E.
    + unfold solve in E. cbv zeta in E. destruct (st_invalid _); [discriminate|].
      destruct (schedule_loop fuel fuel (set_invoked c true)) as [c1| |] eqn:E1; cbn [bind] in E; try discriminate.
      assert (S1 : in_sync c1).
      { apply (sync_ev (set_invoked c true)); [exact (t_schedule_loop _ _ _ _ E1)|]. eapply synced_same; [| |exact S]; reflexivity. }
      destruct (solve_finished c1) as [c2| |] eqn:E2; cbn [bind] in E; try discriminate.
      pose proof (sync_take c2 (sync_finished _ _ S1 E2)) as X. destruct (take_error c2) as [c3 [e|]]; injection E as <- <-; exact X.
    + destruct (close_proof c) as [c1| |] eqn:E1; cbn [bind] in E; try discriminate.
      assert (S1 : in_sync c1).
      { unfold close_proof in E1. destruct (add_step true End c) as [c0| |] eqn:E0; cbn [bind] in E1; try discriminate.
        assert (in_sync c0).
        { pose proof (add_step_spec true End c ltac:(intros _ x [])) as Fr. rewrite E0 in Fr. unfold in_sync. rewrite (frame_v _ _ Fr).
          exact (synced_step (v_sg (c_v c)) true End c c0 S eq_refl E0). }
        pose proof (sync_flush _ H) as [A B C]. cbv zeta in E1. injection E1 as <-.
        constructor; cbn [cw_pf c_pf c_st c_v p_checker p_format p_log p_bits p_out]; [|exact B|discriminate].
        intros Q. specialize (A Q). unfold p_active in *. cbn [p_checker p_format]. apply Bool.orb_false_iff in A. rewrite (proj1 A). reflexivity. }
      pose proof (sync_take c1 S1) as X. destruct (take_error c1) as [c3 [e|]]; injection E as <- <-; exact X.
Qed.
Lemma sync_run_all fuel ks : forall c c' r, Forall (fun k => k <> CCheck /\ forall f, k <> CWriteProof f) ks ->
  run_all fuel ks c = Ret (c', r) -> in_sync c -> in_sync c'.
Proof.
  induction ks as [|k ks IH]; intros c c' r F E S; cbn [run_all] in E; [injection E as <- _; exact S|].
  inversion F as [|? ? [F1 F2] F3]; subst. destruct (run fuel k c) as [[c1 a]| |] eqn:E1; cbn [bind] in E; try discriminate.
  destruct (run_all fuel ks c1) as [[c2 r2]| |] eqn:E2; cbn [bind] in E; try discriminate. injection E as <- <-.
  eapply IH; [exact F3|exact E2|]. eapply sync_run; eassumption.
Qed.

(** Before the first use only the configuration may change. *)
Definition setup (k : call) : Prop := match k with CCheck | CWriteProof _ | CConfig _ => True | _ => False end.
Definition no_setup (k : call) : Prop := k <> CCheck /\ forall f, k <> CWriteProof f.
Lemma setup_all fuel ks : forall c c' r, Forall setup ks -> run_all fuel ks c = Ret (c', r) ->
  p_bits (c_pf c) = 64 -> p_log (c_pf c) = [] -> p_out (c_pf c) = [] -> st_error (c_st c) = None ->
  p_bits (c_pf c') = 64 /\ p_log (c_pf c') = [] /\ p_out (c_pf c') = [] /\ st_error (c_st c') = None /\ c_v c' = c_v c.
Proof.
  induction ks as [|k ks IH]; intros c c' r F E B L O Er; cbn [run_all] in E; [injection E as <- _; auto|].
  inversion F as [|? ? F1 F2]; subst. destruct (run fuel k c) as [[c1 a]| |] eqn:E1; cbn [bind] in E; try discriminate.
  destruct (run_all fuel ks c1) as [[c2 r2]| |] eqn:E2; cbn [bind] in E; try discriminate. injection E as <- <-.
  assert (X : p_bits (c_pf c1) = 64 /\ p_log (c_pf c1) = [] /\ p_out (c_pf c1) = [] /\ st_error (c_st c1) = None /\ c_v c1 = c_v c).
  { destruct k; try contradiction; cbn [run] in E1.
    - destruct (st_empty (c_st c)); [|discriminate]. injection E1 as <- _. cbn. auto.
    - destruct (st_empty (c_st c)); [|discriminate]. injection E1 as <- _. cbn. rewrite L. destruct (p_checker (c_pf c)); auto.
    - destruct (update_apply u (c_cfg c)) as [[] cfg]; [|injection E1 as <- _; auto].
      destruct (_ && _); [|discriminate]. injection E1 as <- _. cbn. auto. }
  destruct X as (X1&X2&X3&X4&X5). rewrite <- X5. eapply IH; eassumption.
Qed.

(** The proof a solver writes, and the steps it hands to its own checker, always contain its
    current variable names and the current width of hashes: a checker that has read them computes
    for every clause the hash that the solver writes. *)
Theorem C34_solver : forall fuel ks1 ks2 pick judge io c answers, Forall setup ks1 -> Forall no_setup ks2 ->
  run_all fuel (ks1 ++ ks2) (ctx_default pick judge io) = Ret (c, answers) ->
  (p_format (c_pf c) = Some FVarisat ->
   exists ss os, p_out (c_pf c) = flat_map write_step os /\ announces 64 ss os /\ 6 <= p_bits (c_pf c) <= 64 /\
     (p_checker (c_pf c) = true -> ss = steps (p_log (c_pf c))) /\
     forall lits glits, map_lits (v_gs (c_v c)) lits = Some glits -> (forall l, In l lits -> lit_var l < max_count) ->
       CheckerNames.clause_key (CheckerNames.current_names (seen os)) (CheckerNames.current_bits (seen os)) glits =
       N.shiftr (clause_hash lits) (64 - p_bits (c_pf c))) /\
  (p_checker (c_pf c) = true ->
   forall lits glits, map_lits (v_gs (c_v c)) lits = Some glits -> (forall l, In l lits -> lit_var l < max_count) ->
     CheckerNames.clause_key (CheckerNames.current_names (events (p_log (c_pf c))))
       (CheckerNames.current_bits (events (p_log (c_pf c)))) glits = clause_hash lits).
Proof.
  intros fuel ks1 ks2 pk judge io c answers F1 F2 E.
  assert (K : vars_ok (c_v c)) by (apply reachable_ok; exists fuel, (ks1 ++ ks2), pk, judge, io, answers; exact E).
  assert (RA : forall ks ks' d d' r, run_all fuel (ks ++ ks') d = Ret (d', r) -> exists d1 r1 r2, run_all fuel ks d = Ret (d1, r1) /\ run_all fuel ks' d1 = Ret (d', r2)).
  { induction ks as [|k ks IH]; intros ks' d d' r H; cbn [app run_all] in *; [exists d, [], r; auto|].
    destruct (run fuel k d) as [[d1 a]| |]; cbn [bind] in *; try discriminate.
    destruct (run_all fuel (ks ++ ks') d1) as [[d2 r2]| |] eqn:E2; cbn [bind] in H; try discriminate. injection H as <- <-.
    destruct (IH _ _ _ _ E2) as (d3 & r3 & r4 & A & B). rewrite A. cbn [bind]. exists d3, (a :: r3), r4. auto. }
  destruct (RA _ _ _ _ _ E) as (c1 & r1 & r2 & E1 & E2).
  destruct (setup_all _ _ _ _ _ F1 E1 eq_refl eq_refl eq_refl eq_refl) as (A1&A2&A3&A4&A5).
  assert (S : in_sync c1).
  { unfold in_sync. rewrite A5. constructor.
    - congruence.
    - intros _. rewrite A2. split; reflexivity.
    - intros _. rewrite A1, A2, A3. split; [split; [lia|reflexivity]|]. exists [], []. repeat split; try reflexivity. constructor. }
  pose proof (sync_run_all _ _ _ _ _ F2 E2 S) as [_ B C].
  assert (HN : forall (names : N -> option N), (forall g, names g = v_sg (c_v c) g) -> forall x g, v_gs (c_v c) x = Some g -> names g = Some x).
  { intros names H x g G. rewrite H. apply (vo_sg _ K). exact G. }
  split.
  - intros Fo. destruct (C Fo) as (W & ss & os & C1 & C2 & C3 & C4 & C5). exists ss, os. destruct W as [W _].
    split; [exact C1|]. split; [exact C2|]. split; [exact W|]. split; [exact C5|]. intros lits glits M V.
    change (CheckerNames.current_bits (seen os)) with (bits_from 64 os). rewrite C3.
    eapply hash_agrees; [apply HN; exact C4|exact M|exact V].
  - intros Ch lits glits M V. destruct (B Ch) as [B1 B2]. rewrite B2.
    rewrite (hash_agrees _ _ 64 (HN _ B1) lits glits M V). change (64 - 64) with 0. apply N.shiftr_0_r.
Qed.
Print Assumptions C34_solver.

(** ** Together with the checker *)

(** The checker of this model as the checker inside the solver, without processors *)
Definition fresh_checker : Checker.ctx :=
  Checker.checker_new false false (fun _ => false) (fun _ => false) (fun _ l => l).
Definition checker_exec (c : Checker.ctx) (e : pevent) : Checker.res unit :=
  match e with
  | EvLoad cl => Checker.add_clause c cl
  | EvStep s => Checker.self_check_step c s
  | EvDelayed => Checker.self_check_delayed_steps c
  end.
Definition checker_judge (log : list pevent) : verdict :=
  match fold_left (fun r e => Checker.bind r (fun _ c => checker_exec c e)) log (Checker.ROk tt fresh_checker) with
  | Checker.ROk _ _ => VOk
  | Checker.RErr Checker.EProcessorError _ => VProcessor
  | _ => VFailed
  end.
(** The verdict of a separate checker on the proof file of a history *)
Definition file_ok (formula : list (list N)) (bytes : list N) : bool :=
  match Checker.add_formula fresh_checker formula with
  | Checker.ROk _ c => match Checker.check_proof c (bytes, []) with Some (Checker.ROk _ _) => true | _ => false end
  | _ => false
  end.

Definition ex_clauses : list (list N) := [[0; 2]; [1; 2]; [0; 3]; [1; 3]].
Definition ex_solve : list call := map CAdd ex_clauses ++ [CSolve].
Definition ex_run (judge : list pevent -> verdict) (ks : list call) : out (ctx * list answer) :=
  run_all 200 ks (ctx_default (fun _ => 0%nat) judge (fun _ => false)).
Definition ex_file (ks : list call) : list N :=
  match ex_run (fun _ => VOk) (ks ++ [CCloseProof]) with Ret (c, _) => p_out (c_pf c) | _ => [] end.

(** The history of the theorem above with both kinds of proofs: the checkers accept. *)
Example C34_solver_case :
  (exists c, ex_run checker_judge (CWriteProof FVarisat :: CCheck :: ex_solve) = Ret (c, repeat ANone 6 ++ [ASolved false]) /\
     p_format (c_pf c) = Some FVarisat /\ p_checker (c_pf c) = true) /\
  file_ok ex_clauses (ex_file (CWriteProof FVarisat :: ex_solve)) = true.
Proof.
  split; [|vm_compute; reflexivity].
  assert (H : match ex_run checker_judge (CWriteProof FVarisat :: CCheck :: ex_solve) with
              | Ret (c, [ANone; ANone; ANone; ANone; ANone; ANone; ASolved false]) =>
                  match p_format (c_pf c) with Some FVarisat => p_checker (c_pf c) | _ => false end
              | _ => false end = true) by (vm_compute; reflexivity).
  destruct (ex_run checker_judge _) as [[c r]| |]; try discriminate. exists c.
  do 7 (destruct r as [|[] r]; try discriminate). destruct sat; try discriminate. destruct r; try discriminate.
  destruct (p_format (c_pf c)) as [[]|]; try discriminate. auto.
Qed.

(** Without the restriction to histories that configure the proof first the claim is false:
    variables used by [assume] before [enable_self_checking] or [write_proof] are not announced,
    so that a correct run fails its own check, or writes a proof that is rejected. *)
Theorem C34_late_checking_refuted :
  (exists ks, ex_run checker_judge ks = Panic PSelfCheck /\
     exists c, ex_run (fun _ => VOk) ks = Ret (c, repeat ANone 7 ++ [ASolved false])) /\
  file_ok ex_clauses (ex_file ([CAssume [2]; CAssume []; CWriteProof FVarisat] ++ ex_solve)) = false.
Proof.
  split; [|vm_compute; reflexivity].
  exists ([CAssume [2]; CAssume []; CCheck] ++ ex_solve). split; [vm_compute; reflexivity|].
  assert (H : match ex_run (fun _ => VOk) ([CAssume [2]; CAssume []; CCheck] ++ ex_solve) with
              | Ret (c, [ANone; ANone; ANone; ANone; ANone; ANone; ANone; ASolved false]) => true
              | _ => false end = true) by (vm_compute; reflexivity).
  destruct (ex_run (fun _ => VOk) _) as [[c r]| |]; try discriminate. exists c.
  do 8 (destruct r as [|[] r]; try discriminate). destruct sat; try discriminate. destruct r; try discriminate. reflexivity.
Qed.

(** A second proof of the same solver does not start with the width of 64 bits its reader expects. *)
Theorem C34_second_proof_refuted :
  file_ok [] (ex_file ([CWriteProof FVarisat; CSolve] ++ ex_solve)) = true /\
  file_ok [] (ex_file ([CWriteProof FVarisat; CSolve; CWriteProof FVarisat] ++ ex_solve)) = false.
Proof. split; vm_compute; reflexivity. Qed.
Print Assumptions C34_late_checking_refuted.

(** * Answers of the checker *)

(** Every event but the last was accepted; a rejected event is never in the log, and after an
    error of a processor the checker is gone. *)
Definition judged (c : ctx) : Prop :=
  (forall pre e post, p_log (c_pf c) = pre ++ e :: post -> post <> [] -> p_judge (c_pf c) (pre ++ [e]) = VOk) /\
  (p_log (c_pf c) = [] \/ p_judge (c_pf c) (p_log (c_pf c)) = VOk \/
   (p_judge (c_pf c) (p_log (c_pf c)) = VProcessor /\ p_checker (c_pf c) = false)).

Lemma judged_push c (p : proof) e : judged c -> p_checker (c_pf c) = true ->
  p_log p = p_log (c_pf c) ++ [e] -> p_judge p = p_judge (c_pf c) ->
  (p_judge p (p_log p) = VOk \/ p_judge p (p_log p) = VProcessor /\ p_checker p = false) ->
  forall c', c_pf c' = p -> judged c'.
Proof.
  intros [A B] Ch L J R c' Ec. unfold judged. rewrite Ec. clear Ec. split.
  - intros pre x post E NE. rewrite L in E. rewrite J.
    destruct (exists_last NE) as (post' & y & ->). rewrite app_comm_cons, app_assoc in E. apply app_inj_tail in E. destruct E as [E <-].
    destruct post' as [|z post']; [|eapply A; [exact E|discriminate]]. rewrite <- E.
    destruct B as [B|[B|[_ B]]]; [|exact B|congruence]. rewrite B in E. destruct pre; discriminate.
  - right. rewrite L in *. exact R.
Qed.
Lemma judged_same c c' : p_log (c_pf c') = p_log (c_pf c) -> p_judge (c_pf c') = p_judge (c_pf c) ->
  (p_checker (c_pf c') = true -> p_checker (c_pf c) = true) -> judged c -> judged c'.
Proof.
  intros E1 E2 E3 [A B]. split; rewrite ?E1, ?E2; [exact A|]. destruct B as [B|[B|[B1 B2]]]; [auto|auto|]. right. right. split; [exact B1|].
  destruct (p_checker (c_pf c')); [|reflexivity]. rewrite (E3 eq_refl) in B2. discriminate.
Qed.
Lemma write_keeps i p s p' b : write_varisat_step i p s = Some (p', b) ->
  p_log p' = p_log p /\ p_judge p' = p_judge p /\ p_checker p' = p_checker p /\ p_format p' = p_format p /\ p_io p' = p_io p.
Proof. unfold write_varisat_step. cbv zeta. destruct (64 <? _); [discriminate|]. intros E. injection E as <- _. repeat split. Qed.

(** [grown c c']: the log only grows, the checker is not replaced, and unless an error occurred it
    stays. *)
Definition grown (l : list pevent) (c c' : ctx) : Prop :=
  p_log (c_pf c') = p_log (c_pf c) ++ l /\ p_judge (c_pf c') = p_judge (c_pf c) /\ p_io (c_pf c') = p_io (c_pf c) /\
  (p_checker (c_pf c') = true -> p_checker (c_pf c) = true) /\
  (p_active (c_pf c') = true -> p_active (c_pf c) = true) /\
  (st_error (c_st c) <> None -> st_error (c_st c') <> None) /\
  (st_error (c_st c') = None -> p_checker (c_pf c') = p_checker (c_pf c)).
Lemma grown_trans l1 l2 a b c : grown l1 a b -> grown l2 b c -> grown (l1 ++ l2) a c.
Proof.
  intros (A1&A2&A3&A4&A5&A6&A7) (B1&B2&B3&B4&B5&B6&B7). split; [rewrite B1, A1, app_assoc; reflexivity|]. split; [congruence|]. split; [congruence|].
  split; [auto|]. split; [auto|]. split; [auto|]. intros H. rewrite (B7 H). apply A7.
  destruct (st_error (c_st b)); [exfalso; apply B6; [discriminate|exact H]|reflexivity].
Qed.
Lemma grown_same c c' : c_pf c' = c_pf c -> st_error (c_st c') = st_error (c_st c) -> grown [] c c'.
Proof. intros E1 E2. unfold grown. rewrite E1, E2, app_nil_r. repeat split; auto. Qed.

Lemma step_grown sv s c c' : add_step sv s c = Ret c' -> judged c ->
  judged c' /\ exists l, grown l c c' /\
    (p_checker (c_pf c') = true -> st_error (c_st c) = None -> exists s', (if sv then map_step (v_gs (c_v c)) s else Some s) = Some s' /\ l = [EvStep s']).
Proof.
  intros E Ju. destruct (add_step_cases _ _ _ _ E) as [[-> H]|(Er & A & s' & p & bytes & M & W & NW & R)].
  - split; [exact Ju|]. exists []. split; [apply grown_same; reflexivity|]. intros Ch Er. destruct H as [H|H]; [congruence|].
    unfold p_active in H. rewrite Ch in H. discriminate.
  - assert (Keep : p_log p = p_log (c_pf c) /\ p_judge p = p_judge (c_pf c) /\ p_checker p = p_checker (c_pf c) /\ p_format p = p_format (c_pf c) /\ p_io p = p_io (c_pf c)).
    { destruct (p_format (c_pf c)) as [[]|] eqn:Fo; try (rewrite (NW ltac:(discriminate)); auto).
      specialize (W eq_refl). pose proof (write_keeps _ _ _ _ _ W) as X. rewrite Fo in X. exact X. }
    destruct Keep as (K1 & K2 & K3 & K4 & K5). cbv zeta in R. destruct R as [[_ ->]|[[Ch ->]|[(Ch & J & ->)|(Ch & J & ->)]]].
    + split; [eapply judged_same; [| | |exact Ju]; cbn; congruence|]. exists [].
      split; [unfold grown; cbn; rewrite app_nil_r; repeat split; congruence|]. cbn. discriminate.
    + split; [eapply judged_same; [| | |exact Ju]; cbn; congruence|]. exists [].
      split; [unfold grown; cbn; rewrite app_nil_r; repeat split; try congruence|]. cbn. congruence.
    + split.
      * eapply judged_push; [exact Ju|exact Ch| | | |reflexivity]; cbn; [rewrite K1; reflexivity|exact K2|]. left. rewrite K1, K2. exact J.
      * exists [EvStep s']. split; [unfold grown; cbn; rewrite K1; repeat split; congruence|]. intros _ _. exists s'. auto.
    + split.
      * eapply judged_push; [exact Ju|exact Ch| | | |reflexivity]; cbn; [rewrite K1; reflexivity|exact K2|]. right. rewrite K1, K2. auto.
      * exists [EvStep s']. split; [unfold grown; cbn; rewrite K1; repeat split; congruence|]. cbn. discriminate.
Qed.
Lemma ask_grown e c c' : ask_checker c e = Ret c' -> p_checker (c_pf c) = true -> judged c -> judged c' /\ grown [e] c c' /\
  (st_error (c_st c) = None -> st_error (c_st c') = None -> p_judge (c_pf c') (p_log (c_pf c')) = VOk).
Proof.
  unfold ask_checker, handle_check. cbv zeta. cbn [p_push p_judge p_log]. intros E Ch Ju.
  destruct (p_judge (c_pf c) (p_log (c_pf c) ++ [e])) eqn:J; [| |discriminate]; injection E as <-.
  - split; [eapply judged_push; [exact Ju|exact Ch| | | |reflexivity]; cbn; auto|].
    split; [unfold grown; cbn; repeat split; auto|]. intros _ _. exact J.
  - split; [eapply judged_push; [exact Ju|exact Ch| | | |reflexivity]; cbn; auto|].
    split; [unfold grown; cbn; repeat split; congruence|]. cbn. discriminate.
Qed.
Lemma ev1_grown f c c' : ev1 f c c' -> judged c -> judged c' /\ exists l, grown l c c'.
Proof.
  intros H Ju. destruct H as [c c' E|c x _|c u _|sv s c c' NN NB E|cl c c' Ch E|c n|c c1 c' g x R E|c c1 c' g x R E].
  - destruct E as (E0&E1&E2&E3&E4&E5&E6). split; [eapply judged_same; [| | |exact Ju]; rewrite E1; auto|]. exists []. apply grown_same; assumption.
  - split; [exact Ju|]. exists []. apply grown_same; reflexivity.
  - split; [exact Ju|]. exists []. apply grown_same; reflexivity.
  - destruct (step_grown _ _ _ _ E Ju) as (A & l & B & _). eauto.
  - destruct (ask_grown _ _ _ E Ch Ju) as (A & B & _). eauto.
  - split; [exact Ju|]. exists []. unfold grown. cbn. rewrite app_nil_r. repeat split; auto.
  - destruct R as (R0&R1&R2&R3&R4&R5&R6). assert (J1 : judged c1) by (eapply judged_same; [| | |exact Ju]; rewrite R1; auto).
    destruct (step_grown _ _ _ _ E J1) as (A & l & B & _). split; [exact A|]. exists ([] ++ l).
    eapply grown_trans; [apply grown_same|exact B]; assumption.
  - destruct R as (R0&R1&R2&R3&R4&R5&R6). assert (J1 : judged c1) by (eapply judged_same; [| | |exact Ju]; rewrite R1; auto).
    destruct (step_grown _ _ _ _ E J1) as (A & l & B & _). split; [exact A|]. exists ([] ++ l).
    eapply grown_trans; [apply grown_same|exact B]; assumption.
Qed.
Lemma ev_grown f c c' : ev f c c' -> judged c -> judged c' /\ exists l, grown l c c'.
Proof.
  induction 1; intros Ju; [split; [exact Ju|exists []; apply grown_same; reflexivity]|].
  destruct (ev1_grown _ _ _ H Ju) as (J1 & l1 & G1). destruct (IHev J1) as (J2 & l2 & G2). split; [exact J2|].
  exists (l1 ++ l2). eapply grown_trans; eassumption.
Qed.
Lemma ev_kept f c c' : ev f c c' -> st_invalid (c_st c') = st_invalid (c_st c) /\ (f = false -> st_sat (c_st c') = st_sat (c_st c)) /\
  (forall e, st_error (c_st c) = Some e -> p_active (c_pf c) = false -> st_error (c_st c') = Some e /\ p_active (c_pf c') = false).
Proof.
  induction 1 as [c|c c1 c' H _ (I1 & I2 & I3)]; [auto|].
  assert (AS : forall sv s (a b : ctx), add_step sv s a = Ret b -> st_invalid (c_st b) = st_invalid (c_st a) /\ st_sat (c_st b) = st_sat (c_st a) /\
    (forall e, st_error (c_st a) = Some e -> p_active (c_pf a) = false -> st_error (c_st b) = Some e /\ p_active (c_pf b) = false)).
  { intros sv s a b E. destruct (add_step_post _ _ _ _ E) as (e & p & EQ). split; [rewrite EQ; reflexivity|]. split; [rewrite EQ; reflexivity|].
    intros e' Er Off. unfold add_step in E. rewrite Er in E. injection E as <-. auto. }
  assert (X : st_invalid (c_st c1) = st_invalid (c_st c) /\ (f = false -> st_sat (c_st c1) = st_sat (c_st c)) /\
    (forall e, st_error (c_st c) = Some e -> p_active (c_pf c) = false -> st_error (c_st c1) = Some e /\ p_active (c_pf c1) = false)).
  { destruct H as [c c1 E|c x Ef|c u Ef|sv s c c1 NN NB E|cl c c1 Ch E|c n|c c0 c1 g x R E|c c0 c1 g x R E].
    - destruct E as ((E0&_)&E1&E2&E3&E4&E5&E6). rewrite E0, E1, E2, E4. auto.
    - split; [reflexivity|]. split; [congruence|]. auto.
    - split; [reflexivity|]. split; [congruence|]. auto.
    - destruct (AS _ _ _ _ E) as (A1 & A2 & A3). auto.
    - destruct (ask_checker_post _ _ _ E) as (e & p & EQ). split; [rewrite EQ; reflexivity|]. split; [rewrite EQ; reflexivity|].
      intros e' _ Off. unfold p_active in Off. rewrite Ch in Off. discriminate.
    - auto.
    - destruct R as ((R0&_)&R1&R2&R3&R4&R5&R6). destruct (AS _ _ _ _ E) as (A1 & A2 & A3). rewrite A1, A2, R0, R4. split; [reflexivity|]. split; [auto|].
      intros e Er Off. apply A3; congruence.
    - destruct R as ((R0&_)&R1&R2&R3&R4&R5&R6). destruct (AS _ _ _ _ E) as (A1 & A2 & A3). rewrite A1, A2, R0, R4. split; [reflexivity|]. split; [auto|].
      intros e Er Off. apply A3; congruence. }
  destruct X as (X1 & X2 & X3). split; [congruence|]. split; [intros Ef; rewrite (I2 Ef); auto|].
  intros e Er Off. destruct (X3 e Er Off). apply I3; assumption.
Qed.

(** ** Which event justifies an answer *)
Definition said (P : pevent -> Prop) (c c' : ctx) : Prop := judged c -> judged c' /\ exists l, grown l c c' /\
  (p_checker (c_pf c') = true -> st_error (c_st c') = None -> exists e, In e l /\ P e).
Lemma said_pre P f c c1 c' : ev f c c1 -> said P c1 c' -> said P c c'.
Proof.
  intros E S Ju. destruct (ev_grown _ _ _ E Ju) as (J1 & l1 & G1). destruct (S J1) as (J2 & l2 & G2 & Q). split; [exact J2|].
  exists (l1 ++ l2). split; [eapply grown_trans; eassumption|]. intros Ch Er. destruct (Q Ch Er) as (e & I & Pe).
  exists e. split; [apply in_or_app; right; exact I|exact Pe].
Qed.
Lemma said_post P f c c1 c' : said P c c1 -> ev f c1 c' -> said P c c'.
Proof.
  intros S E Ju. destruct (S Ju) as (J1 & l1 & G1 & Q). destruct (ev_grown _ _ _ E J1) as (J2 & l2 & G2). split; [exact J2|].
  exists (l1 ++ l2). split; [eapply grown_trans; eassumption|]. intros Ch Er. destruct G2 as (_&_&_&G4&_&G6&_).
  destruct (Q (G4 Ch)) as (e & I & Pe); [destruct (st_error (c_st c1)); [exfalso; apply G6; [discriminate|exact Er]|reflexivity]|].
  exists e. split; [apply in_or_app; left; exact I|exact Pe].
Qed.
Lemma said_step (P : pevent -> Prop) sv s c c' : add_step sv s c = Ret c' -> (forall s', (if sv then map_step (v_gs (c_v c)) s else Some s) = Some s' -> P (EvStep s')) -> said P c c'.
Proof.
  intros E H Ju. destruct (step_grown _ _ _ _ E Ju) as (J1 & l & G & Q). split; [exact J1|]. exists l. split; [exact G|].
  intros Ch Er. destruct G as (_&_&_&_&_&G6&_).
  destruct (Q Ch) as (s' & M & ->); [destruct (st_error (c_st c)); [exfalso; apply G6; [discriminate|exact Er]|reflexivity]|].
  exists (EvStep s'). split; [left; reflexivity|apply H; exact M].
Qed.

Definition is_model (e : pevent) : Prop := exists m, e = EvStep (Model m).
Definition is_empty (e : pevent) : Prop := exists r h, e = EvStep (AtClause r [] h).
Definition is_failed (e : pevent) : Prop := exists core h, e = EvStep (FailedAssumptions core h).

Lemma enqueue_said n : forall c, post (enqueue_loop n c) (fun r => snd r = Failed -> said is_failed c (fst r)).
Proof.
  induction n as [|n IH]; intros c; cbn [enqueue_loop]; cbv zeta; destruct (nth_error _ _) as [a|];
    try (apply post_ret; intros X; discriminate X).
  all: destruct (lfalse _ _).
  1,3: eapply post_bind with (P := said is_failed c); [|intros c' S; apply post_ret; intros _; exact S];
       unfold analyze_assumption_conflict; destruct (failed_core_of _ _ _ _) as [[? core] hs];
       eapply post_bind with (P := fun _ => True); [intros ? ?; exact Logic.I|];
       intros us _; cbv zeta; intros c' E; eapply said_pre; [apply (ev_same (sets := false)) with (c' := cw_tmp (cw_as c (Assum (as_lits (c_as c)) core us (as_levels (c_as c)) hs)) b); smt|];
       eapply said_step; [exact E|]; cbn [map_step]; intros s' M; destruct (map_lits _ core); [|discriminate]; injection M as <-; eexists; eexists; reflexivity.
  all: destruct (ltrue _ _); [|apply post_ret; intros X; discriminate X].
  - apply post_nofuel.
  - eapply post_weaken; [apply IH|]. intros r H Fa. eapply said_pre; [|apply H; exact Fa]. apply (ev_same (sets := false)). smt.
Qed.
Lemma find_said n : forall c, post (find_conflict n c) (fun r => snd r = FAssumption -> said is_failed c (fst r)).
Proof.
  induction n as [|n IH]; intros c; cbn [find_conflict]; [apply post_nofuel|].
  destruct (propagate _ _ _ _) as [s r].
  assert (B : post (do (c0, new_unit) <- prove_units (cw_s c s) ;
      match r with PConflict k => Ret (c0, FConflict k)
      | _ => do c1 <- (if new_unit then unit_simplify c0 else Ret c0) ;
             do (c2, e) <- enqueue_assumption c1 ;
             match e with
             | Done => let (c3, b) := make_decision c2 in if b then find_conflict n c3 else Ret (c3, FModel)
             | Enqueued => find_conflict n c2
             | Failed => Ret (c2, FAssumption)
             end
      end) (fun r => snd r = FAssumption -> said is_failed c (fst r))).
  { eapply post_bind with (P := fun r => ev false c (fst r)).
    { eapply (t_seq2 (sets := false) (prove_units (cw_s c s)) (cw_s c s)); [apply ev_same; smt|apply t_prove_units]. }
    intros [c0 nu] Q0. cbn [fst] in Q0.
    assert (B : post (do c1 <- (if nu then unit_simplify c0 else Ret c0) ;
             do (c2, e) <- enqueue_assumption c1 ;
             match e with
             | Done => let (c3, b) := make_decision c2 in if b then find_conflict n c3 else Ret (c3, FModel)
             | Enqueued => find_conflict n c2
             | Failed => Ret (c2, FAssumption)
             end) (fun r => snd r = FAssumption -> said is_failed c (fst r))).
    { eapply post_bind with (P := ev false c0); [destruct nu; [apply (t_unit_simplify (sets := false))|apply post_ret; apply ev_refl]|].
      intros c1 Q1. eapply post_bind with (P := fun r => ev false c1 (fst r) /\ (snd r = Failed -> said is_failed c1 (fst r))).
      { intros x E. split; [exact (t_enqueue_loop (sets := false) _ _ _ E)|exact (enqueue_said _ _ _ E)]. }
      intros [c2 e] [Q2 S2]. cbn [fst snd] in *.
      pose proof (ev_trans _ _ _ Q0 (ev_trans _ _ _ Q1 Q2)) as Q.
      destruct e.
      - pose proof (make_decision_same c2) as V. destruct (make_decision c2) as [c3 b]. cbn [fst] in V.
        destruct b; [|apply post_ret; intros X; discriminate X]. eapply post_weaken; [apply IH|]. intros x H Fa.
        eapply said_pre; [|apply H; exact Fa]. eapply ev_then; eassumption.
      - eapply post_weaken; [apply IH|]. intros x H Fa. eapply said_pre; [exact Q|apply H; exact Fa].
      - apply post_ret. intros _. eapply said_pre; [exact (ev_trans _ _ _ Q0 Q1)|apply S2; reflexivity]. }
    destruct r; try exact B. apply post_ret. intros X; discriminate X. }
  destruct r; try exact B; [apply post_panic|apply post_nofuel].
Qed.
Lemma learn_ev cl c : cl <> [] -> epost false (learn_clause cl c) c.
Proof.
  intros NE. unfold learn_clause. destruct cl as [|a [|b [|d cl]]]; [congruence|apply t_ret; sm|apply t_ret; sm|].
  destruct (assess_learned _ _ _) as [fl h]. eapply t_bind2 with (c := c); [eapply t_seq2; [|apply t_db_add]; sm|].
  intros c' x Q. apply t_ret. eapply ev_then; [exact Q|smt].
Qed.

Definition justified (c c' : ctx) : Prop :=
  match st_sat (c_st c') with
  | Unknown => ev false c c'
  | Sat => said is_model c c'
  | Unsat => said is_empty c c'
  | UnsatAssum => said is_failed c c'
  end.
Lemma conflict_said n c : st_sat (c_st c) = Unknown -> post (conflict_step n c) (justified c).
Proof.
  intros U. unfold conflict_step.
  eapply post_bind with (P := fun r => ev false c (fst r) /\ (snd r = FAssumption -> said is_failed c (fst r))).
  { intros x E. split; [exact (t_find_conflict (sets := false) _ _ _ E)|exact (find_said _ _ _ E)]. }
  intros [c1 f] [Q1 S1]. cbn [fst snd] in *. destruct (ev_kept _ _ _ Q1) as (_ & K1 & _). specialize (K1 eq_refl). rewrite U in K1.
  destruct f.
  - unfold reconstruct_global_model. cbv zeta. set (cm := cw_model c1 _). assert (Em : ev false c cm) by (eapply ev_then; [exact Q1|smt]).
    eapply post_bind with (P := said is_model c).
    + destruct (p_native (c_pf cm)) eqn:Nat.
      * intros c2 E. eapply said_pre; [exact Em|]. eapply said_step; [exact E|]. intros s' M. injection M as <-. eexists. reflexivity.
      * apply post_ret. intros Ju. destruct (ev_grown _ _ _ Em Ju) as (J1 & l & G). split; [exact J1|]. exists l. split; [exact G|].
        intros Ch. unfold p_native in Nat. rewrite Ch in Nat. discriminate.
    + intros c2 S2. apply post_ret. unfold justified. cbn [set_sat cw_st c_st st_sat].
      eapply said_post; [exact S2|]. apply ev_one. apply (e_sat true). reflexivity.
  - apply post_ret. unfold justified. cbn [set_sat cw_st c_st st_sat]. eapply said_post; [apply S1; reflexivity|]. apply ev_one. apply (e_sat true). reflexivity.
  - destruct (analyze_conflict _ _ _ _ _ _) as [[vs a] bt]. destruct (a_fuel a); [apply post_nofuel|]. cbv zeta.
    destruct (bump_clauses _ _ _ _) as [d fl]. set (cb := backtrack_to bt _).
    assert (Eb : ev false c cb).
    { eapply ev_then; [exact Q1|]. unfold cb. eapply same_trans; [|apply backtrack_same]. smt. }
    eapply post_bind with (P := fun c2 => add_step true (AtClause (Nat.ltb 2 (length (a_clause a))) (a_clause a) (a_hashes a)) cb = Ret c2); [intros x E; exact E|].
    intros c2 E2. assert (E2' : ev false cb c2) by (apply ev_one; eapply e_step; [| |exact E2]; reflexivity).
    assert (U2 : st_sat (c_st c2) = Unknown).
    { destruct (ev_kept _ _ _ E2') as (_ & A & _). rewrite (A eq_refl). destruct (ev_kept _ _ _ Eb) as (_ & B & _). rewrite (B eq_refl). exact U. }
    destruct (a_clause a) as [|x r] eqn:Cl.
    + cbn [learn_clause]. apply post_ret. unfold justified. cbn [set_sat cw_st c_st st_sat].
      eapply said_post; [|apply ev_one; apply (e_sat true); reflexivity]. eapply said_pre; [exact Eb|]. eapply said_step; [exact E2|].
      cbn [map_step map_lits option_map]. intros s' M. injection M as <-. eexists; eexists; reflexivity.
    + intros c3 E3. pose proof (learn_ev (x :: r) c2 ltac:(discriminate) _ E3) as E3'.
      destruct (ev_kept _ _ _ E3') as (_ & A & _). unfold justified. rewrite (A eq_refl), U2.
      eapply ev_trans; [exact Eb|]. eapply ev_trans; eassumption.
Qed.
Lemma justified_pre c c1 c' : ev false c c1 -> justified c1 c' -> justified c c'.
Proof. intros E. unfold justified. destruct (st_sat (c_st c')); [|apply said_pre with (f := false); exact E..]. intros H. eapply ev_trans; eassumption. Qed.
Lemma justified_same c c1 c' : justified c c1 -> same c1 c' -> justified c c'.
Proof.
  intros J S. assert (E := S). destruct E as ((E0&_)&_). unfold justified in *. rewrite E0. destruct (st_sat (c_st c1)).
  - eapply ev_then; eassumption.
  - eapply said_post; [exact J|apply (ev_same (sets := false)); exact S].
  - eapply said_post; [exact J|apply (ev_same (sets := false)); exact S].
  - eapply said_post; [exact J|apply (ev_same (sets := false)); exact S].
Qed.
Lemma schedule_step_said n c : post (schedule_step n c) (fun r =>
  (snd r = false -> fst r = c /\ (st_sat (c_st c) <> Unknown \/ st_error (c_st c) <> None)) /\
  (snd r = true -> st_sat (c_st c) = Unknown /\ justified c (fst r))).
Proof.
  unfold schedule_step. destruct (st_sat (c_st c)) eqn:U;
    try (apply post_ret; split; [intros _; split; [reflexivity|left; cbn [fst]; congruence]|discriminate]).
  destruct (st_error (c_st c)) eqn:Er; [apply post_ret; split; [intros _; split; [reflexivity|right; congruence]|discriminate]|]. cbv zeta.
  set (c1 := if sc_next (c_sc c) =? sc_conflicts (c_sc c) then _ else c).
  assert (E1 : same c c1).
  { unfold c1. destruct (_ =? _); [|apply same_refl]. destruct (luby_advance _).
    eapply same_trans; [apply restart_same|smt]. }
  clearbody c1. eapply post_bind with (P := ev false c).
  { apply (t_seq (sets := false) _ c1 c); [apply ev_same; exact E1|].
    destruct (_ =? _); [|apply t_ret; apply ev_refl]. destruct (reduce_locals _ _) as [[s d] out].
    eapply t_seq with (c := cw_d (cw_s c1 s) d); [sm|]. apply t_add_steps.
    intros st I. apply in_map_iff in I. destruct I as (x & <- & _). split; reflexivity. }
  intros c2 Q2.
  set (c3 := if _ =? _ then cw_d c2 _ else c2).
  assert (E3 : same c2 c3) by (unfold c3; destruct (_ =? _); smt). clearbody c3.
  destruct (collect_garbage _ _) as [[s d]|]; [|apply post_panic]. destruct (d_full d); [apply post_panic|].
  assert (E4 : ev false c (cw_d (cw_s c3 s) d)).
  { eapply ev_trans; [exact Q2|]. apply ev_same. eapply same_trans; [exact E3|smt]. }
  eapply post_bind with (P := justified c).
  { eapply post_weaken; [apply conflict_said|intros x; apply justified_pre; exact E4].
    destruct (ev_kept _ _ _ E4) as (_ & A & _). rewrite (A eq_refl). exact U. }
  intros c4 Q4. apply post_ret. split; [discriminate|]. intros _. split; [reflexivity|]. eapply justified_same; [exact Q4|smt].
Qed.
Lemma schedule_loop_said n m : forall c, post (schedule_loop n m c) (fun c' =>
  (st_sat (c_st c) <> Unknown -> c' = c) /\ (st_sat (c_st c) = Unknown -> justified c c') /\
  (st_error (c_st c) <> None -> c' = c) /\ (st_sat (c_st c') = Unknown -> st_error (c_st c') <> None)).
Proof.
  induction m as [|m IH]; intros c; cbn [schedule_loop]; [apply post_nofuel|].
  destruct (schedule_step n c) as [[c1 more]| |] eqn:E; [|apply post_panic|apply post_nofuel]. cbn [bind].
  destruct (schedule_step_said n c _ E) as [A B]. cbn [fst snd] in *.
  destruct more.
  - destruct (B eq_refl) as [U J]. eapply post_weaken; [apply IH|]. intros c' (H1 & H2 & H3 & H4).
    split; [congruence|]. split.
    + intros _. destruct (st_sat (c_st c1)) eqn:U1; [|rewrite (H1 ltac:(congruence)); exact J..].
      unfold justified in J. rewrite U1 in J. eapply justified_pre; [exact J|apply H2; reflexivity].
    + split; [|exact H4]. intros Er. unfold schedule_step in E. rewrite U in E. destruct (st_error (c_st c)); [discriminate|congruence].
  - destruct (A eq_refl) as [-> R]. apply post_ret. split; [auto|]. split.
    + intros U. unfold justified. rewrite U. apply ev_refl.
    + split; [auto|]. intros U. destruct R; [congruence|assumption].
Qed.

Lemma flush_grown c : judged c -> judged (flush_proof c) /\ grown [] c (flush_proof c).
Proof.
  intros Ju. unfold flush_proof, handle_io. destruct (match p_format _ with Some _ => _ | None => _ end); [|split; [exact Ju|apply grown_same; reflexivity]].
  split; [eapply judged_same; [| | |exact Ju]; cbn; congruence|]. unfold grown. cbn. rewrite app_nil_r. repeat split; congruence.
Qed.
Lemma judged_run fuel k c c' a : run fuel k c = Ret (c', a) -> judged c -> judged c' /\ p_judge (c_pf c') = p_judge (c_pf c).
Proof.
  intros E Ju. destruct (plain k) eqn:P.
  - pose proof (t_run fuel k c P _ E) as Ev. cbn [fst] in Ev. destruct (ev_grown _ _ _ Ev Ju) as (A & l & _ & B & _). auto.
  - destruct k; try discriminate; cbn [run] in E.
    + unfold solve in E. cbv zeta in E. destruct (st_invalid _); [discriminate|].
      destruct (schedule_loop fuel fuel (set_invoked c true)) as [c1| |] eqn:E1; cbn [bind] in E; try discriminate.
      pose proof (t_schedule_loop _ _ _ _ E1) as Ev. assert (J0 : judged (set_invoked c true)) by exact Ju.
      destruct (ev_grown _ _ _ Ev J0) as (J1 & l1 & G1). destruct (flush_grown _ J1) as [J2 G2].
      assert (X : forall c2, solve_finished c1 = Ret c2 -> judged c2 /\ p_judge (c_pf c2) = p_judge (c_pf c)).
      { intros c2 E2. unfold solve_finished in E2. cbv zeta in E2. destruct (p_checker (c_pf (flush_proof c1))) eqn:Ch.
        - destruct (ask_grown _ _ _ E2 Ch J2) as (A & (_&B&_) & _). split; [exact A|]. rewrite B. destruct G2 as (_&G2&_). rewrite G2. exact (proj1 (proj2 G1)).
        - injection E2 as <-. split; [exact J2|]. destruct G2 as (_&G2&_). rewrite G2. exact (proj1 (proj2 G1)). }
      destruct (solve_finished c1) as [c2| |] eqn:E2; cbn [bind] in E; try discriminate. specialize (X _ eq_refl).
      unfold take_error in E. destruct (st_error (c_st c2)); injection E as <- <-; exact X.
    + destruct (st_empty (c_st c)); [|discriminate]. injection E as <- <-. split; [|reflexivity]. eapply judged_same; [| | |exact Ju]; cbn; auto.
    + destruct (close_proof c) as [c1| |] eqn:E1; cbn [bind] in E; try discriminate.
      assert (X : judged c1 /\ p_judge (c_pf c1) = p_judge (c_pf c)).
      { unfold close_proof in E1. destruct (add_step true End c) as [c0| |] eqn:E0; cbn [bind] in E1; try discriminate.
        destruct (step_grown _ _ _ _ E0 Ju) as (J1 & l & G & _). destruct (flush_grown _ J1) as [J2 G2]. cbv zeta in E1. injection E1 as <-.
        split; [eapply judged_same; [| | |exact J2]; cbn; auto|]. cbn. destruct G2 as (_&G2&_). rewrite G2. exact (proj1 (proj2 G)). }
      unfold take_error in E. destruct (st_error (c_st c1)); injection E as <- <-; exact X.
    + destruct (st_empty (c_st c)); [|discriminate]. injection E as <- <-. split; [|reflexivity]. destruct (p_checker (c_pf c)) eqn:Ch.
      * eapply judged_same; [| | |exact Ju]; cbn; auto.
      * split; cbn; [|auto]. intros pre e post H. destruct pre; discriminate.
Qed.
Lemma judged_run_all fuel ks : forall c c' r, run_all fuel ks c = Ret (c', r) -> judged c -> judged c' /\ p_judge (c_pf c') = p_judge (c_pf c).
Proof.
  induction ks as [|k ks IH]; intros c c' r E Ju; cbn [run_all] in E; [injection E as <- _; auto|].
  destruct (run fuel k c) as [[c1 a]| |] eqn:E1; cbn [bind] in E; try discriminate.
  destruct (run_all fuel ks c1) as [[c2 r2]| |] eqn:E2; cbn [bind] in E; try discriminate. injection E as <- <-.
  destruct (judged_run _ _ _ _ _ E1 Ju) as [J1 Q1]. destruct (IH _ _ _ E2 J1) as [J2 Q2]. split; [exact J2|congruence].
Qed.
Lemma reachable_judged c : reachable c -> judged c.
Proof.
  intros (fuel & ks & pk & judge & io & answers & E). apply (judged_run_all _ _ _ _ _ E).
  split; cbn; [|auto]. intros pre e post H. destruct pre; discriminate.
Qed.

(** As long as calls return normally the checker has not rejected anything; before the last event
    it has accepted everything. *)
Theorem C35_rejected : forall fuel ks pick judge io c answers,
  run_all fuel ks (ctx_default pick judge io) = Ret (c, answers) ->
  forall pre e post, p_log (c_pf c) = pre ++ e :: post ->
    judge (pre ++ [e]) <> VFailed /\ (judge (pre ++ [e]) <> VOk -> post = [] /\ p_checker (c_pf c) = false).
Proof.
  intros fuel ks pk judge io c answers E pre e post L.
  assert (R : reachable c) by (exists fuel, ks, pk, judge, io, answers; exact E).
  destruct (reachable_judged c R) as [A B].
  assert (J : p_judge (c_pf c) = judge).
  { assert (J0 : judged (ctx_default pk judge io)) by (split; cbn; [intros pre' e' post' H; destruct pre'; discriminate|auto]).
    exact (proj2 (judged_run_all _ _ _ _ _ E J0)). }
  rewrite J in *. destruct post as [|y post].
  - rewrite L in B. destruct B as [B|[B|[B1 B2]]]; [destruct pre; discriminate|rewrite B; split; congruence|]. rewrite B1. split; [congruence|auto].
  - rewrite (A _ _ _ L) by discriminate. split; congruence.
Qed.

(** An answer of [solve] while self checking: everything that was logged was accepted, the delayed
    steps were processed, and a new answer has been justified to the checker. *)
Theorem C35_answer : forall fuel c c' sat, reachable c -> p_checker (c_pf c) = true -> st_error (c_st c) = None ->
  run fuel CSolve c = Ret (c', ASolved sat) ->
  p_checker (c_pf c') = true /\
  exists l, p_log (c_pf c') = p_log (c_pf c) ++ l ++ [EvDelayed] /\
    (forall pre e post, p_log (c_pf c') = pre ++ e :: post -> p_judge (c_pf c') (pre ++ [e]) = VOk) /\
    (st_sat (c_st c) = Unknown -> exists e, In e l /\ if sat then is_model e else is_empty e \/ is_failed e).
Proof.
  intros fuel c c' sat R Ch Er E. pose proof (reachable_judged _ R) as Ju. cbn [run] in E. unfold solve in E. cbv zeta in E.
  destruct (st_invalid _); [discriminate|].
  destruct (schedule_loop fuel fuel (set_invoked c true)) as [c1| |] eqn:E1; cbn [bind] in E; try discriminate.
  pose proof (t_schedule_loop _ _ _ _ E1) as Ev. assert (J0 : judged (set_invoked c true)) by exact Ju.
  destruct (ev_grown _ _ _ Ev J0) as (J1 & l1 & G1). destruct (flush_grown _ J1) as [J2 G2].
  destruct (schedule_loop_said _ _ _ _ E1) as (H1 & H2 & H3 & H4).
  destruct (solve_finished c1) as [c2| |] eqn:E2; cbn [bind] in E; try discriminate.
  unfold take_error in E. destruct (st_error (c_st c2)) as [e2|] eqn:Er2; [injection E; discriminate|]. injection E as <- Ans.
  unfold solve_finished in E2. cbv zeta in E2. set (cf := flush_proof c1) in *.
  assert (Er1 : st_error (c_st cf) = None).
  { destruct (p_checker (c_pf cf)) eqn:Chf; [|injection E2 as <-; exact Er2].
    destruct (ask_grown _ _ _ E2 Chf J2) as (_ & (_&_&_&_&_&X&_) & _). destruct (st_error (c_st cf)); [exfalso; apply X; [discriminate|exact Er2]|reflexivity]. }
  assert (Er0 : st_error (c_st c1) = None).
  { destruct G2 as (_&_&_&_&_&X&_). destruct (st_error (c_st c1)); [exfalso; apply X; [discriminate|exact Er1]|reflexivity]. }
  assert (Ch1 : p_checker (c_pf c1) = true) by (destruct G1 as (_&_&_&_&_&_&X); rewrite (X Er0); exact Ch).
  assert (Chf : p_checker (c_pf cf) = true) by (destruct G2 as (_&_&_&_&_&_&X); rewrite (X Er1); exact Ch1).
  rewrite Chf in E2. destruct (ask_grown _ _ _ E2 Chf J2) as (J3 & G3 & OK). specialize (OK Er1 Er2).
  assert (Ch3 : p_checker (c_pf c2) = true) by (destruct G3 as (_&_&_&_&_&_&X); rewrite (X Er2); exact Chf).
  split; [exact Ch3|].
  assert (Sat2 : st_sat (c_st c2) = st_sat (c_st c1)).
  { destruct (ask_checker_post _ _ _ E2) as (e & p & ->). cbn. destruct (flush_frame c1) as (e' & p' & EQ). fold cf in EQ. rewrite EQ. reflexivity. }
  assert (L2 : forall l, p_log (c_pf c1) = p_log (c_pf c) ++ l -> p_log (c_pf c2) = p_log (c_pf c) ++ l ++ [EvDelayed]).
  { intros l Q. destruct G3 as (Q3&_). destruct G2 as (Q2&_). rewrite Q3, Q2, Q, app_nil_r, app_assoc. reflexivity. }
  assert (AllOk : forall pre e post, p_log (c_pf c2) = pre ++ e :: post -> p_judge (c_pf c2) (pre ++ [e]) = VOk).
  { intros pre e post Q. destruct post as [|y post]; [rewrite Q in OK; exact OK|]. apply (proj1 J3 _ _ _ Q). discriminate. }
  assert (Justified : st_sat (c_st c) = Unknown -> exists l, p_log (c_pf c1) = p_log (c_pf c) ++ l /\
    exists e, In e l /\ if sat then is_model e else is_empty e \/ is_failed e).
  { intros U. specialize (H2 U). unfold justified in H2. rewrite Sat2 in Ans.
    destruct (st_sat (c_st c1)) eqn:S1; [discriminate Ans| | |]; injection Ans as <-;
      destruct (H2 J0) as (_ & l & (Q & _) & W); destruct (W Ch1 Er0) as (e & I & Pe); exists l; (split; [exact Q|]); exists e; auto. }
  destruct (st_sat (c_st c)) eqn:U.
  - destruct (Justified eq_refl) as (l & Q & W). exists l. split; [apply L2; exact Q|]. split; [exact AllOk|]. intros _. exact W.
  - exists l1. split; [apply L2; exact (proj1 G1)|]. split; [exact AllOk|]. discriminate.
  - exists l1. split; [apply L2; exact (proj1 G1)|]. split; [exact AllOk|]. discriminate.
  - exists l1. split; [apply L2; exact (proj1 G1)|]. split; [exact AllOk|]. discriminate.
Qed.

(** * Errors *)

(** One step: a rejected step panics; an error of a processor or of the target is stored, and the
    proof is switched off. *)
Theorem C35_step : forall sv s c, st_error (c_st c) = None -> p_active (c_pf c) = true ->
  match add_step sv s c with
  | Ret c' =>
      (st_error (c_st c') = None /\ p_format (c_pf c') = p_format (c_pf c) /\ p_checker (c_pf c') = p_checker (c_pf c) /\
       (p_checker (c_pf c) = true -> exists s', (if sv then map_step (v_gs (c_v c)) s else Some s) = Some s' /\
          p_log (c_pf c') = p_log (c_pf c) ++ [EvStep s'] /\ p_judge (c_pf c) (p_log (c_pf c')) = VOk)) \/
      (st_error (c_st c') = Some EProcessor /\ p_active (c_pf c') = false /\ p_judge (c_pf c) (p_log (c_pf c')) = VProcessor) \/
      (st_error (c_st c') = Some EIo /\ p_active (c_pf c') = false /\ p_io (c_pf c) (p_out (c_pf c')) = true)
  | Panic p => p = PSelfCheck \/ p = PHashBits \/ p = PDrat \/ p = PNoGlobal
  | NoFuel => False
  end.
Proof.
  intros sv s c Er Ac. destruct (add_step sv s c) as [c'|p|] eqn:E.
  - destruct (add_step_cases _ _ _ _ E) as [[-> [H|H]]|(_ & _ & s' & p & bytes & M & W & NW & Q)]; [congruence|congruence|].
    assert (Keep : p_log p = p_log (c_pf c) /\ p_judge p = p_judge (c_pf c) /\ p_checker p = p_checker (c_pf c) /\ p_format p = p_format (c_pf c) /\ p_io p = p_io (c_pf c)).
    { destruct (p_format (c_pf c)) as [[]|] eqn:Fo; try (rewrite (NW ltac:(discriminate)); auto).
      specialize (W eq_refl). pose proof (write_keeps _ _ _ _ _ W) as X. rewrite Fo in X. exact X. }
    destruct Keep as (K1 & K2 & K3 & K4 & K5). cbv zeta in Q. destruct Q as [[F ->]|[[Ch ->]|[(Ch & J & ->)|(Ch & J & ->)]]].
    + right. right. auto.
    + left. cbn. split; [exact Er|]. split; [exact K4|]. split; [exact K3|]. congruence.
    + left. cbn. split; [exact Er|]. split; [exact K4|]. split; [exact K3|]. intros _. exists s'. rewrite K1. auto.
    + right. left. cbn. rewrite K1. auto.
  - unfold add_step in E. rewrite Er, Ac in E. destruct (if sv then map_step (v_gs (c_v c)) s else Some s) as [s'|]; [|injection E as <-; auto].
    assert (Ask : forall c0 p, ask_checker c0 (EvStep s') = Panic p -> p = PSelfCheck).
    { intros c0 p0. unfold ask_checker, handle_check. destruct (p_judge _ _); try discriminate. intros X. injection X as <-. reflexivity. }
    assert (Fin : forall p0 bytes, (let p1 := p_write p0 bytes in
     let failed := match p_format p1 with Some _ => p_io p1 (p_out p1) | None => false end in
     if failed then Ret (handle_io (cw_pf c p1) true) else if p_checker p1 then ask_checker (cw_pf c p1) (EvStep s') else Ret (cw_pf c p1)) = Panic p -> p = PSelfCheck).
    { intros p0 bytes. cbv zeta. match goal with |- (if ?x then _ else _) = _ -> _ => destruct x end; [intros X; discriminate X|]. destruct (p_checker _); [apply Ask|intros X; discriminate X]. }
    destruct (p_format (c_pf c)) as [[]|]; cbn [bind] in E.
    + destruct (write_varisat_step _ _ _) as [[]|]; cbn [bind] in E; [left; eapply Fin; exact E|injection E as <-; auto].
    + destruct (Lrat.drat_write_step _); cbn [bind] in E; [left; eapply Fin; exact E|injection E as <-; auto].
    + destruct (Lrat.drat_write_binary_step _); cbn [bind] in E; [left; eapply Fin; exact E|injection E as <-; auto].
    + left. eapply Fin. exact E.
  - unfold add_step in E. rewrite Er, Ac in E. destruct (if sv then map_step (v_gs (c_v c)) s else Some s) as [s'|]; [|discriminate].
    assert (Fin : forall p0 bytes, (let p1 := p_write p0 bytes in
     let failed := match p_format p1 with Some _ => p_io p1 (p_out p1) | None => false end in
     if failed then Ret (handle_io (cw_pf c p1) true) else if p_checker p1 then ask_checker (cw_pf c p1) (EvStep s') else Ret (cw_pf c p1)) = NoFuel -> False).
    { intros p0 bytes. cbv zeta. match goal with |- (if ?x then _ else _) = _ -> _ => destruct x end; [intros X; discriminate X|]. destruct (p_checker _); [|intros X; discriminate X].
      unfold ask_checker, handle_check. destruct (p_judge _ _); discriminate. }
    destruct (p_format (c_pf c)) as [[]|]; cbn [bind] in E.
    + destruct (write_varisat_step _ _ _) as [[]|]; cbn [bind] in E; [eapply Fin; exact E|discriminate].
    + destruct (Lrat.drat_write_step _); cbn [bind] in E; [eapply Fin; exact E|discriminate].
    + destruct (Lrat.drat_write_binary_step _); cbn [bind] in E; [eapply Fin; exact E|discriminate].
    + eapply Fin. exact E.
Qed.

Lemma flush_off c : p_format (c_pf c) = None -> flush_proof c = c.
Proof. intros H. unfold flush_proof. rewrite H. reflexivity. Qed.
(** A stored error stays until it is reported, by the next [solve] or [close_proof]. *)
Theorem C35_error_reported : forall fuel c e, st_error (c_st c) = Some e -> p_active (c_pf c) = false ->
  (forall k c' a, k <> CSolve -> k <> CCloseProof -> k <> CCheck -> (forall f, k <> CWriteProof f) ->
     run fuel k c = Ret (c', a) -> st_error (c_st c') = Some e /\ p_active (c_pf c') = false) /\
  (st_invalid (c_st c) = false -> fuel <> 0%nat -> exists c', run fuel CSolve c = Ret (c', AError (Some e))) /\
  (exists c', run fuel CCloseProof c = Ret (c', AError (Some e))).
Proof.
  intros fuel c e Er Off.
  assert (O : p_checker (c_pf c) = false /\ p_format (c_pf c) = None).
  { unfold p_active in Off. apply Bool.orb_false_iff in Off. destruct Off as [A B]. split; [exact A|]. destruct (p_format (c_pf c)); [discriminate|reflexivity]. }
  destruct O as [O1 O2]. split; [|split].
  - intros k c' a N1 N2 N3 N4 E. assert (P : plain k = true) by (destruct k; try reflexivity; congruence).
    pose proof (t_run fuel k c P _ E) as Ev. cbn [fst] in Ev. destruct (ev_kept _ _ _ Ev) as (_ & _ & K). apply K; assumption.
  - intros Inv NF. destruct fuel as [|fuel]; [congruence|]. cbn [run]. unfold solve. cbv zeta. cbn [set_invoked cw_st c_st st_invalid].
    rewrite Inv. cbn [schedule_loop]. unfold schedule_step. cbn [set_invoked cw_st c_st st_error st_sat].
    rewrite Er.
    assert (F : solve_finished (set_invoked c true) = Ret (set_invoked c true)).
    { unfold solve_finished. rewrite flush_off by exact O2. cbv zeta. cbn [set_invoked cw_st c_pf]. rewrite O1. reflexivity. }
    destruct (st_sat (c_st c)) eqn:U; cbn [bind]; rewrite F;
      cbn [bind]; unfold take_error; cbn [set_invoked cw_st c_st st_error]; rewrite Er; eexists; reflexivity.
  - cbn [run]. unfold close_proof, add_step. rewrite Er. cbn [bind]. rewrite flush_off by exact O2. cbv zeta. cbn [bind].
    unfold take_error. cbn [cw_pf c_st]. rewrite Er. eexists. reflexivity.
Qed.

Lemma invalid_run fuel k c c' a : run fuel k c = Ret (c', a) -> st_invalid (c_st c) = true -> st_invalid (c_st c') = true /\ k <> CSolve.
Proof.
  intros E I. destruct (plain k) eqn:P.
  - pose proof (t_run fuel k c P _ E) as Ev. cbn [fst] in Ev. destruct (ev_kept _ _ _ Ev) as (A & _). split; [congruence|]. intros ->. discriminate.
  - destruct k; try discriminate; cbn [run] in E.
    + unfold solve in E. cbv zeta in E. cbn [set_invoked cw_st c_st st_invalid] in E. rewrite I in E. discriminate.
    + destruct (st_empty (c_st c)); [|discriminate]. injection E as <- <-. split; [exact I|discriminate].
    + split; [|discriminate]. destruct (close_proof c) as [c1| |] eqn:E1; cbn [bind] in E; try discriminate.
      assert (X : st_invalid (c_st c1) = true).
      { pose proof (close_proof_spec c) as X. rewrite E1 in X. destruct X as (e & p & ->). exact I. }
      unfold take_error in E. destruct (st_error (c_st c1)); injection E as <- <-; [reflexivity|exact X].
    + destruct (st_empty (c_st c)); [|discriminate]. injection E as <- <-. split; [exact I|discriminate].
Qed.
(** The error is reported once: afterwards it is gone and the solver can not be used any more,
    whatever is called in between. *)
Theorem C35_error_once : forall fuel k c c' e, run fuel k c = Ret (c', AError (Some e)) ->
  (k = CSolve \/ k = CCloseProof) /\ st_error (c_st c') = None /\
  forall fuel' ks, In CSolve ks -> forall c'' answers, run_all fuel' ks c' <> Ret (c'', answers).
Proof.
  intros fuel k c c' e E.
  assert (X : (k = CSolve \/ k = CCloseProof) /\ st_error (c_st c') = None /\ st_invalid (c_st c') = true).
  { destruct k; cbn [run] in E.
    - destruct (load_clause _ _); cbn [bind] in E; discriminate.
    - destruct (new_user_var _) as [[]| |]; cbn [bind] in E; discriminate.
    - destruct (change_mode _ _ _); cbn [bind] in E; discriminate.
    - destruct (change_mode _ _ _); cbn [bind] in E; discriminate.
    - destruct (change_mode _ _ _); cbn [bind] in E; discriminate.
    - destruct (observe_internal_vars _) as [[]| |]; cbn [bind] in E; discriminate.
    - destruct (set_assumptions _ _); cbn [bind] in E; discriminate.
    - split; [auto|]. unfold solve in E. cbv zeta in E. destruct (st_invalid _); [discriminate|].
      destruct (schedule_loop _ _ _); cbn [bind] in E; try discriminate. destruct (solve_finished _) as [c2| |]; cbn [bind] in E; try discriminate.
      unfold take_error in E. destruct (st_error (c_st c2)); [injection E as <- _; auto|]. injection E as <- H. destruct (st_sat _); discriminate.
    - destruct (st_empty _); discriminate.
    - split; [auto|]. destruct (close_proof c) as [c1| |]; cbn [bind] in E; try discriminate.
      unfold take_error in E. destruct (st_error (c_st c1)); [injection E as <- _; auto|discriminate].
    - destruct (st_empty _); discriminate.
    - destruct (update_apply _ _) as [[] ?]; [destruct (_ && _)|]; discriminate. }
  destruct X as (X1 & X2 & X3). split; [exact X1|]. split; [exact X2|]. clear E X1 X2. intros fuel' ks I. revert c' X3.
  induction ks as [|k' ks IH]; intros c' Inv c'' answers E; [contradiction|]. cbn [run_all] in E.
  destruct (run fuel' k' c') as [[c1 a]| |] eqn:E1; cbn [bind] in E; try discriminate.
  destruct (invalid_run _ _ _ _ _ E1 Inv) as [I1 N1]. destruct I as [I|I]; [congruence|].
  destruct (run_all fuel' ks c1) as [[c2 r2]| |] eqn:E2; cbn [bind] in E; try discriminate. eapply IH; [exact I|exact I1|exact E2].
Qed.
(** [solve] is never interrupted. *)
Theorem C35_never_interrupted : forall fuel c c', run fuel CSolve c <> Ret (c', AError None).
Proof.
  intros fuel c c' E. cbn [run] in E. unfold solve in E. cbv zeta in E. destruct (st_invalid _); [discriminate|].
  destruct (schedule_loop fuel fuel (set_invoked c true)) as [c1| |] eqn:E1; cbn [bind] in E; try discriminate.
  destruct (schedule_loop_said _ _ _ _ E1) as (_ & _ & _ & H4).
  destruct (solve_finished c1) as [c2| |] eqn:E2; cbn [bind] in E; try discriminate.
  unfold take_error in E. destruct (st_error (c_st c2)) eqn:Er; [injection E; discriminate|]. injection E as _ H.
  assert (S : st_sat (c_st c2) = st_sat (c_st c1)) by (pose proof (solve_finished_spec c1) as X; rewrite E2 in X; destruct X as (e & p & ->); reflexivity).
  destruct (st_sat (c_st c2)) eqn:S2; try discriminate. rewrite S in S2.
  assert (NE : st_error (c_st c1) <> None) by (apply H4; congruence).
  apply NE. unfold solve_finished in E2. cbv zeta in E2.
  assert (Fl : st_error (c_st (flush_proof c1)) <> None).
  { unfold flush_proof, handle_io. destruct (match p_format _ with Some _ => _ | None => _ end); [discriminate|exact NE]. }
  destruct (p_checker (c_pf (flush_proof c1))); [|injection E2 as <-; congruence].
  unfold ask_checker, handle_check in E2. cbv zeta in E2. destruct (p_judge _ _); try discriminate; injection E2 as <-; [|discriminate].
  cbn in Er. congruence.
Qed.

Print Assumptions C35_rejected.
Print Assumptions C35_answer.
Print Assumptions C35_step.
Print Assumptions C35_error_reported.
Print Assumptions C35_error_once.
Print Assumptions C35_never_interrupted.

(** Cases: an accepted run, a processor failing at the sixth event and a target failing after 20
    bytes. *)
Example C35_answer_case : match ex_run checker_judge (CCheck :: ex_solve) with
  | Ret (c, r) => nth 5 r ANone = ASolved false /\ p_checker (c_pf c) = true /\ length (p_log (c_pf c)) = 12%nat
  | _ => False end.
Proof. vm_compute. repeat split. Qed.
Example C35_error_case :
  match ex_run (fun l => if Nat.eqb (length l) 6 then VProcessor else VOk) (CCheck :: ex_solve) with
  | Ret (c, r) => nth 5 r ANone = AError (Some EProcessor) /\ st_invalid (c_st c) = true
  | _ => False end /\
  match run_all 200 (CWriteProof FVarisat :: ex_solve) (ctx_default (fun _ => 0%nat) (fun _ => VOk) (fun b => Nat.ltb 20 (length b))) with
  | Ret (c, r) => nth 5 r ANone = AError (Some EIo) /\ st_invalid (c_st c) = true
  | _ => False end.
Proof. vm_compute. repeat split. Qed.
