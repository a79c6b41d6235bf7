(** When the checker cannot panic. *)
From Coq Require Import Arith ZArith ZifyBool ZifyNat ZifyN Permutation Sorted.
From Verif Require Import Spec Lit LitProofs Vec SortedLits SortedLitsProofs Hash HashProofs Vli BinFormat Checker CheckerStore CheckerInv CheckerOps CheckerRup CheckerSteps CheckerRun CheckerCount.

(** * Propagation *)

Definition fit (us : list (option unit_clause)) (lits : list N) : Prop := Forall (fun l => lit_var l < vlen us) lits.

Lemma assign_ok r l u : lit_var l < vlen (rs_units r) -> exists r', rup_assign r l u = Some r' /\ vlen (rs_units r') = vlen (rs_units r) /\ True.
Proof.
  intros H. unfold rup_assign. destruct (proj1 (vget_lt _ _) H) as [o ->]. eexists. split; [reflexivity|]. cbn [rs_units]. rewrite vset_len. auto.
Qed.

Definition trail_fit (r : rup_state) : Prop := fit (rs_units r) (map fst (rs_trail r)).
Lemma assign_fit r l u r' : rup_assign r l u = Some r' -> trail_fit r -> vlen (rs_units r') = vlen (rs_units r) /\ trail_fit r'.
Proof.
  unfold rup_assign. destruct (vget (rs_units r) (lit_var l)) as [o|] eqn:E; [|discriminate]. intros H T. inversion H; subst. unfold trail_fit, fit in *.
  cbn [rs_units rs_trail map fst]. rewrite vset_len. split; [reflexivity|]. constructor; [eapply vget_some_lt; exact E|exact T].
Qed.

Lemma falsify_ok lits : forall r, fit (rs_units r) lits -> trail_fit r ->
  exists r', rup_falsify r lits = Some r' /\ vlen (rs_units r') = vlen (rs_units r) /\ trail_fit r'.
Proof.
  induction lits as [|l lits IH]; intros r F T; cbn [rup_falsify]; [eauto|]. inversion F; subst.
  destruct (assign_ok r l (UC InClause (is_negative l))) as (r1&E&L&_); [assumption|]. rewrite E. destruct (assign_fit _ _ _ _ E T) as [_ T1].
  destruct (IH r1) as (r2&E2&L2&T2); [unfold fit; rewrite L; assumption|exact T1|]. exists r2. rewrite L2. auto.
Qed.

Lemma lit_value_ok us l : lit_var l < vlen us -> exists x, lit_value us l = Some x.
Proof. intros H. rewrite lit_value_get. destruct (proj1 (vget_lt _ _) H) as [[u|] ->]; eauto. Qed.

Lemma rup_lits_ok lits : forall r count un, fit (rs_units r) lits -> trail_fit r ->
  (forall l, un = Some l -> lit_var l < vlen (rs_units r)) ->
  exists r' s count' un', rup_lits r lits count un = Some (r', s, count', un') /\ vlen (rs_units r') = vlen (rs_units r) /\ trail_fit r' /\
    (forall l, un' = Some l -> lit_var l < vlen (rs_units r)).
Proof.
  induction lits as [|l lits IH]; intros r count un F T U; cbn [rup_lits]; [exists r, false, count, un; auto|]. inversion F; subst.
  destruct (lit_value_ok (rs_units r) l) as [x E]; [assumption|]. rewrite E. destruct x as [[[|] u]|].
  - exists r, true, count, un. auto.
  - destruct (uc_id u) as [id| |].
    + destruct (assign_ok r l (UC (TracePos (vlen (rs_trace r))) (is_negative l))) as (r1&E1&L1&_); [assumption|]. rewrite E1.
      destruct (assign_fit _ _ _ _ E1 T) as [_ T1].
      destruct (IH (rup_trace r1 id) count un) as (r2&s&c2&u2&E2&L2&T2&U2).
      * unfold fit. cbn [rup_trace rs_units]. rewrite L1. assumption.
      * exact T1.
      * cbn [rup_trace rs_units]. rewrite L1. exact U.
      * exists r2, s, c2, u2. cbn [rup_trace rs_units] in L2, U2. rewrite L1 in L2, U2. auto.
    + apply IH; assumption.
    + apply IH; assumption.
  - apply IH; auto. intros z Ez. inversion Ez; subst. assumption.
Qed.

Lemma rup_candidates_ok buf cs : forall r, (forall c, In c cs -> slice_ok buf c /\ fit (rs_units r) (lits_of buf c)) -> trail_fit r ->
  exists r' b, rup_candidates buf r cs = Some (r', b) /\ vlen (rs_units r') = vlen (rs_units r) /\ trail_fit r'.
Proof.
  induction cs as [|c cs IH]; intros r OK T; cbn [rup_candidates]; [eauto|].
  destruct (OK c (or_introl eq_refl)) as [[S _] F]. rewrite S.
  destruct (rup_lits_ok (lits_of buf c) r 0 None F T) as (r1&s&c1&u1&E1&L1&T1&U1); [discriminate|]. rewrite E1.
  assert (OK1 : forall r2, vlen (rs_units r2) = vlen (rs_units r) -> forall d, In d cs -> slice_ok buf d /\ fit (rs_units r2) (lits_of buf d)).
  { intros r2 L2 d Hd. destruct (OK d (or_intror Hd)) as [A B]. split; [exact A|]. unfold fit. rewrite L2. exact B. }
  destruct s.
  - destruct (IH r1 (OK1 _ L1) T1) as (r2&b&E2&L2&T2). exists r2, b. rewrite L2. auto.
  - destruct u1 as [l|].
    + destruct (c1 =? 1).
      * destruct (assign_ok r1 l (UC (TracePos (vlen (rs_trace r1))) (is_positive l))) as (r2&E2&L2&_); [rewrite L1; auto|]. rewrite E2.
        destruct (assign_fit _ _ _ _ E2 T1) as [_ T2].
        destruct (IH (rup_trace r2 (cc_id c))) as (r3&b&E3&L3&T3); [apply OK1; cbn [rup_trace rs_units]; congruence|exact T2|].
        exists r3, b. cbn [rup_trace rs_units] in L3. split; [exact E3|]. split; [congruence|exact T3].
      * destruct (IH r1 (OK1 _ L1) T1) as (r2&b&E2&L2&T2). exists r2, b. rewrite L2. auto.
    + eexists _, _. split; [reflexivity|]. split; [exact L1|exact T1].
Qed.

Lemma rup_hashes_ok m buf hashes : forall r,
  (forall k c, In c (bucket m k) -> slice_ok buf c /\ fit (rs_units r) (lits_of buf c)) -> trail_fit r ->
  exists r' res, rup_hashes m buf r hashes = Some (r', res) /\ vlen (rs_units r') = vlen (rs_units r) /\ trail_fit r'.
Proof.
  induction hashes as [|k hashes IH]; intros r OK T; cbn [rup_hashes]; [eauto|].
  destruct (bucket m k) as [|c cs] eqn:B; [eauto|].
  destruct (rup_candidates_ok buf (c :: cs) r) as (r1&b&E1&L1&T1); [intros d Hd; apply (OK k); rewrite B; exact Hd|exact T|]. rewrite E1.
  destruct b; [eauto|]. destruct (IH r1) as (r2&res&E2&L2&T2); [|exact T1|exists r2, res; rewrite L2; auto].
  intros j d Hd. unfold fit. rewrite L1. apply (OK j d Hd).
Qed.

Lemma rup_undo_ok tr : forall us, fit us (map fst tr) -> exists us', rup_undo us tr = Some us'.
Proof.
  induction tr as [|[l o] tr IH]; intros us F; cbn [rup_undo]; [eauto|]. inversion F; subst. cbn [fst] in *.
  destruct (proj1 (vget_lt us (lit_var l)) ltac:(assumption)) as [x ->]. apply IH. unfold fit. rewrite vset_len. assumption.
Qed.

Lemma true_lit_ok us lits : fit us lits -> (forall v u, vget us v = Some (Some u) -> exists id, uc_id u = Global id) ->
  exists x, rup_true_lit us lits = Some x.
Proof.
  induction lits as [|l lits IH]; intros F G; cbn [rup_true_lit]; [eauto|]. inversion F; subst. rewrite lit_value_get.
  destruct (proj1 (vget_lt us (lit_var l)) ltac:(assumption)) as [[u|] E]; rewrite E; [|apply IH; assumption].
  destruct (xorb _ _); [|apply IH; assumption]. destruct (G _ _ E) as [id ->]. eauto.
Qed.

(** * Results that are not panics *)

Definition wp {A} (r : res A) (Q : A -> ctx -> Prop) : Prop :=
  match r with ROk x c => Q x c | RErr _ _ => True | RPanic => False end.
Lemma wp_bind {A B} (r : res A) (k : A -> ctx -> res B) Q : wp r (fun x c => wp (k x c) Q) -> wp (bind r k) Q.
Proof. destruct r; cbn; auto. Qed.
Lemma wp_weaken {A} (r : res A) (Q R : A -> ctx -> Prop) : (forall x c, Q x c -> R x c) -> wp r Q -> wp r R.
Proof. destruct r; cbn; auto. Qed.
Lemma wp_and {A} (r : res A) (Q R : A -> ctx -> Prop) : wp r Q -> (forall x c, r = ROk x c -> R x c) -> wp r (fun x c => Q x c /\ R x c).
Proof. destruct r; cbn; auto. Qed.

Definition bits_ok (h : hasher) : Prop := 1 <= hash_bits h /\ hash_bits h <= 64.
Definition size (m : N) (c : ctx) : Prop :=
  vlen (literal_buffer (c_clauses c)) <= m /\ forall a, In a (aclauses (c_clauses c)) -> a_irr a <= m /\ a_red a <= m.
Record SI (m : N) (c : ctx) : Prop := { si_inv : Inv c; si_bits : bits_ok (c_hasher c); si_size : size m c }.

Lemma size_db m c c' : size m c -> literal_buffer (c_clauses c') = literal_buffer (c_clauses c) ->
  same_db (c_clauses c) (c_clauses c') -> size m c'.
Proof.
  intros [A B] E D. split; [rewrite E; exact A|]. intros a Ha. apply B. apply (perm_in _ _ _ (sd_clauses _ _ D)). exact Ha.
Qed.
Lemma size_le m n c : m <= n -> size m c -> size n c.
Proof. intros L [A B]. split; [lia|]. intros a Ha. specialize (B a Ha). lia. Qed.
Lemma si_le m n c : m <= n -> SI m c -> SI n c.
Proof. intros L [A B C]. constructor; auto. eapply size_le; eassumption. Qed.

Lemma hash_ok h lits : bits_ok h -> exists k, hasher_hash h lits = Some k.
Proof. intros [A B]. unfold hasher_hash. destruct (N.leb_spec 1 (hash_bits h)); [|lia]. destruct (N.leb_spec (hash_bits h) 64); [|lia]. cbn. eauto. Qed.

Lemma rehash_ok h h0 cl vs : wf h0 cl vs -> shuffles h -> bits_ok h -> exists h' cl', rehash h cl = Some (h', cl').
Proof.
  intros W S [A B]. unfold rehash.
  match goal with |- context [rehash_insert ?h' ?b ?cs ?m0] => assert (X : exists m', rehash_insert h' b cs m0 = Some m'); [apply rehash_insert_some|] end.
  - left. cbn [hash_bits]. lia.
  - intros c Hc. apply (wf_slice _ _ _ W). unfold allc. apply (perm_in _ _ _ (flat_map_perm snd _ _ (S (rehashes h) (cmap cl)))). exact Hc.
  - destruct X as [m' E]. rewrite E. eauto.
Qed.
Lemma rehash_frame h cl h' cl' : rehash h cl = Some (h', cl') -> literal_buffer cl' = literal_buffer cl /\ hash_bits h' = hash_bits h /\ garbage_size cl' = garbage_size cl.
Proof. unfold rehash. destruct (rehash_insert _ _ _ _); [|discriminate]. intros H. inversion H; subst. auto. Qed.

Lemma check_clause_frame c lits hashes x c' : Inv c -> check_clause_with_hashes c lits hashes = ROk x c' ->
  literal_buffer (c_clauses c') = literal_buffer (c_clauses c) /\ hash_bits (c_hasher c') = hash_bits (c_hasher c).
Proof.
  intros I H. unfold check_clause_with_hashes in H.
  assert (RH : forall h cl, (if rename_flag (c_hasher c) then rehash (c_hasher c) (c_clauses c) else Some (c_hasher c, c_clauses c)) = Some (h, cl) ->
     literal_buffer cl = literal_buffer (c_clauses c) /\ hash_bits h = hash_bits (c_hasher c) /\ wf h cl (c_vars c)).
  { intros h cl E. destruct (rename_flag (c_hasher c)).
    - destruct (rehash_frame _ _ _ _ E) as (A&B&_). split; [exact A|]. split; [exact B|]. apply (rehash_spec _ _ _ _ _ _ (inv_wf _ I) (inv_shuffle _ I) E).
    - inversion E; subst. split; [reflexivity|]. split; [reflexivity|apply (inv_wf _ I)]. }
  destruct (if rename_flag (c_hasher c) then _ else _) as [[h cl]|]; [|discriminate].
  destruct (RH h cl eq_refl) as (A1&A2&A3). cbn [obind] in H. cbn [with_clauses with_hasher c_rup c_clauses c_vars] in H.
  destruct (r_trail (c_rup c)); [|discriminate].
  pose proof (ensure_vars_spec h lits cl (c_vars c) A3) as EV. destruct (ensure_vars cl (c_vars c) lits) as [cl2 vs2].
  destruct EV as (_&EX&_). pose proof (ext_buffer _ _ _ _ EX) as EB.
  destruct (rup_true_lit _ _) as [[id|]|]; cbn [obind] in H; try discriminate.
  - inversion H; subst. cbn. split; congruence.
  - destruct (rup_falsify _ _) as [r|]; cbn [obind] in H; try discriminate.
    destruct (rup_hashes _ _ _ _) as [[r2 res]|]; cbn [obind] in H; try discriminate. destruct res; try discriminate;
      (destruct (rup_undo _ _); cbn [obind] in H; [|discriminate]); inversion H; subst; cbn; split; congruence.
Qed.

Lemma check_clause_wp m c lits hashes : SI m c ->
  wp (check_clause_with_hashes c lits hashes) (fun _ c' => SI m c' /\ rup_ok c lits c' /\ Forall (fun l => lit_var l < nvars (c_vars c')) lits).
Proof.
  intros [I B S]. pose proof (check_clause_spec c lits hashes I) as CC. pose proof (check_clause_frame c lits hashes) as CF.
  assert (NP : check_clause_with_hashes c lits hashes <> RPanic /\
    forall x c', check_clause_with_hashes c lits hashes = ROk x c' -> Forall (fun l => lit_var l < nvars (c_vars c')) lits).
  { clear CC CF. unfold check_clause_with_hashes.
    assert (RH : exists h cl, (if rename_flag (c_hasher c) then rehash (c_hasher c) (c_clauses c) else Some (c_hasher c, c_clauses c)) = Some (h, cl) /\
      wf h cl (c_vars c)).
    { destruct (rename_flag (c_hasher c)).
      - destruct (rehash_ok _ _ _ _ (inv_wf _ I) (inv_shuffle _ I) B) as (h&cl&E). exists h, cl. split; [exact E|].
        apply (rehash_spec _ _ _ _ _ _ (inv_wf _ I) (inv_shuffle _ I) E).
      - exists (c_hasher c), (c_clauses c). split; [reflexivity|apply (inv_wf _ I)]. }
    destruct RH as (h&cl&E&W). rewrite E. cbn [obind with_clauses with_hasher c_rup c_clauses c_vars]. rewrite (inv_trail _ I).
    pose proof (ensure_vars_spec h lits cl (c_vars c) W) as EV. destruct (ensure_vars cl (c_vars c) lits) as [cl2 vs2]. destruct EV as (W2&EX&FV).
    pose proof (wf_len_units _ _ _ W2) as LU.
    assert (FT : fit (unit_clauses cl2) lits) by (unfold fit; rewrite LU; exact FV).
    destruct (true_lit_ok (unit_clauses cl2) lits FT) as [tl ET].
    { intros v u Hv. destruct (wf_units _ _ _ W2 v u) as (_&id&X&_); [unfold unit_of; rewrite Hv; reflexivity|eauto]. }
    rewrite ET. cbn [obind]. destruct tl as [id|].
    { split; [discriminate|]. intros x c' H. inversion H; subst. exact FV. }
    destruct (falsify_ok lits (RS (unit_clauses cl2) [] []) FT) as (r1&E1&L1&T1); [constructor|]. rewrite E1. cbn [obind].
    destruct (rup_hashes_ok (cmap cl2) (literal_buffer cl2) hashes r1) as (r2&res&E2&L2&T2); [|exact T1|].
    { intros k d Hd. apply bucket_in_allc in Hd. split; [apply (wf_slice _ _ _ W2 d Hd)|]. unfold fit. rewrite L1. cbn [rs_units]. rewrite LU.
      apply (gc_vars _ _ _ (wf_clause _ _ _ W2 (abs_c (literal_buffer cl2) d) (in_map _ _ _ Hd))). }
    rewrite E2. cbn [obind].
    destruct (rup_undo_ok (rs_trail r2) (rs_units r2) T2) as [us EU].
    destruct res; rewrite ?EU; cbn [obind].
    - split; [discriminate|]. intros x c' H. inversion H; subst. exact FV.
    - split; [discriminate|]. intros x c' H. discriminate.
    - split; [discriminate|]. intros x c' H. discriminate. }
  destruct NP as [NP NV]. destruct (check_clause_with_hashes c lits hashes) as [x c'|e c'|]; cbn [wp]; [|exact Logic.I|congruence].
  destruct CC as (I'&RO&_). destruct (CF x c' I eq_refl) as [F1 F2]. split; [|split; [exact RO|apply (NV x c' eq_refl)]].
  constructor; [exact I'|unfold bits_ok; rewrite F2; exact B|]. eapply size_db; [exact S|exact F1|apply RO].
Qed.

(** * Storing and deleting *)

Lemma ensure_frame c v : literal_buffer (c_clauses (ctx_ensure_var c v)) = literal_buffer (c_clauses c).
Proof. unfold ctx_ensure_var, ensure_var. destruct (_ <=? _); reflexivity. Qed.

Lemma ensure_vars_frame lits : forall cl vs, literal_buffer (fst (ensure_vars cl vs lits)) = literal_buffer cl.
Proof.
  unfold ensure_vars. induction lits as [|l lits IH]; intros cl vs; cbn [fold_left]; [reflexivity|]. cbn [fst snd].
  specialize (IH (fst (ensure_var cl vs (lit_var l))) (snd (ensure_var cl vs (lit_var l)))). rewrite <- surjective_pairing in IH. rewrite IH.
  unfold ensure_var. destruct (_ <=? _); reflexivity.
Qed.

Lemma lits_new_len lits buf ls buf' : clause_lits_new lits buf = Some (ls, buf') -> vlen buf' <= vlen buf + N.of_nat (length lits).
Proof.
  unfold clause_lits_new. destruct (3 <? _); [destruct (_ <? _); [|discriminate]|]; intros H; inversion H; subst; unfold vlen; rewrite ?app_length; lia.
Qed.

Lemma store_unit_ok h st cl vs l : wf h cl vs -> lit_var l < nvars vs -> exists x, store_unit_clause st cl l = Some x.
Proof.
  intros W L. unfold store_unit_clause. rewrite (lit_value_spec cl l) by (rewrite (wf_len_units _ _ _ W); exact L).
  destruct (unit_of cl (lit_var l)) as [[i b]|] eqn:U; [|eauto]. destruct (wf_units _ _ _ W _ _ U) as (_&id&E&_). cbn [uc_id] in E. subst.
  destruct (xorb _ _); eauto.
Qed.
Lemma store_unit_frame st cl l st' cl' x : store_unit_clause st cl l = Some (st', cl', x) -> literal_buffer cl' = literal_buffer cl.
Proof. unfold store_unit_clause. destruct (lit_value _ _) as [[[[|] [[] ?]]|]|]; intros H; inversion H; subst; reflexivity. Qed.

Lemma store_ok h st cl vs lits red m : wf h cl vs -> good_lits lits -> bits_ok h ->
  vlen (literal_buffer cl) <= m -> (forall a, In a (aclauses cl) -> a_irr a <= m /\ a_red a <= m) -> m + 1 < 2^32 ->
  exists x, store_clause st h cl vs lits red = Some x.
Proof.
  intros W G B S1 S2 M. unfold store_clause. pose proof (ensure_vars_spec h lits cl vs W) as EV.
  destruct (ensure_vars cl vs lits) as [cl2 vs2]. destruct EV as (W2&EX&FV).
  destruct lits as [|l [|l2 rest]]; [eauto| |].
  - inversion FV; subst. destruct (store_unit_ok h st cl2 vs2 l W2) as [[[st' cl'] x] E]; [assumption|]. rewrite E. eauto.
  - destruct (hash_ok h (l :: l2 :: rest) B) as [k HK]. rewrite HK. set (lits := l :: l2 :: rest) in *.
    pose proof (store_candidate_spec (literal_buffer cl2) lits red (bucket (cmap cl2) k)
      (fun c Hc => wf_slice _ _ _ W2 c (bucket_in_allc cl2 k c Hc))) as SC.
    destruct (store_candidate _ _ _ _) as [[[cs' x]|[]]|].
    + eauto.
    + unfold clause_lits_new. rewrite (ext_buffer _ _ _ _ EX). destruct (N.ltb_spec (vlen (literal_buffer cl)) (2^32)); [|lia].
      destruct (count_up_some lits (lit_count vs2)) as [c' CU].
      { eapply Forall_impl; [|exact FV]. intros x Hx. rewrite (wf_len_counts _ _ _ W2). change (N.div2 x < nvars vs2) in Hx.
        pose proof (N.div2_odd x) as D. destruct (N.odd x); cbn [N.b2n] in D; lia. }
      rewrite CU. destruct (3 <? _); eauto.
    + exfalso. destruct SC as (c&Hc&_&Z). apply bucket_in_allc in Hc. apply (in_map (abs_c (literal_buffer cl2))) in Hc.
      change (map (abs_c (literal_buffer cl2)) (allc cl2)) with (aclauses cl2) in Hc. rewrite (ext_aclauses _ _ _ _ EX) in Hc.
      specialize (S2 _ Hc). cbn [abs_c a_irr a_red] in S2. unfold copies in Z. destruct red; lia.
Qed.
Lemma store_frame h st cl vs lits red st' cl' vs' x : store_clause st h cl vs lits red = Some (st', cl', vs', x) ->
  vlen (literal_buffer cl') <= vlen (literal_buffer cl) + N.of_nat (length lits).
Proof.
  unfold store_clause. pose proof (ensure_vars_frame lits cl vs) as E. destruct (ensure_vars cl vs lits) as [cl2 vs2]. cbn [fst] in E. rewrite <- E.
  intros H. destruct lits as [|l [|l2 rest]].
  - inversion H; subst. cbn. lia.
  - destruct (store_unit_clause st cl2 l) as [[[a b] y]|] eqn:SU; [|discriminate]. inversion H; subst. rewrite (store_unit_frame _ _ _ _ _ _ SU). cbn. lia.
  - destruct (hasher_hash _ _); [|discriminate]. destruct (store_candidate _ _ _ _) as [[[cs' y]|[]]|]; [| |discriminate].
    + inversion H; subst. cbn [with_cmap literal_buffer]. lia.
    + destruct (clause_lits_new _ _) as [[ls buf]|] eqn:CL; [|discriminate]. destruct (count_up _ _); [|discriminate]. inversion H; subst.
      cbn [with_next_id with_buffer with_cmap literal_buffer]. apply (lits_new_len _ _ _ _ CL).
Qed.

Lemma ctx_store_wp m c lits red : SI m c -> good_lits lits -> m + 1 < 2^32 ->
  wp (ctx_store_clause c lits red) (fun x c' => SI (m + 1 + N.of_nat (length lits)) c' /\ ctx_store_clause c lits red = ROk x c').
Proof.
  intros [I B [S1 S2]] G M. unfold ctx_store_clause.
  destruct (store_ok (c_hasher c) (c_state c) (c_clauses c) (c_vars c) lits red m (inv_wf _ I) G B S1 S2 M) as [[[[st cl] vs] [id r]] E].
  rewrite E. cbn [obind wp]. split; [|reflexivity].
  pose proof (ctx_store_spec c lits red (with_vars (with_clauses (with_state c st) cl) vs) id r I G) as SP.
  unfold ctx_store_clause in SP. rewrite E in SP. cbn [obind] in SP. destruct (SP eq_refl) as (I'&SE&_&_&HE&_).
  constructor; [exact I'|rewrite HE; exact B|]. pose proof (store_frame _ _ _ _ _ _ _ _ _ _ E) as FR.
  split; [cbn [with_vars with_clauses c_clauses] in *; lia|]. intros a Ha. cbn [with_vars with_clauses c_clauses c_state with_state] in *.
  assert (OLD : In a (aclauses (c_clauses c)) -> a_irr a <= m + 1 + N.of_nat (length lits) /\ a_red a <= m + 1 + N.of_nat (length lits))
    by (intros Hx; specialize (S2 a Hx); lia).
  destruct SE as [? ? P|? ? ? P|? ? ? ? P|? ? ? P|b R ? ? P1 ? P2|? ? ? P]; try (apply OLD; apply (perm_in _ _ _ P); exact Ha).
  - apply (perm_in _ _ _ P2) in Ha. destruct Ha as [<-|Ha]; [|apply OLD; apply (perm_in _ _ _ (Permutation_sym P1)); right; exact Ha].
    specialize (S2 b (perm_in _ _ _ (Permutation_sym P1) (or_introl eq_refl))). unfold abump. destruct red; cbn [a_irr a_red]; lia.
  - apply (perm_in _ _ _ P) in Ha. destruct Ha as [<-|Ha]; [|apply OLD; exact Ha]. cbn [a_irr a_red]. destruct red; lia.
Qed.

(** the buffer holds the long clauses and the garbage *)
Definition used_n (n : N) : N := if 3 <? n then n else 0.
Lemma buffer_len h cl vs : wf h cl vs ->
  vlen (literal_buffer cl) = garbage_size cl + sumN (map (fun a => used_n (N.of_nat (length (a_lits a)))) (aclauses cl)).
Proof.
  intros W. rewrite <- (wf_garbage _ _ _ W). f_equal. unfold aclauses. rewrite map_map. f_equal. apply map_ext_in. intros c Hc.
  rewrite (used_len _ _ (wf_slice _ _ _ W c Hc)). reflexivity.
Qed.

Lemma gc_candidates_ok old cs : forall new m, (forall c, In c cs -> slice_ok old c) ->
  vlen new + sumN (map (fun c => buffer_used (cc_lits c)) cs) <= m -> m < 2^32 ->
  exists cs' new', gc_candidates old cs new = Some (cs', new') /\ vlen new' <= vlen new + sumN (map (fun c => buffer_used (cc_lits c)) cs).
Proof.
  induction cs as [|c cs IH]; intros new m OK L M; cbn [gc_candidates]; [exists [], new; split; [reflexivity|lia]|].
  pose proof (OK c (or_introl eq_refl)) as SO. pose proof (used_len _ _ SO) as UL. destruct SO as [S SL]. rewrite S.
  change (map (fun c => buffer_used (cc_lits c)) (c :: cs)) with (buffer_used (cc_lits c) :: map (fun c => buffer_used (cc_lits c)) cs) in *.
  change (sumN (buffer_used (cc_lits c) :: map (fun c => buffer_used (cc_lits c)) cs))
    with (buffer_used (cc_lits c) + sumN (map (fun c => buffer_used (cc_lits c)) cs)) in *.
  assert (X : exists ls new1, clause_lits_new (lits_of old c) new = Some (ls, new1) /\ vlen new1 = vlen new + buffer_used (cc_lits c)).
  { unfold clause_lits_new. rewrite UL. cbv zeta. destruct (N.ltb_spec 3 (N.of_nat (length (lits_of old c)))).
    - destruct (N.ltb_spec (vlen new) (2^32)); [|lia]. eexists _, _. split; [reflexivity|]. unfold vlen. rewrite app_length. lia.
    - eexists _, _. split; [reflexivity|]. lia. }
  destruct X as (ls&new1&E1&L1). rewrite E1.
  destruct (IH new1 m (fun d H => OK d (or_intror H))) as (cs'&new'&E2&L2); [lia|exact M|]. rewrite E2. eexists _, _. split; [reflexivity|]. lia.
Qed.
Lemma gc_map_ok old mp : forall new m, (forall c, In c (flat_map snd mp) -> slice_ok old c) ->
  vlen new + sumN (map (fun c => buffer_used (cc_lits c)) (flat_map snd mp)) <= m -> m < 2^32 -> exists x, gc_map old mp new = Some x.
Proof.
  induction mp as [|[k cs] mp IH]; intros new m OK L M; cbn [gc_map]; [eauto|]. cbn [flat_map snd] in OK, L. rewrite map_app, sumN_app in L.
  destruct (gc_candidates_ok old cs new m) as (cs'&new'&E&L'); [intros c Hc; apply OK, in_or_app; auto|lia|exact M|]. rewrite E.
  destruct (IH new' m) as [[r' new2] E2]; [intros c Hc; apply OK, in_or_app; auto|lia|exact M|]. rewrite E2. eauto.
Qed.
Lemma collect_ok h cl vs : wf h cl vs -> vlen (literal_buffer cl) < 2^32 -> exists cl', collect_garbage cl = Some cl'.
Proof.
  intros W L. unfold collect_garbage. destruct (_ <=? _); [eauto|].
  destruct (gc_map_ok (literal_buffer cl) (cmap cl) [] (vlen (literal_buffer cl)) (wf_slice _ _ _ W)) as [[m new] E]; [|exact L|rewrite E; eauto].
  pose proof (wf_garbage _ _ _ W) as G. unfold allc in G. change (vlen (@nil N)) with 0. lia.
Qed.
Lemma collect_len h cl vs cl' : wf h cl vs -> collect_garbage cl = Some cl' -> vlen (literal_buffer cl') <= vlen (literal_buffer cl).
Proof.
  intros W H. destruct (collect_garbage_spec _ _ _ _ W H) as (W'&A&_). rewrite (buffer_len _ _ _ W), (buffer_len _ _ _ W'), A.
  unfold collect_garbage in H. destruct (_ <=? _); [inversion H; subst; lia|]. destruct (gc_map _ _ _) as [[m new]|]; [|discriminate].
  inversion H; subst. cbn [with_garbage garbage_size]. lia.
Qed.

Lemma ssorted_nodup l : ssorted l -> NoDup l.
Proof.
  intros H. unfold ssorted in H. induction H as [|x l S IH F]; [constructor|]. constructor; [|exact IH]. intros X. rewrite Forall_forall in F. specialize (F x X). lia.
Qed.
Lemma delete_ok h cl vs lits red : wf h cl vs -> bits_ok h -> vlen (literal_buffer cl) < 2^32 -> exists x, delete_clause h cl vs lits red = Some x.
Proof.
  intros W B L. unfold delete_clause. destruct (Nat.ltb _ 2); [eauto|].
  destruct (hash_ok h lits B) as [k HK]. rewrite HK.
  destruct (delete_candidate_spec (literal_buffer cl) lits red (bucket (cmap cl) k)
      (fun c Hc => wf_slice h cl vs W c (bucket_in_allc cl k c Hc))) as (cs'&f&x&g&DC&SP).
  rewrite DC. change (match cs' with [] => mrem (cmap cl) k | _ => mset (cmap cl) k cs' end) with (put_bucket (cmap cl) k cs').
  destruct x as [[id r']|]; [|eauto]. destruct SP as (pre&c&post&BK&LO&->&CP&SP).
  destruct r'.
  - destruct SP as (->&Q1&Q2&->).
    destruct (delete_big_drop h cl vs k _ red pre c post _ W BK eq_refl Q2 (N.add_0_r _)) as (A&_).
    destruct (collect_ok _ _ _ A L) as [cl' E]. rewrite E. eauto.
  - destruct SP as (->&->&Q1&Q2&->).
    destruct (delete_big_drop h cl vs k _ false pre c post _ W BK eq_refl (or_intror Q2) (N.add_0_r _)) as (A&_).
    destruct (collect_ok _ _ _ A L) as [cl' E]. rewrite E. eauto.
  - destruct SP as (->&Q1&Q2&->).
    assert (IC : In c (allc cl)) by (apply (bucket_in_allc cl k); rewrite BK; apply in_or_app; right; left; reflexivity).
    assert (IA : In (abs_c (literal_buffer cl) c) (aclauses cl)) by (apply in_map; exact IC).
    pose proof (wf_clause _ _ _ W _ IA) as GC. destruct (gc_lits _ _ _ GC) as (G1&_). pose proof (gc_vars _ _ _ GC) as GV. cbn [abs_c a_lits] in *. rewrite LO in *.
    destruct (count_down_some lits (lit_count vs)) as [counts CD].
    { apply ssorted_nodup. exact G1. }
    { intros l Hl. assert (V : l < vlen (lit_count vs)).
      { rewrite (wf_len_counts _ _ _ W). rewrite Forall_forall in GV. specialize (GV l Hl). change (N.div2 l < nvars vs) in GV.
        pose proof (N.div2_odd l) as D. destruct (N.odd l); cbn [N.b2n] in D; lia. }
      destruct (proj1 (vget_lt _ _) V) as [n Hn]. exists n. split; [exact Hn|]. rewrite (wf_counts _ _ _ W _ _ Hn).
      assert (In l (a_lits (abs_c (literal_buffer cl) c))) as HL by (cbn [abs_c a_lits]; rewrite LO; exact Hl).
      pose proof (count_lit_pos _ _ _ IA HL). lia. }
    rewrite CD. subst lits. destruct (delete_big_remove h cl vs k _ pre c post _ _ W BK eq_refl eq_refl CD) as (A&_).
    destruct (collect_ok _ _ _ A L) as [cl' E]. rewrite E. eauto.
Qed.

Lemma collect_cases cl cl' : collect_garbage cl = Some cl' -> cl' = cl \/ garbage_size cl' = 0.
Proof. unfold collect_garbage. destruct (_ <=? _); [intros H; inversion H; auto|]. destruct (gc_map _ _ _) as [[m new]|]; [|discriminate]. intros H; inversion H; auto. Qed.

Lemma delete_len h cl vs lits red cl' vs' x : wf h cl vs -> delete_clause h cl vs lits red = Some (cl', vs', inl x) ->
  vlen (literal_buffer cl') <= vlen (literal_buffer cl).
Proof.
  intros W H. destruct (delete_clause_spec _ _ _ _ _ _ _ _ W H) as (W'&DE&_).
  unfold delete_clause in H. destruct (Nat.ltb _ 2); [discriminate|]. destruct (hasher_hash h lits) as [k|]; [|discriminate].
  destruct (delete_candidate _ _ _ _) as [[[[cs' f] y] g]|]; [|discriminate]. destruct y as [[id r']|]; [|discriminate].
  destruct (match r' with DRemoved => _ | _ => _ end) as [counts|]; [|discriminate].
  destruct (collect_garbage _) as [cl2|] eqn:CG; [|discriminate]. inversion H; subst; clear H.
  destruct (collect_cases _ _ CG) as [->|Z]; [cbn [with_garbage with_cmap literal_buffer]; lia|].
  rewrite (buffer_len _ _ _ W'), Z, (buffer_len _ _ _ W). set (F := fun a : aclause => used_n (N.of_nat (length (a_lits a)))).
  assert (PS : forall A B : list aclause, Permutation A B -> sumN (map F A) = sumN (map F B)) by (intros A0 B0 P; apply sumN_perm, Permutation_map, P).
  inversion DE; subst; repeat match goal with P : Permutation _ _ |- _ => apply PS in P; rewrite P; clear P end; cbn [map sumN fold_right]; fold (sumN (map F B)).
  - lia.
  -     replace (F (adrop red a)) with (F a) by (unfold F, adrop; destruct red; reflexivity). lia.
Qed.

(** * Processing *)

Definition nameable (vs : variables) (l : N) : Prop := user_from_proof_var vs (lit_var l) <> None.

Lemma map_user_ok vs lits : Forall (nameable vs) lits -> map_user vs lits <> None.
Proof.
  induction lits as [|l lits IH]; intros F; cbn [map_user]; [discriminate|]. inversion F; subst. unfold nameable in *.
  destruct (user_from_proof_var vs (lit_var l)); [|congruence]. destruct (map_user vs lits); [discriminate|]. exfalso. apply IH; auto.
Qed.
Lemma sampled_nameable vs l d : vget (var_datas vs) (lit_var l) = Some d -> vd_mode d = Sample -> nameable vs l.
Proof. unfold nameable, user_from_proof_var. intros -> M. destruct (vd_user d); [discriminate|]. rewrite M. discriminate. Qed.
Lemma nameable_ext vs vs' l : vext vs vs' -> nameable vs l -> nameable vs' l.
Proof.
  intros X N. unfold nameable, user_from_proof_var in *. destruct (vget (var_datas vs) (lit_var l)) as [d|] eqn:E; [|congruence].
  rewrite (vx_old _ _ X) by (apply (vget_some_lt _ _ _ E)). rewrite E. exact N.
Qed.

Lemma process_wp c k (Q : unit -> ctx -> Prop) : (has_transcripts (c_proc c) = true -> transcript_step (c_vars c) k <> None) ->
  (forall p, has_transcripts p = has_transcripts (c_proc c) -> Q tt (with_proc c p)) -> wp (process_step c k) Q.
Proof.
  intros T H. unfold process_step. destruct (has_processors (c_proc c) && proc_fail (c_proc c) _); [exact Logic.I|].
  destruct (has_transcripts (c_proc c)) eqn:HT; [|apply H; reflexivity].
  destruct (transcript_step (c_vars c) k) as [[t|]|]; [| |exfalso; apply T; reflexivity].
  - destruct (trans_fail _ _); [exact Logic.I|]. apply H. reflexivity.
  - apply H. reflexivity.
Qed.

Lemma si_proc m c p : SI m c -> SI m (with_proc c p).
Proof. intros [I B S]. constructor; [apply inv_with_proc; exact I|exact B|exact S]. Qed.
Lemma si_state m c st : SI m c -> ssorted (s_assumptions st) -> ssorted (s_prev_lits st) -> SI m (with_state c st).
Proof. intros [I B S] H1 H2. constructor; [apply inv_state; assumption|exact B|exact S]. Qed.
Lemma si_ensure m c v : SI m c -> SI m (ctx_ensure_var c v).
Proof.
  intros [I B S]. destruct (ctx_ensure_var_spec c v I) as (A1&A2&A3&A4&A5&A6&A7&A8). constructor; [exact A1|rewrite A8; exact B|].
  eapply size_db; [exact S|apply ensure_frame|exact A2].
Qed.
Lemma si_vars m c vs : SI m c -> lit_count vs = lit_count (c_vars c) -> nvars vs = nvars (c_vars c) -> SI m (with_vars c vs).
Proof. intros [I B S] H1 H2. constructor; [apply inv_vars; assumption|exact B|exact S]. Qed.
Lemma si_skip m c : SI m c -> SI m (skip_id c).
Proof. intros [I B S]. constructor; [apply inv_skip; exact I|exact B|exact S]. Qed.

Lemma sampling_wp m lits : forall c, SI m c -> wp (ensure_sampling_vars c lits) (fun _ c' => SI m c' /\
  vext (c_vars c) (c_vars c') /\ c_proc c' = c_proc c /\ c_state c' = c_state c /\ Forall (nameable (c_vars c')) lits).
Proof.
  induction lits as [|l lits IH]; intros c S; cbn [ensure_sampling_vars].
  - cbn [wp]. split; [exact S|]. split; [apply vext_refl|]. auto.
  - apply wp_bind. unfold ensure_sampling_var. destruct (ctx_ensure_var_spec c (lit_var l) (si_inv _ _ S)) as (A1&A2&A3&A4&A5&A6&A7&A8).
    pose proof (si_ensure m c (lit_var l) S) as S1. set (c1 := ctx_ensure_var c (lit_var l)) in *. clearbody c1.
    destruct (proj1 (vget_lt (var_datas (c_vars c1)) (lit_var l)) A4) as [d V]. rewrite V.
    destruct (mode_eqb (vd_mode d) Sample) eqn:M; [|exact Logic.I]. cbn [wp]. eapply wp_weaken; [|apply IH; exact S1].
    intros _ c' (B1&B2&B3&B4&B5). split; [exact B1|]. split; [eapply vext_trans; eassumption|]. split; [congruence|]. split; [congruence|].
    constructor; [|exact B5]. apply (nameable_ext (c_vars c1)); [exact B2|]. apply (sampled_nameable _ _ d V). destruct (vd_mode d); [reflexivity|discriminate|discriminate].
Qed.

(** * Steps *)

Lemma canon_len l : (length (canon l) <= length l)%nat.
Proof.
  apply NoDup_incl_length; [apply ssorted_nodup, canonical_sorted|]. intros x Hx. apply (proj1 (canonical_in _ _)) in Hx. exact Hx.
Qed.

Definition clause_size (l : list N) : N := 1 + N.of_nat (length l).

Lemma add_clause_wp m c clause : SI m c -> lits_u32 clause -> m + clause_size clause < 2^32 ->
  (has_transcripts (c_proc c) = true -> s_unsat (c_state c) = false -> taut clause = true -> Forall (nameable (c_vars c)) clause) ->
  wp (add_clause c clause) (fun _ c' => SI (m + clause_size clause) c').
Proof.
  intros S U M G. unfold add_clause, clause_size in *. destruct (s_unsat (c_state c)) eqn:US; [apply (si_le m); [lia|exact S]|].
  rewrite canon_eq. destruct (taut clause) eqn:T.
  - apply wp_bind, process_wp.
    + intros HT. cbn [transcript_step]. assert (F : Forall (nameable (c_vars c)) (canon clause)).
      { specialize (G HT eq_refl eq_refl). rewrite Forall_forall in *. intros x Hx. apply (proj1 (canonical_in _ _)) in Hx. auto. }
      pose proof (map_user_ok _ _ F). destruct (map_user _ _); congruence.
    + intros p _. cbn [wp]. apply si_skip, si_proc. apply (si_le m); [lia|exact S].
  - apply wp_bind. eapply wp_weaken; [|apply sampling_wp; exact S]. intros _ c1 (S1&V1&P1&E1&F1).
    apply wp_bind. pose proof (canon_good _ U T) as GL. eapply wp_weaken; [|apply ctx_store_wp; [exact S1|exact GL|lia]].
    intros [id added] c2 (S2&CS). destruct (ctx_store_spec _ _ _ _ _ _ (si_inv _ _ S1) GL CS) as (I2&SE&P2&R2&H2&V2).
    assert (S3 : SI (m + (1 + N.of_nat (length clause))) c2) by (eapply si_le; [|exact S2]; pose proof (canon_len clause); lia).
    assert (F2 : Forall (nameable (c_vars c2)) (canon clause)) by (eapply Forall_impl; [|exact F1]; intros x Hx; eapply nameable_ext; eassumption).
    pose proof (map_user_ok _ _ F2) as MU.
    assert (D : forall c3, c_vars c3 = c_vars c2 -> SI (m + (1 + N.of_nat (length clause))) c3 ->
      wp (bind (process_step c3 (KDuplicatedClause (next_clause_id (c_clauses c3)) id (canon clause))) (fun _ c => ROk tt (skip_id c)))
        (fun _ c' => SI (m + (1 + N.of_nat (length clause))) c')).
    { intros c3 V3 S3'. apply wp_bind, process_wp; [intros _; cbn [transcript_step]; rewrite V3; destruct (map_user _ _); congruence|].
      intros p _. cbn [wp]. apply si_skip, si_proc, S3'. }
    destruct added.
    + apply process_wp; [intros _; cbn [transcript_step]; destruct (map_user _ _); congruence|]. intros p _. apply si_proc. exact S3.
    + apply wp_bind. cbn [wp]. apply D; [reflexivity|exact S3].
    + apply wp_bind, process_wp; [discriminate|]. intros p _. apply D; [reflexivity|apply si_proc; exact S3].
Qed.

Lemma at_clause_wp m c red clause hashes : SI m c -> lits_u32 clause -> m + clause_size clause < 2^32 ->
  wp (check_at_clause_step c red clause hashes) (fun _ c' => SI (m + clause_size clause) c').
Proof.
  intros S U M. unfold check_at_clause_step, clause_size in *. rewrite canon_eq. destruct (taut clause) eqn:T; [exact Logic.I|].
  apply wp_bind. eapply wp_weaken; [|apply check_clause_wp; exact S]. intros _ c1 (S1&_&_). apply wp_bind.
  pose proof (canon_good _ U T) as GL. eapply wp_weaken; [|apply ctx_store_wp; [exact S1|exact GL|lia]].
  intros [id added] c2 (S2&_).
  assert (S3 : SI (m + (1 + N.of_nat (length clause))) c2) by (eapply si_le; [|exact S2]; pose proof (canon_len clause); lia).
  set (c3 := if red then c2 else with_state c2 (with_prev (c_state c2) (Some id) (canon clause))).
  assert (S4 : SI (m + (1 + N.of_nat (length clause))) c3).
  { unfold c3. destruct red; [exact S3|]. apply si_state; [exact S3|apply (inv_assumptions _ (si_inv _ _ S3))|apply canonical_sorted]. }
  destruct added.
  - apply process_wp; [cbn [transcript_step]; discriminate|]. intros p _. apply si_proc, S4.
  - exact S4.
  - apply process_wp; [cbn [transcript_step]; discriminate|]. intros p _. apply si_proc, S4.
Qed.

Lemma units_wp m units : forall c, SI m c -> lits_u32 (map fst units) -> wp (check_unit_clauses_step c units) (fun _ c' => SI m c').
Proof.
  induction units as [|[l hash] units IH]; intros c S U; cbn [check_unit_clauses_step]; [exact S|]. inversion U; subst.
  pose proof (si_ensure m c (lit_var l) S) as S0. set (c0 := ctx_ensure_var c (lit_var l)) in *. clearbody c0.
  apply wp_bind. eapply wp_weaken; [|apply check_clause_wp; exact S0]. intros _ c1 (S1&RO&FV). inversion FV as [|? ? HV _]; subst.
  destruct (store_unit_ok _ (c_state c1) _ _ l (inv_wf _ (si_inv _ _ S1)) HV) as [[[st cl] [id r]] E]. rewrite E. cbn [obind].
  destruct (store_unit_spec _ _ _ _ _ _ _ _ _ (inv_wf _ (si_inv _ _ S1)) HV H1 E) as (W2&SE&LB).
  assert (S2 : SI m (with_clauses (with_state c1 st) cl)).
  { destruct S1 as [[W T SH AS PV] B [Z1 Z2]]. constructor.
    - constructor; auto; cbn [with_clauses with_state c_state]; destruct (store_eff_state _ _ _ _ _ _ _ _ SE) as [-> | ->]; assumption.
    - exact B.
    - split; cbn [with_clauses with_state c_clauses]; [rewrite LB; exact Z1|]. intros a Ha. apply Z2.
      inversion SE; subst; try (match goal with P : Permutation (aclauses cl) (aclauses _) |- _ => apply (perm_in _ _ _ P); exact Ha end);
        match goal with L : (2 <= length [_])%nat |- _ => cbn in L; lia end. }
  apply wp_bind. destruct r.
  - apply process_wp; [cbn [transcript_step]; discriminate|]. intros p _. apply IH; [apply si_proc; exact S2|assumption].
  - cbn [wp]. apply IH; [exact S2|assumption].
  - exfalso. inversion SE; subst; try discriminate; match goal with L : (2 <= length [_])%nat |- _ => cbn in L; lia end.
Qed.

Lemma satisfied_ok us lits : fit us lits -> exists x, satisfied_by us lits = Some x.
Proof.
  induction lits as [|l lits IH]; intros F; cbn [satisfied_by]; [eauto|]. inversion F; subst.
  destruct (lit_value_ok us l) as [x E]; [assumption|]. rewrite E. destruct x as [[[|] [[] ?]]|]; eauto.
Qed.

Lemma delete_step_wp m c clause proof : SI m c -> m < 2^32 ->
  (proof = DSatisfied -> Forall (fun l => lit_var l < nvars (c_vars c)) clause) ->
  wp (check_delete_clause_step c clause proof) (fun _ c' => SI m c').
Proof.
  intros S M G. unfold check_delete_clause_step. rewrite canon_eq. destruct (taut clause); [exact Logic.I|].
  apply wp_bind.
  assert (X : wp (match proof with
      | DRedundant => ROk None c
      | DSatisfied => obind (satisfied_by (unit_clauses (c_clauses c)) (canon clause)) (fun s => match s with Some id => ROk (Some id) c | None => failed c MNotSatisfied end)
      | DSimplified => if subsumed_by_previous_irred_clause (c_state c) (canon clause) then ROk (s_prev_id (c_state c)) c else failed c MNotSubsumed
      end) (fun s c' => c' = c /\ (proof <> DRedundant -> s <> None))).
  { destruct proof.
    - cbn. split; [reflexivity|congruence].
    - unfold subsumed_by_previous_irred_clause. destruct (s_prev_id (c_state c)) eqn:PI; [|exact Logic.I].
      destruct (is_subset _ _ _); [|exact Logic.I]. cbn. split; [reflexivity|congruence].
    - destruct (satisfied_ok (unit_clauses (c_clauses c)) (canon clause)) as [x E].
      + unfold fit. rewrite (wf_len_units _ _ _ (inv_wf _ (si_inv _ _ S))). specialize (G eq_refl). rewrite Forall_forall in *.
        intros y Hy. apply (proj1 (canonical_in _ _)) in Hy. auto.
      + rewrite E. cbn [obind]. destruct x; cbn; [|exact Logic.I]. split; [reflexivity|congruence]. }
  eapply wp_weaken; [|exact X]. clear X. intros s c' [-> NS].
  assert (S1 : SI m (with_state c (with_prev (c_state c) None []))).
  { apply si_state; [exact S|apply (inv_assumptions _ (si_inv _ _ S))|constructor]. }
  set (c1 := with_state c (with_prev (c_state c) None [])) in *. clearbody c1. clear S G. destruct S1 as [I1 B1 [Z1 Z2]].
  destruct (delete_ok (c_hasher c1) (c_clauses c1) (c_vars c1) (canon clause) (match proof with DRedundant => true | _ => false end) (inv_wf _ I1) B1) as [[[cl vs] r] E]; [lia|].
  rewrite E. cbn [obind]. destruct (delete_clause_spec _ _ _ _ _ _ _ _ (inv_wf _ I1) E) as (W'&DE&SU&_&_).
  destruct r as [[id del]|msg]; [|exact Logic.I].
  assert (S2 : SI m (with_vars (with_clauses c1 cl) vs)).
  { constructor; [destruct I1; constructor; assumption|exact B1|]. split; cbn [with_vars with_clauses c_clauses].
    - pose proof (delete_len _ _ _ _ _ _ _ _ (inv_wf _ I1) E). lia.
    - intros a Ha. inversion DE; subst.
      + apply Z2. match goal with P1 : Permutation (aclauses (c_clauses c1)) _, P2 : Permutation (aclauses cl) _ |- _ =>
          apply (perm_in _ _ _ (Permutation_sym P1)); right; apply (perm_in _ _ _ P2); exact Ha end.
      + match goal with P1 : Permutation (aclauses (c_clauses c1)) (?b :: _), P2 : Permutation (aclauses cl) _ |- _ =>
          apply (perm_in _ _ _ P2) in Ha; pose proof (Z2 b (perm_in _ _ _ (Permutation_sym P1) (or_introl eq_refl))) as ZB;
          destruct Ha as [<-|Ha]; [|apply Z2, (perm_in _ _ _ (Permutation_sym P1)); right; exact Ha] end.
        unfold adrop. destruct proof; cbn [a_irr a_red]; lia. }
  assert (NR : match proof with DRedundant => true | _ => false end = true -> del <> DNewlyRedundant).
  { intros RT. inversion DE; subst; rewrite ?RT in *; try discriminate. }
  destruct proof; cbn [is_red] in *.
  - destruct del; [exact S2|exfalso; apply NR; reflexivity|]. apply process_wp; [cbn [transcript_step]; discriminate|]. intros p _. apply si_proc, S2.
  - destruct s as [s|]; [|exfalso; apply NS; congruence].
    destruct del; [exact S2| |]; (apply process_wp; [cbn [transcript_step]; discriminate|]; intros p _; apply si_proc, S2).
  - destruct s as [s|]; [|exfalso; apply NS; congruence].
    destruct del; [exact S2| |]; (apply process_wp; [cbn [transcript_step]; discriminate|]; intros p _; apply si_proc, S2).
Qed.

Lemma lit_from_var_32 v b : lit_from_var v b < 2^32.
Proof.
  unfold lit_from_var. pose proof (N.mod_lt (N.shiftl v 1) (2^32)) as L. fold (u32 (N.shiftl v 1)) in L. specialize (L ltac:(discriminate)).
  assert (E : u32 (N.shiftl v 1) = 2 * (v mod 2^31)).
  { unfold u32. rewrite N.shiftl_mul_pow2. change (2^1) with 2. change (2^32) with (2 * 2^31). rewrite (N.mul_comm v 2), N.mul_mod_distr_l by discriminate. reflexivity. }
  rewrite E in *. destruct b; [rewrite N.lor_0_r; exact L|]. rewrite lor_even_1. change (2^32) with (2 * 2^31) in *. lia.
Qed.
Lemma lit_from_var_fits v b n : v < n -> lit_from_var v b < 2 * n.
Proof.
  intros H. destruct (N.ltb_spec v (2^31)).
  - rewrite lit_from_var_31 by assumption. destruct b; lia.
  - pose proof (lit_from_var_32 v b). change (2^32) with (2 * 2^31) in *. lia.
Qed.

Lemma delete_var_wp m c v : SI m c -> wp (check_delete_var_step c v) (fun _ c' => SI m c').
Proof.
  intros S. unfold check_delete_var_step. destruct (ctx_ensure_var_spec c v (si_inv _ _ S)) as (A1&A2&A3&A4&A5&A6&A7&A8).
  pose proof (si_ensure m c v S) as S1. set (c1 := ctx_ensure_var c v) in *. clearbody c1. clear A2 A3 A5 A6 A7 A8 S.
  destruct (proj1 (vget_lt (var_datas (c_vars c1)) v) A4) as [d V]. rewrite V. cbn [obind]. destruct (vd_user d); [exact Logic.I|].
  pose proof (wf_len_counts _ _ _ (inv_wf _ A1)) as LC.
  destruct (proj1 (vget_lt (lit_count (c_vars c1)) (lit_from_var v false))) as [n0 N0]; [rewrite LC; apply lit_from_var_fits; exact A4|].
  destruct (proj1 (vget_lt (lit_count (c_vars c1)) (lit_from_var v true))) as [n1 N1]; [rewrite LC; apply lit_from_var_fits; exact A4|].
  rewrite N0, N1. cbn [obind]. destruct (N.ltb_spec 0 n0) as [|Z0]; [exact Logic.I|]. destruct (N.ltb_spec 0 n1) as [|Z1]; [exact Logic.I|].
  destruct (proj1 (vget_lt (unit_clauses (c_clauses c1)) v)) as [u HU]; [rewrite (wf_len_units _ _ _ (inv_wf _ A1)); exact A4|].
  rewrite HU. cbn [obind]. apply wp_bind.
  assert (FIN : forall c2, SI m c2 -> SI m (with_vars c2 (Variables (lit_count (c_vars c2)) (vset (var_datas (c_vars c2)) v vd_default) (used_user_vars (c_vars c2))))).
  { intros c2 S2. apply si_vars; [exact S2|reflexivity|]. unfold nvars. cbn [var_datas]. apply vset_len. }
  destruct u as [u|]; [|cbn [wp]; apply FIN; exact S1].
  assert (UO : unit_of (c_clauses c1) v = Some u) by (unfold unit_of; rewrite HU; reflexivity).
  destruct (wf_units _ _ _ (inv_wf _ A1) v u UO) as (L31&id&E&LT). rewrite E. apply wp_bind, process_wp; [cbn [transcript_step]; discriminate|].
  intros p _. cbn [wp]. apply FIN. cbn [with_proc c_clauses with_clauses].
  pose proof (si_proc m c1 p S1) as [[W T SH AS PV] B Z]. constructor; [constructor; auto|exact B|exact Z].
  cbn [with_clauses with_proc c_clauses c_hasher c_vars] in *. apply (wf_same_clauses _ (c_clauses c1) (c_vars c1)); auto; cbn [with_units next_clause_id unit_clauses]; try lia.
  - apply vset_len.
  - destruct u as [i b]. cbn [uc_id] in E. subst i. pose proof (unit_ids_remove _ _ _ _ HU) as PU.
    pose proof (wf_ids _ _ _ W) as ND. apply (Permutation_NoDup (Permutation_app_head _ (Permutation_sym PU))) in ND.
    apply NoDup_remove_1 in ND. exact ND.
  - intros w x Hx. assert (LV : v < vlen (unit_clauses (c_clauses c1))) by (rewrite (wf_len_units _ _ _ W); exact A4).
    rewrite (unit_of_set (c_clauses c1) v None w LV) in Hx. destruct (v =? w); [discriminate|]. apply (wf_units _ _ _ W w x Hx).
Qed.

Lemma add_user_wp m c g n : SI m c -> wp (add_user_mapping c g n) (fun _ c' => SI m c').
Proof.
  intros S. unfold add_user_mapping. destruct (ctx_ensure_var_spec c g (si_inv _ _ S)) as (A1&A2&A3&A4&A5&A6&A7&A8).
  pose proof (si_ensure m c g S) as S1. set (c1 := ctx_ensure_var c g) in *. clearbody c1.
  destruct (_ || _); [exact Logic.I|]. destruct (proj1 (vget_lt (var_datas (c_vars c1)) g) A4) as [d V]. rewrite V.
  destruct (mode_eqb _ _); [exact Logic.I|]. destruct (vd_user d); [exact Logic.I|].
  apply process_wp; [intros _; cbn [transcript_step]; destruct (mode_eqb _ _); discriminate|]. intros p _. apply si_proc, si_vars; [exact S1|reflexivity|].
  unfold nvars. cbn [var_datas]. apply vset_len.
Qed.
Lemma remove_user_wp m c g : SI m c -> wp (remove_user_mapping c g) (fun _ c' => SI m c').
Proof.
  intros S. unfold remove_user_mapping. destruct (ctx_ensure_var_spec c g (si_inv _ _ S)) as (A1&A2&A3&A4&A5&A6&A7&A8).
  pose proof (si_ensure m c g S) as S1. set (c1 := ctx_ensure_var c g) in *. clearbody c1.
  destruct (proj1 (vget_lt (var_datas (c_vars c1)) g) A4) as [d V]. rewrite V. destruct (vd_user d) eqn:VU; [|exact Logic.I].
  apply wp_bind, process_wp.
  - intros _. cbn [transcript_step]. unfold user_from_proof_var. rewrite V, VU. discriminate.
  - intros p _. cbn [wp with_proc c_vars]. apply si_vars; [apply si_proc; exact S1|reflexivity|]. unfold nvars. cbn [var_datas with_proc c_vars]. apply vset_len.
Qed.
Lemma mode_wp m c v sample : SI m c -> wp (check_change_sampling_mode c v sample) (fun _ c' => SI m c').
Proof.
  intros S. unfold check_change_sampling_mode. destruct (ctx_ensure_var_spec c v (si_inv _ _ S)) as (A1&A2&A3&A4&A5&A6&A7&A8).
  pose proof (si_ensure m c v S) as S1. set (c1 := ctx_ensure_var c v) in *. clearbody c1.
  destruct (proj1 (vget_lt (var_datas (c_vars c1)) v) A4) as [d V]. rewrite V. cbn [obind].
  assert (S2 : forall d', SI m (with_vars c1 (Variables (lit_count (c_vars c1)) (vset (var_datas (c_vars c1)) v d') (used_user_vars (c_vars c1))))).
  { intros d'. apply si_vars; [exact S1|reflexivity|]. unfold nvars. cbn [var_datas]. apply vset_len. }
  destruct (mode_eqb _ _); [exact S1|]. destruct (vd_user d).
  - apply process_wp; [intros _; cbn [transcript_step]; destruct sample; discriminate|]. intros p _. apply si_proc, S2.
  - destruct sample; [exact Logic.I|]. apply S2.
Qed.

Lemma model_lits_ok us model : forall assigned, fit us model -> exists x, model_lits us assigned model = Some x.
Proof.
  induction model as [|l model IH]; intros assigned F; cbn [model_lits]; [eauto|]. inversion F; subst.
  destruct (lit_value_ok us l) as [x E]; [assumption|]. rewrite E. destruct x as [[[|] u]|]; eauto; destruct (existsb _ _); eauto.
Qed.
Lemma model_clauses_ok buf assigned cs : (forall c, In c cs -> slice_ok buf c) -> exists b, model_clauses buf assigned cs = Some b.
Proof.
  induction cs as [|c cs IH]; intros OK; cbn [model_clauses]; [eauto|]. destruct (OK c (or_introl eq_refl)) as [E _]. rewrite E.
  destruct (existsb _ _); [|eauto]. apply IH. intros d Hd. apply OK. right. exact Hd.
Qed.
Lemma model_wp m c model : SI m c -> Forall (fun l => lit_var l < nvars (c_vars c)) model ->
  wp (check_model_step c model) (fun _ c' => SI m c').
Proof.
  intros S F. unfold check_model_step. pose proof (inv_wf _ (si_inv _ _ S)) as W.
  destruct (model_lits_ok (unit_clauses (c_clauses c)) model []) as [x E]; [unfold fit; rewrite (wf_len_units _ _ _ W); exact F|].
  rewrite E. cbn [obind]. destruct x as [assigned|]; [|exact Logic.I]. destruct (negb _); [exact Logic.I|].
  destruct (model_clauses_ok (literal_buffer (c_clauses c)) assigned (flat_map snd (cmap (c_clauses c))) (wf_slice _ _ _ W)) as [b EB].
  rewrite EB. cbn [obind]. destruct b; [|exact Logic.I]. apply process_wp; [cbn [transcript_step]; discriminate|]. intros p _. apply si_proc, S.
Qed.

Definition safe_core (c : ctx) (core : list N) : Prop :=
  Forall (fun l => nameable (c_vars c) l \/ (taut core = false /\ nvars (c_vars c) <= lit_var l)) core.
Lemma failed_wp m c core hashes : SI m c -> (has_transcripts (c_proc c) = true -> safe_core c core) ->
  wp (check_failed_assumptions_step c core hashes) (fun _ c' => SI m c').
Proof.
  intros S G. unfold check_failed_assumptions_step. rewrite canon_eq. destruct (negb _); [exact Logic.I|].
  assert (FIN : forall c1, SI m c1 -> vext (c_vars c) (c_vars c1) -> c_proc c1 = c_proc c ->
    (taut core = false -> Forall (fun l => lit_var l < nvars (c_vars c1)) (canon core)) ->
    wp (process_step c1 (KFailedAssumptions (canon core) (r_trace_ids (c_rup c1)))) (fun _ c' => SI m c')).
  { intros c1 S1 V1 P1 FV. apply process_wp; [|intros p _; apply si_proc, S1]. intros HT. rewrite P1 in HT. cbn [transcript_step].
    assert (F : Forall (nameable (c_vars c1)) (canon core)).
    { specialize (G HT). unfold safe_core in G. rewrite Forall_forall in G. apply Forall_forall. intros x Hx. destruct (G x (proj1 (canonical_in _ _) Hx)) as [N|[T L]].
      - eapply nameable_ext; eassumption.
      - specialize (FV T). rewrite Forall_forall in FV. specialize (FV x Hx).
        apply (sampled_nameable _ _ vd_default); [apply (vx_fresh _ _ V1); assumption|reflexivity]. }
    pose proof (map_user_ok _ _ F). destruct (map_user _ _); congruence. }
  apply wp_bind. destruct (taut core) eqn:T.
  - cbn [wp]. apply FIN; [|apply vext_refl|reflexivity|discriminate]. destruct S as [[W TR SH AS PV] B Z]. constructor; [constructor; auto|exact B|exact Z].
  - eapply wp_weaken; [|apply check_clause_wp; exact S]. intros _ c1 (S1&RO&FV). apply FIN; [exact S1|apply RO|apply RO|]. intros _.
    rewrite Forall_forall in *. intros x Hx. specialize (FV (lnot x) (in_map _ _ _ Hx)). rewrite lnot_var in FV. exact FV.
Qed.

(** * All steps *)

Definition event_size (e : event) : N :=
  match e with Load l | Step (AddClause l) | Step (AtClause _ l _) => clause_size l | _ => 0 end.

Definition safe_add (c : ctx) (clause : list N) : Prop :=
  has_transcripts (c_proc c) = true -> s_unsat (c_state c) = false -> taut clause = true -> Forall (nameable (c_vars c)) clause.
Definition safe_event (c : ctx) (e : event) : Prop :=
  match e with
  | Load l | Step (AddClause l) => safe_add c l
  | Step (ChangeHashBits b) => 1 <= b /\ b <= 64
  | Step (Model l) | Step (DeleteClause l DSatisfied) => Forall (fun l => lit_var l < nvars (c_vars c)) l
  | Step (FailedAssumptions core _) => has_transcripts (c_proc c) = true -> safe_core c core
  | _ => True
  end.

Lemma exec_wp m c e : SI m c -> event_u32 e -> m + event_size e < 2^32 -> safe_event c e ->
  wp (exec c e) (fun _ c' => SI (m + event_size e) c').
Proof.
  intros S U M G. destruct e as [cl|s]; cbn [exec event_u32 event_size safe_event] in *; [apply add_clause_wp; assumption|].
  unfold self_check_step.
  assert (S1 : SI m (with_state c (with_step (c_state c) (s_step (c_state c) + 1)))).
  { apply si_state; [exact S|apply (inv_assumptions _ (si_inv _ _ S))|apply (inv_prev _ (si_inv _ _ S))]. }
  assert (EC : forall P, P (c_vars c) -> P (c_vars (with_state c (with_step (c_state c) (s_step (c_state c) + 1))))) by (intros P HP; exact HP).
  destruct s; cbn [check_step step_u32] in *; rewrite ?N.add_0_r in *.
  - cbn [wp]. destruct S1 as [[W T SH AS PV] B Z]. constructor; [|exact B|exact Z]. constructor; auto.
    destruct W; constructor; auto.
  - destruct user; [apply add_user_wp|apply remove_user_wp]; exact S1.
  - apply delete_var_wp. exact S1.
  - apply mode_wp. exact S1.
  - apply add_clause_wp; auto.
  - apply at_clause_wp; auto.
  - apply units_wp; auto.
  - apply delete_step_wp; [exact S1|lia|]. intros ->. exact G.
  - destruct S1 as [[W T SH AS PV] B [Z1 Z2]]. cbn [with_state c_hasher c_clauses] in *.
    set (h1 := Hasher bits _ _ _ _ _).
    destruct (rehash_ok h1 (c_hasher c) (c_clauses c) (c_vars c) W) as (h'&cl'&E); [exact SH|exact G|]. rewrite E. cbn [obind wp].
    destruct (rehash_spec h1 (c_hasher c) (c_clauses c) (c_vars c) h' cl' W SH E) as (W'&P&SU&SH'&HB&_). destruct (rehash_frame _ _ _ _ E) as (F1&F2&_).
    constructor; [constructor; auto| |].
    + cbn. unfold bits_ok. rewrite F2. exact G.
    + split; cbn [with_clauses c_clauses]; [rewrite F1; exact Z1|]. intros a Ha. apply Z2. apply (perm_in _ _ _ P). exact Ha.
  - apply model_wp; auto.
  - apply wp_bind. eapply wp_weaken; [|apply sampling_wp; exact S1]. intros _ c1 (S2&V2&P2&E2&F2).
    apply process_wp.
    + intros _. cbn [transcript_step with_state c_state with_assumptions s_assumptions c_vars].
      assert (F : Forall (nameable (c_vars c1)) (canon assumptions)).
      { rewrite Forall_forall in *. intros x Hx. apply (proj1 (canonical_in _ _)) in Hx. auto. }
      pose proof (map_user_ok _ _ F). unfold canon in *. destruct (map_user _ _); congruence.
    + intros p _. apply si_proc, si_state; [exact S2|apply canonical_sorted|apply (inv_prev _ (si_inv _ _ S2))].
  - apply failed_wp; auto.
  - cbn [wp]. apply si_state; [exact S1|apply (inv_assumptions _ (si_inv _ _ S))|apply (inv_prev _ (si_inv _ _ S))].
Qed.

Definition history_size (es : list event) : N := sumN (map event_size es).
Definition bits_event (e : event) : Prop := match e with Step (ChangeHashBits b) => 1 <= b /\ b <= 64 | _ => True end.

(** ** Accepted events are safe *)
Lemma map_user_inv vs lits l : map_user vs lits = Some l -> Forall (nameable vs) lits.
Proof.
  revert l. induction lits as [|x lits IH]; intros l H; [constructor|]. cbn [map_user] in H. unfold nameable.
  destruct (user_from_proof_var vs (lit_var x)) eqn:E; [|discriminate]. destruct (map_user vs lits); [|discriminate].
  constructor; [congruence|eapply IH; reflexivity].
Qed.
Lemma process_inv c k u c' : process_step c k = ROk u c' -> has_transcripts (c_proc c) = true -> transcript_step (c_vars c) k <> None.
Proof.
  unfold process_step. intros H T. destruct (_ && _); [discriminate|]. rewrite T in H. destruct (transcript_step (c_vars c) k); [congruence|discriminate].
Qed.
Lemma canon_forall (P : N -> Prop) l : Forall P (canon l) -> Forall P l.
Proof. rewrite !Forall_forall. intros H x Hx. apply H. apply (proj2 (canonical_in _ _)). exact Hx. Qed.

Lemma add_accepted c clause u c' : add_clause c clause = ROk u c' -> safe_add c clause.
Proof.
  intros H HT US T. unfold add_clause in H. rewrite US, canon_eq, T in H.
  destruct (process_step _ _) as [[] c1| |] eqn:P; try discriminate. pose proof (process_inv _ _ _ _ P HT) as X. cbn [transcript_step] in X.
  apply canon_forall. destruct (map_user _ _) eqn:E; [|congruence]. eapply map_user_inv. exact E.
Qed.
Lemma model_lits_inv us model : forall assigned x, model_lits us assigned model = Some (inl x) -> fit us model.
Proof.
  induction model as [|l model IH]; intros assigned x H; [constructor|]. cbn [model_lits] in H. rewrite lit_value_get in H.
  destruct (vget us (lit_var l)) as [o|] eqn:V; [|discriminate]. constructor; [eapply vget_some_lt; exact V|].
  destruct o as [w|]; [destruct (xorb _ _); [|discriminate]|]; (destruct (existsb _ _); [discriminate|]); eapply IH; exact H.
Qed.

Lemma exec_safe c e u c' : Inv c -> event_u32 e -> exec c e = ROk u c' -> bits_event e -> safe_event c e.
Proof.
  intros I U H B. destruct e as [cl|s]; cbn [safe_event bits_event] in *; [apply (add_accepted _ _ _ _ H)|].
  destruct s; cbn [bits_event] in B; try exact Logic.I; try exact B.
  - apply (add_accepted _ _ _ _ H).
  - destruct proof; try exact Logic.I.
    destruct (exec_spec c _ _ _ I U H) as [_ T]. cbn [tr step_eff] in T. destruct T as [id r T DE _ _ _ _ _].
    change (c_clauses (next_step c)) with (c_clauses c) in DE. apply canon_forall.
    assert (X : exists a, In a (aclauses (c_clauses c)) /\ a_lits a = canon clause).
    { inversion DE; subst; exists a; (split; [match goal with P : Permutation (aclauses (c_clauses c)) _ |- _ => apply (perm_in _ _ _ (Permutation_sym P)); left; reflexivity end|assumption]). }
    destruct X as (a&A1&<-). apply (gc_vars _ _ _ (wf_clause _ _ _ (inv_wf _ I) a A1)).
  - cbn [exec] in H. unfold self_check_step in H. cbn [check_step] in H. unfold check_model_step in H. cbn [with_state c_clauses] in H.
    destruct (model_lits _ _ _) as [[x|]|] eqn:ML; try discriminate. apply model_lits_inv in ML. unfold fit in ML. rewrite (wf_len_units _ _ _ (inv_wf _ I)) in ML. exact ML.
  - intros HT. cbn [exec] in H. unfold self_check_step in H. cbn [check_step] in H. unfold check_failed_assumptions_step in H. rewrite canon_eq in H.
    cbn [with_state c_state c_rup] in H. destruct (negb _); [discriminate|]. unfold safe_core. destruct (taut failed_core) eqn:T.
    + cbn [bind] in H. pose proof (process_inv _ _ _ _ H HT) as X. cbn [transcript_step with_rup with_state c_vars] in X.
      destruct (map_user _ _) eqn:E; [|congruence]. apply map_user_inv in E. apply canon_forall in E. eapply Forall_impl; [|exact E]. auto.
    + set (c0 := with_state c _) in *. assert (I0 : Inv c0).
      { apply inv_state; [exact I|apply (inv_assumptions _ I)|apply (inv_prev _ I)]. }
      pose proof (check_clause_spec c0 (map lnot (canon failed_core)) propagation_hashes I0) as CC.
      destruct (check_clause_with_hashes c0 _ _) as [[] c1| |]; try discriminate. destruct CC as (_&RO&_). cbn [bind] in H.
      assert (HT1 : has_transcripts (c_proc c1) = true) by (rewrite (ro_proc _ _ _ RO); exact HT).
      pose proof (process_inv _ _ _ _ H HT1) as X. cbn [transcript_step] in X. destruct (map_user _ _) eqn:E; [|congruence].
      apply map_user_inv in E. apply canon_forall in E. eapply Forall_impl; [|exact E]. intros y Hl.
      destruct (N.leb_spec (nvars (c_vars c)) (lit_var y)) as [L|L]; [right; auto|left].
      unfold nameable, user_from_proof_var in *. rewrite (vx_old _ _ (ro_vars _ _ _ RO)) in Hl by exact L. exact Hl.
Qed.

Lemma si_run es : forall m c c' u, SI m c -> Forall event_u32 es -> Forall bits_event es -> m + history_size es < 2^32 ->
  run c es = ROk u c' -> SI (m + history_size es) c'.
Proof.
  induction es as [|e es IH]; intros m c c' u S U B M H; cbn [run] in H.
  - inversion H; subst. unfold history_size. cbn. rewrite N.add_0_r. exact S.
  - inversion U; subst. inversion B; subst. change (history_size (e :: es)) with (event_size e + history_size es) in *.
    pose proof (exec_safe c e) as ES. pose proof (exec_wp m c e S) as EW. destruct (exec c e) as [[] c1| |]; try discriminate. cbn [bind] in H.
    rewrite N.add_assoc. apply (IH _ _ _ _ ltac:(apply EW; auto; [lia|apply (ES tt c1); auto; apply (si_inv _ _ S)])) in H; auto. lia.
Qed.
Lemma new_si p t pf tf sh : (forall n l, Permutation (sh n l) l) -> SI 0 (checker_new p t pf tf sh).
Proof.
  intros S. constructor; [apply new_inv; exact S|unfold bits_ok; cbn; lia|]. split; [cbn; lia|]. intros a [].
Qed.
