(** The checker accepts every derivation by unit propagation whose clauses are stored. *)
From Coq Require Import Arith ZArith ZifyBool ZifyNat ZifyN Permutation Sorted.
From Verif Require Import Spec Lit LitProofs Vec SortedLits SortedLitsProofs Hash HashProofs Vli BinFormat Checker CheckerStore CheckerInv CheckerOps CheckerRup CheckerSteps CheckerRun CheckerCount CheckerSafe CheckerNames CheckerUsers Rup.

(** * Unit propagation finds what it can find *)

Definition true_in (us : list (option unit_clause)) (l : N) : Prop := val us (lit_var l) = Some (is_positive l).
Definition false_in (us : list (option unit_clause)) (l : N) : Prop := val us (lit_var l) = Some (is_negative l).

Lemma true_false us l : true_in us (lnot l) <-> false_in us l.
Proof. unfold true_in, false_in. rewrite lnot_var, is_pos_neg, lnot_sign, negb_involutive. reflexivity. Qed.
Lemma true_not_false us l : true_in us l -> false_in us l -> False.
Proof. unfold true_in, false_in. rewrite is_pos_neg. destruct (is_negative l); cbn; congruence. Qed.

Lemma lit_value_val us l : lit_value us l = match vget us (lit_var l) with
    | None => None | Some None => Some None | Some (Some u) => Some (Some (xorb (uc_value u) (is_negative l), u)) end.
Proof. apply lit_value_get. Qed.

(** With one open literal *)
Lemma rup_lits_open lits l : forall r count un r' s count' un', NoDup lits ->
  (forall x, In x lits -> x = l \/ false_in (rs_units r) x) -> val (rs_units r) (lit_var l) = None ->
  rup_lits r lits count un = Some (r', s, count', un') ->
  s = false /\ (In l lits -> count' = count + 1 /\ un' = Some l) /\ (~ In l lits -> count' = count /\ un' = un).
Proof.
  induction lits as [|y lits IH]; intros r count un r' s count' un' ND H V E; cbn [rup_lits] in E.
  { inversion E; subst. split; [reflexivity|]. split; [intros []|auto]. }
  inversion ND as [|? ? NI ND']; subst. rewrite lit_value_val in E.
  assert (HF : forall x, In x lits -> x = l \/ false_in (rs_units r) x) by (intros; apply H; right; assumption).
  destruct (H y (or_introl eq_refl)) as [->|F].
  - destruct (vget (rs_units r) (lit_var l)) as [[u|]|] eqn:G; [unfold val in V; rewrite G in V; discriminate| |discriminate].
    destruct (IH _ _ _ _ _ _ _ ND' HF V E) as (A & _ & B). split; [exact A|]. destruct (B NI) as [-> ->].
    split; [auto|]. intros X. destruct X. left. reflexivity.
  - unfold false_in, val in F. destruct (vget (rs_units r) (lit_var y)) as [[u|]|] eqn:G; [|discriminate|discriminate].
    inversion F as [Fu]. rewrite Fu, xorb_nilpotent in E.
    assert (NE : lit_var y <> lit_var l) by (intros X; unfold val in V; rewrite <- X, G in V; discriminate).
    assert (REST : forall r1, (forall v, val (rs_units r1) v = val (rs_units r) v) -> rup_lits r1 lits count un = Some (r', s, count', un') ->
      s = false /\ (In l (y :: lits) -> count' = count + 1 /\ un' = Some l) /\ (~ In l (y :: lits) -> count' = count /\ un' = un)).
    { intros r1 VV E1. destruct (fun a b => IH r1 _ _ _ _ _ _ ND' a b E1) as (A & B & C).
      - intros x Hx. destruct (HF x Hx) as [|X]; [left; assumption|right]. unfold false_in in *. rewrite VV. exact X.
      - rewrite VV. exact V.
      - split; [exact A|]. split; [intros [->|Hl]; [congruence|auto]|intros X; apply C; intros Y; apply X; right; exact Y]. }
    destruct (uc_id u) as [id| |]; [|apply (REST _ (fun _ => eq_refl) E)|apply (REST _ (fun _ => eq_refl) E)].
    destruct (rup_assign r y _) as [r1|] eqn:AS; [|discriminate]. refine (REST _ _ E). intros v. cbn [rup_trace rs_units].
    rewrite (assign_val _ _ _ _ AS). destruct (N.eqb_spec (lit_var y) v) as [<-|]; [|reflexivity]. unfold val. rewrite G. cbn [uc_value]. congruence.
Qed.

Definition keeps_val (a b : list (option unit_clause)) : Prop := forall v x, val a v = Some x -> val b v = Some x.
Lemma keeps_val_trans a b c : keeps_val a b -> keeps_val b c -> keeps_val a c.
Proof. intros A B v x H. auto. Qed.
Lemma keeps_true a b l : keeps_val a b -> true_in a l -> true_in b l.
Proof. intros A H. apply A. exact H. Qed.
Lemma keeps_false a b l : keeps_val a b -> false_in a l -> false_in b l.
Proof. intros A H. apply A. exact H. Qed.

Lemma candidates_keep buf cs : forall r r' b, rup_candidates buf r cs = Some (r', b) -> keeps_val (rs_units r) (rs_units r').
Proof.
  induction cs as [|d cs IH]; intros r r' b H; [inversion H; subst; intros v x; auto|].
  pose proof H as H0. cbn [rup_candidates] in H0. destruct (slice (cc_lits d) buf) as [ls|] eqn:SL; [|discriminate]. 
  destruct (rup_lits r ls 0 None) as [[[[r1 s] n] un]|] eqn:RL; [|discriminate]. destruct (rup_lits_val _ _ _ _ _ _ _ _ RL) as [V1 V2].
  assert (K1 : keeps_val (rs_units r) (rs_units r1)) by (intros v x Hv; rewrite V1; exact Hv).
  destruct s; [apply (keeps_val_trans _ _ _ K1 (IH _ _ _ H0))|]. destruct un as [l|].
  - destruct (n =? 1); [|apply (keeps_val_trans _ _ _ K1 (IH _ _ _ H0))]. destruct (rup_assign r1 l _) as [r2|] eqn:AS; [|discriminate].
    refine (keeps_val_trans _ _ _ K1 (keeps_val_trans _ _ _ _ (IH _ _ _ H0))). intros v x Hv. cbn [rup_trace rs_units]. rewrite (assign_val _ _ _ _ AS).
    destruct (N.eqb_spec (lit_var l) v) as [<-|]; [|exact Hv]. exfalso. rewrite V1 in Hv. destruct (V2 l eq_refl); congruence.
  - inversion H0; subst. exact K1.
Qed.
Lemma candidates_unit buf D l cs : forall r r' c, In c cs -> slice (cc_lits c) buf = Some D -> NoDup D -> In l D ->
  (forall x, In x D -> x = l \/ false_in (rs_units r) x) -> rup_candidates buf r cs = Some (r', false) -> true_in (rs_units r') l.
Proof.
  induction cs as [|d cs IH]; intros r r' c Hc SD ND Hl HF H; [destruct Hc|].
  pose proof H as H0. cbn [rup_candidates] in H0. destruct (slice (cc_lits d) buf) as [ls|] eqn:SL; [|discriminate].
  destruct (rup_lits r ls 0 None) as [[[[r1 s] n] un]|] eqn:RL; [|discriminate]. destruct (rup_lits_val _ _ _ _ _ _ _ _ RL) as [V1 V2].
  assert (K1 : keeps_val (rs_units r) (rs_units r1)) by (intros v x Hv; rewrite V1; exact Hv).
  destruct Hc as [->|Hc].
  - rewrite SD in SL. inversion SL; subst ls.
    assert (KC : forall r2, rup_candidates buf r2 cs = Some (r', false) -> true_in (rs_units r2) l -> true_in (rs_units r') l).
    { intros r2 E T. eapply keeps_true; [eapply candidates_keep; exact E|exact T]. }
    destruct (val (rs_units r) (lit_var l)) as [b|] eqn:VL.
    + destruct (Bool.eqb b (is_positive l)) eqn:EB; [apply eqb_prop in EB; subst b; eapply keeps_true; [eapply candidates_keep; exact H|exact VL]|].
      exfalso. assert (FL : false_lits (rs_units r) D).
      { apply Forall_forall. intros x Hx. destruct (HF x Hx) as [->|X]; [|exact X]. rewrite VL, is_pos_neg in *. destruct b, (is_negative l); cbn in EB; congruence. }
      destruct (rup_lits_false _ _ _ _ _ _ _ _ FL RL) as [-> ->]. discriminate.
    + destruct (rup_lits_open _ l _ _ _ _ _ _ _ ND HF VL RL) as (-> & A & _). destruct (A Hl) as [-> ->]. cbn in H0.
      destruct (rup_assign r1 l _) as [r2|] eqn:AS; [|discriminate]. apply (KC _ H0). cbn [rup_trace rs_units]. unfold true_in.
      rewrite (assign_val _ _ _ _ AS), N.eqb_refl. reflexivity.
  - assert (REST : forall r2, keeps_val (rs_units r1) (rs_units r2) -> rup_candidates buf r2 cs = Some (r', false) -> true_in (rs_units r') l).
    { intros r2 K2 E. apply (IH r2 r' c Hc SD ND Hl); [|exact E]. intros x Hx. destruct (HF x Hx) as [|X]; [left; assumption|right].
      eapply keeps_false; [exact K2|]. eapply keeps_false; [exact K1|exact X]. }
    destruct s; [apply (REST r1); [intros v x Hv; exact Hv|exact H0]|]. destruct un as [y|]; [|discriminate].
    destruct (n =? 1); [|apply (REST r1); [intros v x Hv; exact Hv|exact H0]]. destruct (rup_assign r1 y _) as [r2|] eqn:AS; [|discriminate].
    refine (REST _ _ H0). intros v x Hv. cbn [rup_trace rs_units]. rewrite (assign_val _ _ _ _ AS).
    destruct (N.eqb_spec (lit_var y) v) as [<-|]; [|exact Hv]. exfalso. rewrite V1 in Hv. destruct (V2 y eq_refl); congruence.
Qed.

(** All the hashes *)
Lemma hashes_complete m buf (key : list N -> N) K cs : rup K cs -> forall r r' res,
  (forall D, In D cs -> NoDup D /\ exists c, In c (bucket m (key D)) /\ slice (cc_lits c) buf = Some D) ->
  (forall x, In x K -> true_in (rs_units r) x) ->
  rup_hashes m buf r (map key cs) = Some (r', res) -> res = RupConflict.
Proof.
  induction 1 as [K D rest HD|K D l rest Il HD R IH]; intros r r' res ST HK H; cbn [map rup_hashes] in H.
  - destruct (ST D (or_introl eq_refl)) as (_ & c & Hc & SL). destruct (bucket m (key D)) as [|c0 cs0] eqn:BK; [destruct Hc|].
    rewrite <- BK in *. destruct (rup_candidates buf r (bucket m (key D))) as [[r1 b]|] eqn:RC; [|discriminate].
    assert (b = true) as ->; [|inversion H; reflexivity].
    refine (rup_candidates_hit buf D _ _ _ _ c _ Hc _ RC); [|unfold lits_of; rewrite SL; reflexivity].
    apply Forall_forall. intros x Hx. apply true_false. auto.
  - destruct (ST D (or_introl eq_refl)) as (ND & c & Hc & SL). destruct (bucket m (key D)) as [|c0 cs0] eqn:BK; [destruct Hc|].
    rewrite <- BK in *. destruct (rup_candidates buf r (bucket m (key D))) as [[r1 b]|] eqn:RC; [|discriminate].
    destruct b; [inversion H; reflexivity|]. apply (IH r1 r' res); [intros; apply ST; right; assumption| |exact H].
    intros x [<-|Hx]; [|eapply keeps_true; [eapply candidates_keep; exact RC|auto]].
    eapply (candidates_unit buf D l); [exact Hc|exact SL|exact ND|exact Il| |exact RC].
    intros x Hx. destruct (HD x Hx) as [|X]; [left; assumption|right]. apply true_false. auto.
Qed.

Lemma true_lit_none us lits : fit us lits -> rup_true_lit us lits = Some None -> forall l, In l lits -> ~ true_in us l.
Proof.
  induction lits as [|y lits IH]; intros F H l Hl; [destruct Hl|]. cbn [rup_true_lit] in H. inversion F as [|? ? F1 F2]; subst.
  rewrite lit_value_val in H. unfold true_in, val. destruct Hl as [->|Hl].
  - destruct (vget us (lit_var l)) as [[u|]|]; [|discriminate|discriminate]. rewrite is_pos_neg.
    destruct (uc_value u) eqn:U, (is_negative l); cbn [xorb negb] in *; try congruence; destruct (uc_id u); discriminate.
  - apply IH; [exact F2| |exact Hl]. destruct (vget us (lit_var y)) as [[u|]|]; [|exact H|discriminate].
    destruct (xorb _ _); [destruct (uc_id u); discriminate|exact H].
Qed.

(** [check_clause_with_hashes] *)
Lemma check_complete m c lits cs K : SI m c -> flag_ok (c_hasher c) -> (forall l, In l lits -> ~ In (lnot l) lits) ->
  (forall D, In D cs -> In D (map a_lits (aclauses (c_clauses c))) /\ forall l, In l D -> settled (c_hasher c) (lit_var l)) ->
  (forall x, In x K -> In (lnot x) lits \/ holds_unit (c_clauses c) x) -> rup K cs ->
  exists c', check_clause_with_hashes c lits (map (clause_key (eff (c_hasher c)) (hash_bits (c_hasher c))) cs) = ROk tt c'.
Proof.
  intros S FO NT ST HK R. set (key := clause_key (eff (c_hasher c)) (hash_bits (c_hasher c))).
  pose proof (check_clause_wp m c lits (map key cs) S) as WP. destruct S as [I B Z].
  assert (RH : exists h cl, (if rename_flag (c_hasher c) then rehash (c_hasher c) (c_clauses c) else Some (c_hasher c, c_clauses c)) = Some (h, cl) /\
      wf h cl (c_vars c) /\ Permutation (aclauses cl) (aclauses (c_clauses c)) /\ (forall v, unit_of cl v = unit_of (c_clauses c) v) /\
      forall D, In D cs -> hasher_hash h D = Some (key D)).
  { destruct (rename_flag (c_hasher c)) eqn:RF.
    - destruct (rehash_ok _ _ _ _ (inv_wf _ I) (inv_shuffle _ I) B) as (h&cl&E). exists h, cl. split; [exact E|].
      destruct (rehash_spec _ _ _ _ _ _ (inv_wf _ I) (inv_shuffle _ I) E) as (W&P&SU&_&HB&_&HBN&HN). split; [exact W|]. split; [exact P|].
      split; [intros v; unfold unit_of; rewrite (su_units _ _ SU); reflexivity|].
      intros D HD. unfold key. rewrite <- HB. apply hasher_hash_key; [unfold bits_ok; rewrite HB; exact B|]. intros l Hl. rewrite HN. reflexivity.
    - exists (c_hasher c), (c_clauses c). split; [reflexivity|]. split; [apply (inv_wf _ I)|]. split; [apply Permutation_refl|]. split; [reflexivity|].
      intros D HD. apply hasher_hash_key; [exact B|]. intros l Hl. destruct (ST D HD) as [_ NM]. destruct (NM l Hl) as [X|[X Y]].
      + destruct (eff (c_hasher c) (lit_var l)) as [s|] eqn:E; [|congruence]. apply (plain_names _ _ _ FO RF E).
      + rewrite X. symmetry. unfold eff. rewrite apply_names_other by exact Y. exact X. }
  destruct RH as (h&cl&E&W&P&U&HH).
  assert (OUT : forall e c', check_clause_with_hashes c lits (map key cs) <> RErr e c').
  { intros e c'. unfold check_clause_with_hashes. rewrite E. cbn [obind with_clauses with_hasher c_rup c_clauses c_vars]. rewrite (inv_trail _ I).
    pose proof (ensure_vars_spec h lits cl (c_vars c) W) as EV. destruct (ensure_vars cl (c_vars c) lits) as [cl2 vs2]. destruct EV as (W2&EX&FV).
    assert (FT : fit (unit_clauses cl2) lits) by (unfold fit; rewrite (wf_len_units _ _ _ W2); exact FV).
    destruct (rup_true_lit _ _) as [[i|]|] eqn:TL; cbn [obind]; [discriminate| |discriminate].
    destruct (rup_falsify _ _) as [r1|] eqn:RF; cbn [obind]; [|discriminate].
    destruct (falsify_val _ _ _ NT RF) as [FL OTH]. cbn [rs_units] in OTH.
    destruct (rup_hashes (cmap cl2) (literal_buffer cl2) r1 (map key cs)) as [[r2 res]|] eqn:RR; cbn [obind]; [|discriminate].
    assert (res = RupConflict) as ->; [|destruct (rup_undo _ _); cbn [obind]; discriminate].
    refine (hashes_complete _ _ key K cs R _ _ _ _ _ RR).
    - intros D HD. destruct (ST D HD) as [SD _]. apply in_map_iff in SD as (a & Ea & Ha).
      apply (perm_in _ _ _ (Permutation_sym P)) in Ha. rewrite <- (ext_aclauses _ _ _ _ EX) in Ha.
      pose proof (gc_lits _ _ _ (wf_clause _ _ _ W2 _ Ha)) as GL. rewrite Ea in GL. split; [apply ssorted_nodup; apply GL|].
      unfold aclauses in Ha. apply in_map_iff in Ha as (d&D1&D2). subst a. cbn [abs_c a_lits] in Ea.
      destruct (stored_in_bucket h cl2 vs2 d W2 D2) as (k'&K1&K2). rewrite Ea, (HH D HD) in K1. inversion K1; subst k'.
      exists d. split; [exact K2|]. destruct (wf_slice _ _ _ W2 d D2) as [SO _]. rewrite SO, Ea. reflexivity.
    - intros x Hx. destruct (HK x Hx) as [L|HU].
      + unfold false_lits in FL. rewrite Forall_forall in FL. specialize (FL _ L). change (false_in (rs_units r1) (lnot x)) in FL.
        apply true_false in FL. rewrite lnot_invol in FL. exact FL.
      + assert (TX : true_in (unit_clauses cl2) x).
        { destruct HU as (u&HU1&HU2). unfold true_in, val. rewrite <- HU2. rewrite <- U, <- (ext_unit _ _ _ _ EX) in HU1. unfold unit_of in HU1.
          destruct (vget (unit_clauses cl2) (lit_var x)) as [[u'|]|]; congruence. }
        destruct (in_dec N.eq_dec (lit_var x) (map lit_var lits)) as [IV|NV]; [|unfold true_in; rewrite OTH by exact NV; exact TX].
        apply in_map_iff in IV as (y&Y1&Y2). destruct (Bool.eqb (is_positive y) (is_positive x)) eqn:EB.
        * apply eqb_prop in EB. rewrite (lit_same _ _ Y1 EB) in Y2. destruct (true_lit_none _ _ FT TL x Y2 TX).
        * unfold false_lits in FL. rewrite Forall_forall in FL. specialize (FL _ Y2). cbn beta in FL. unfold true_in. rewrite <- Y1, FL, is_pos_neg.
          rewrite !is_pos_neg in EB. destruct (is_negative y), (is_negative x); cbn in *; congruence. }
  destruct (check_clause_with_hashes c lits (map key cs)) as [[] c'|e c'|] eqn:CC; [eauto|exfalso; eapply OUT; reflexivity|destruct WP].
Qed.
Lemma check_unit_complete m c lits hashes l : SI m c -> In l lits -> holds_unit (c_clauses c) l ->
  exists c', check_clause_with_hashes c lits hashes = ROk tt c'.
Proof.
  intros S Hl HU. pose proof (check_clause_wp m c lits hashes S) as WP. destruct S as [I B Z].
  assert (RH : exists h cl, (if rename_flag (c_hasher c) then rehash (c_hasher c) (c_clauses c) else Some (c_hasher c, c_clauses c)) = Some (h, cl) /\
      wf h cl (c_vars c) /\ (forall v, unit_of cl v = unit_of (c_clauses c) v)).
  { destruct (rename_flag (c_hasher c)).
    - destruct (rehash_ok _ _ _ _ (inv_wf _ I) (inv_shuffle _ I) B) as (h&cl&E). exists h, cl. split; [exact E|].
      destruct (rehash_spec _ _ _ _ _ _ (inv_wf _ I) (inv_shuffle _ I) E) as (W&P&SU&_). split; [exact W|].
      intros v; unfold unit_of; rewrite (su_units _ _ SU); reflexivity.
    - exists (c_hasher c), (c_clauses c). split; [reflexivity|]. split; [apply (inv_wf _ I)|reflexivity]. }
  destruct RH as (h&cl&E&W&U).
  assert (OUT : forall e c', check_clause_with_hashes c lits hashes <> RErr e c').
  { intros e c'. unfold check_clause_with_hashes. rewrite E. cbn [obind with_clauses with_hasher c_rup c_clauses c_vars]. rewrite (inv_trail _ I).
    pose proof (ensure_vars_spec h lits cl (c_vars c) W) as EV. destruct (ensure_vars cl (c_vars c) lits) as [cl2 vs2]. destruct EV as (W2&EX&FV).
    assert (FT : fit (unit_clauses cl2) lits) by (unfold fit; rewrite (wf_len_units _ _ _ W2); exact FV).
    destruct (rup_true_lit _ _) as [[i|]|] eqn:TL; cbn [obind]; [discriminate| |discriminate].
    exfalso. apply (true_lit_none _ _ FT TL l Hl). destruct HU as (u&HU1&HU2). unfold true_in, val. rewrite <- HU2.
    rewrite <- U, <- (ext_unit _ _ _ _ EX) in HU1. unfold unit_of in HU1. destruct (vget (unit_clauses cl2) (lit_var l)) as [[u'|]|]; congruence. }
  destruct (check_clause_with_hashes c lits hashes) as [[] c'|e c'|] eqn:CC; [eauto|exfalso; eapply OUT; reflexivity|destruct WP].
Qed.
