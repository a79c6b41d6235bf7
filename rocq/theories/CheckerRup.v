(** Rehashing, and the propagation check of rup.rs: soundness, restored state
    and validity of the recorded trace. *)
From Coq Require Import Arith ZArith ZifyBool ZifyNat ZifyN Permutation Sorted.
From Verif Require Import Spec Lit LitProofs Vec SortedLits SortedLitsProofs Hash HashProofs Vli BinFormat Checker CheckerStore CheckerInv CheckerOps.

(** * Rehashing *)

Lemma rehash_insert_spec h buf cs : forall m m',
  (forall c, In c cs -> slice_ok buf c) -> NoDup (map fst m) ->
  (forall k xs c, In (k, xs) m -> In c xs -> hasher_hash h (lits_of buf c) = Some k) ->
  rehash_insert h buf cs m = Some m' ->
  NoDup (map fst m') /\ (forall k xs c, In (k, xs) m' -> In c xs -> hasher_hash h (lits_of buf c) = Some k) /\
  Permutation (flat_map snd m') (flat_map snd m ++ cs).
Proof.
  induction cs as [|c cs IH]; intros m m' OK ND HH H; cbn [rehash_insert] in H.
  - inversion H; subst. rewrite app_nil_r. auto.
  - rewrite (proj1 (OK c (or_introl eq_refl))) in H. destruct (hasher_hash h (lits_of buf c)) as [k|] eqn:K; [|discriminate].
    destruct (map_split m k) as (L&R&M1&M2&_).
    destruct (IH (mset m k (bucket m k ++ [c])) m') as (A&B&C); [intros d Hd; apply OK; right; exact Hd|apply (proj1 (mset_keys m k _ ND))| |exact H|].
    + intros k' xs d Hi Hd. apply mset_in in Hi. destruct Hi as [E|[Hi _]]; [|eapply HH; eassumption].
      inversion E; subst. apply in_app_or in Hd. destruct Hd as [Hd|[<-|[]]]; [|exact K].
      unfold bucket in Hd. destruct (mget m k) as [ys|] eqn:G; [|destruct Hd]. apply mget_in in G. eapply HH; eassumption.
    + split; [exact A|]. split; [exact B|]. rewrite C, M2, M1.
      rewrite (perm_mid L (bucket m k) [] R c). rewrite <- Permutation_middle. cbn [app]. apply perm_skip. reflexivity.
Qed.

Lemma rehash_insert_some h buf cs : (1 <=? hash_bits h) && (hash_bits h <=? 64) = true \/ cs = [] ->
  (forall c, In c cs -> slice_ok buf c) -> forall m, exists m', rehash_insert h buf cs m = Some m'.
Proof.
  intros [B | ->] OK; [|intros m; exists m; reflexivity].
  induction cs as [|c cs IH]; intros m; cbn [rehash_insert]; [eauto|].
  rewrite (proj1 (OK c (or_introl eq_refl))). unfold hasher_hash at 1. rewrite B. apply IH. intros d Hd. apply OK. right. exact Hd.
Qed.

Lemma wf_recmap h h' cl vs m' : wf h cl vs -> NoDup (map fst m') ->
  (forall k xs c, In (k, xs) m' -> In c xs -> hasher_hash h' (lits_of (literal_buffer cl) c) = Some k) ->
  Permutation (flat_map snd m') (allc cl) ->
  wf h' (with_cmap cl m') vs /\ Permutation (aclauses (with_cmap cl m')) (aclauses cl).
Proof.
  intros W ND HH P. set (cl' := with_cmap cl m').
  assert (PA : Permutation (aclauses cl') (aclauses cl)) by (apply Permutation_map; exact P).
  split; [|exact PA]. destruct W as [w1 w2 w3 w4 w5 w6 w7 w8 w9 w10 w11].
  constructor; auto; cbn [cl' with_cmap cmap literal_buffer unit_clauses next_clause_id garbage_size].
  - intros c Hc. apply w2. apply (Permutation_in _ P). exact Hc.
  - intros a Ha. apply w4. apply (Permutation_in _ PA). exact Ha.
  - apply (Permutation_NoDup (Permutation_sym (Permutation_map a_lits PA))). exact w5.
  - apply (Permutation_NoDup (Permutation_sym (Permutation_app_tail _ (Permutation_map a_id PA)))). exact w6.
  - intros l n Hn. rewrite (count_lit_perm _ _ l PA). apply w10. exact Hn.
  - rewrite <- w11. f_equal. apply sumN_perm. apply Permutation_map. exact P.
Qed.

Lemma flat_map_perm {A B} (f : A -> list B) l l' : Permutation l l' -> Permutation (flat_map f l) (flat_map f l').
Proof.
  induction 1; cbn [flat_map]; auto.
  - apply Permutation_app_head. assumption.
  - rewrite !app_assoc. apply Permutation_app_tail, Permutation_app_comm.
  - eapply Permutation_trans; eassumption.
Qed.

Definition shuffles (h : hasher) : Prop := forall n l, Permutation (shuffle h n l) l.

Lemma rehash_spec h h0 cl vs h' cl' : wf h0 cl vs -> shuffles h -> rehash h cl = Some (h', cl') ->
  wf h' cl' vs /\ Permutation (aclauses cl') (aclauses cl) /\ same_units cl cl' /\ shuffles h' /\
  hash_bits h' = hash_bits h /\ rename_flag h' = false /\ buffered_names h' = [] /\
  solver_names h' = apply_names (solver_names h) (buffered_names h).
Proof.
  intros W SH H. unfold rehash in H. set (h1 := Hasher _ _ _ _ _ _) in H.
  destruct (rehash_insert h1 _ _ _) as [m|] eqn:R; [|discriminate]. inversion H; subst; clear H.
  assert (P : Permutation (flat_map snd (shuffle h (rehashes h) (cmap cl))) (allc cl)) by (apply flat_map_perm, SH).
  destruct (rehash_insert_spec h1 (literal_buffer cl) (flat_map snd (shuffle h (rehashes h) (cmap cl))) [] m) as (A&B&C); [| | |exact R|].
  - intros c Hc. eapply wf_slice; [exact W|]. apply (Permutation_in _ P). exact Hc.
  - constructor.
  - intros ? ? ? [].
  - cbn [flat_map app] in C. rewrite P in C.
    destruct (wf_recmap h0 h1 cl vs m W A B C) as [W' PA].
    split; [exact W'|]. split; [exact PA|]. split; [constructor; reflexivity|]. split; [exact SH|]. repeat split; reflexivity.
Qed.

(** * Semantics of a clause store *)

Definition sat_store (a : asg) (cl : clauses) : Prop :=
  (forall x, In x (aclauses cl) -> clause_holds a (a_lits x) = true) /\
  (forall v u, unit_of cl v = Some u -> a v = uc_value u).

Lemma lit_holds_iff a l : lit_holds a l = xorb (a (lit_var l)) (is_negative l).
Proof. unfold lit_holds. change (lit_var l) with (N.div2 l). rewrite is_negative_odd. reflexivity. Qed.

Lemma lit_holds_eq a l : lit_holds a l = true <-> a (lit_var l) = is_positive l.
Proof. rewrite lit_holds_iff, is_pos_neg. destruct (a (lit_var l)), (is_negative l); cbn; split; congruence. Qed.

Lemma lit_holds_neq a l : lit_holds a l = false <-> a (lit_var l) = is_negative l.
Proof. rewrite lit_holds_iff. destruct (a (lit_var l)), (is_negative l); cbn; split; congruence. Qed.

Lemma clause_holds_in a c : clause_holds a c = true <-> exists l, In l c /\ lit_holds a l = true.
Proof. unfold clause_holds. rewrite existsb_exists. reflexivity. Qed.

Lemma clause_holds_false a c : clause_holds a c = false <-> forall l, In l c -> lit_holds a l = false.
Proof.
  unfold clause_holds. induction c as [|x c IH]; cbn [existsb In]; [split; [intros _ l []|auto]|].
  rewrite orb_false_iff, IH. split.
  - intros [A B] l [<-|H]; auto.
  - intros H. split; [apply H; auto|intros l Hl; apply H; auto].
Qed.

(** * LRAT hints, stated independently of the checker *)

(** [falsified] are the literals known to be false.  Every hint must denote a
    clause; all but the last must have exactly one literal that is not known to
    be false, which must not be known to be true either; the last one must be
    falsified. *)
Fixpoint hint_check (db : N -> option (list N)) (falsified hints : list N) : bool :=
  match hints with
  | [] => false
  | id :: rest =>
      match db id with
      | None => false
      | Some cl =>
          match filter (fun l => negb (existsb (N.eqb l) falsified)) cl with
          | [] => match rest with [] => true | _ => false end
          | [l] => negb (existsb (N.eqb (opp l)) falsified) && hint_check db (opp l :: falsified) rest
          | _ => false
          end
      end
  end.

(** the clause with identifier [id] *)
Definition stored (cl : clauses) (id : N) (lits : list N) : Prop :=
  (exists a, In a (aclauses cl) /\ a_id a = id /\ a_lits a = lits) \/
  (exists v b, unit_of cl v = Some (UC (Global id) b) /\ lits = [2 * v + if b then 0 else 1]).
Definition db_ok (db : N -> option (list N)) (cl : clauses) : Prop := forall id lits, stored cl id lits -> db id = Some lits.

(** * The propagation loop *)

Lemma lit_value_get us l : lit_value us l = match vget us (lit_var l) with
    | None => None | Some None => Some None | Some (Some u) => Some (Some (xorb (uc_value u) (is_negative l), u)) end.
Proof. reflexivity. Qed.

(** ** Soundness *)
Definition agree (a : asg) (us : list (option unit_clause)) : Prop :=
  forall v u, vget us v = Some (Some u) -> a v = uc_value u.

Lemma agree_assign a r l u r' : agree a (rs_units r) -> a (lit_var l) = uc_value u -> rup_assign r l u = Some r' ->
  agree a (rs_units r').
Proof.
  intros A E H. unfold rup_assign in H. destruct (vget (rs_units r) (lit_var l)) as [old|]; [|discriminate].
  inversion H; subst; cbn [rs_units]. intros v w Hv. rewrite vget_vset in Hv.
  destruct ((lit_var l =? v) && (lit_var l <? vlen (rs_units r))) eqn:B; [|apply A; exact Hv].
  apply andb_true_iff in B. destruct B as [B _]. apply N.eqb_eq in B. subst v. inversion Hv; subst. exact E.
Qed.

Lemma falsify_agree a lits : (forall l, In l lits -> lit_holds a l = false) -> forall r r',
  agree a (rs_units r) -> rup_falsify r lits = Some r' -> agree a (rs_units r').
Proof.
  induction lits as [|l lits IH]; intros F r r' A H; cbn [rup_falsify] in H; [inversion H; subst; exact A|].
  destruct (rup_assign r l _) as [r1|] eqn:E; [|discriminate]. eapply IH; [intros x Hx; apply F; right; exact Hx| |exact H].
  eapply agree_assign; [exact A| |exact E]. cbn [uc_value]. apply lit_holds_neq. apply F. left. reflexivity.
Qed.

(** literals seen so far are false, except the unassigned ones *)
Lemma rup_lits_agree a lits : forall r count un r' s count' un',
  agree a (rs_units r) -> rup_lits r lits count un = Some (r', s, count', un') ->
  agree a (rs_units r') /\ count <= count' /\
  (s = false -> (un' = None -> un = None /\ count' = count /\ forall l, In l lits -> lit_holds a l = false) /\
     (count' = count -> un' = un /\ forall l, In l lits -> lit_holds a l = false) /\
     (count' = count + 1 -> exists l, un' = Some l /\ In l lits /\ forall x, In x lits -> x <> l -> lit_holds a x = false)).
Proof.
  induction lits as [|l lits IH]; intros r count un r' s count' un' A H; cbn [rup_lits] in H.
  - inversion H; subst. split; [exact A|]. split; [lia|]. intros _. split; [|split].
    + intros ->. repeat split; auto. intros l [].
    + intros _. split; [reflexivity|intros l []].
    + intros. lia.
  - rewrite lit_value_get in H. destruct (vget (rs_units r) (lit_var l)) as [[u|]|] eqn:V; [| |discriminate].
    + assert (AV : a (lit_var l) = uc_value u) by (apply A; exact V).
      destruct (xorb (uc_value u) (is_negative l)) eqn:X.
      * inversion H; subst. split; [exact A|]. split; [lia|discriminate].
      * assert (FL : lit_holds a l = false) by (rewrite lit_holds_iff, AV; exact X).
        assert (K : forall r1, agree a (rs_units r1) -> rup_lits r1 lits count un = Some (r', s, count', un') ->
           agree a (rs_units r') /\ count <= count' /\
           (s = false -> (un' = None -> un = None /\ count' = count /\ forall x, In x (l :: lits) -> lit_holds a x = false) /\
           (count' = count -> un' = un /\ forall x, In x (l :: lits) -> lit_holds a x = false) /\
           (count' = count + 1 -> exists y, un' = Some y /\ In y (l :: lits) /\ forall x, In x (l :: lits) -> x <> y -> lit_holds a x = false))).
        { intros r1 A1 H1. destruct (IH _ _ _ _ _ _ _ A1 H1) as (B1&B2&B3). split; [exact B1|]. split; [exact B2|]. intros S.
          destruct (B3 S) as (C1&C2&C3). split; [|split].
          - intros U. destruct (C1 U) as (D1&D2&D3). repeat split; auto. intros x [<-|Hx]; auto.
          - intros U. destruct (C2 U) as (D1&D2). split; auto. intros x [<-|Hx]; auto.
          - intros U. destruct (C3 U) as (y&D1&D2&D3). exists y. split; [exact D1|]. split; [right; exact D2|].
            intros x [<-|Hx] N; auto. }
        destruct (uc_id u) as [id| |].
        -- destruct (rup_assign r l _) as [r1|] eqn:E; [|discriminate].
           apply (K (rup_trace r1 id)); [|exact H]. cbn [rup_trace rs_units].
           eapply agree_assign; [exact A| |exact E]. cbn [uc_value]. apply lit_holds_neq. exact FL.
        -- apply (K r); assumption.
        -- apply (K r); assumption.
    + destruct (IH _ _ _ _ _ _ _ A H) as (B1&B2&B3). split; [exact B1|]. split; [lia|]. intros S.
      destruct (B3 S) as (C1&C2&C3). split; [|split].
      * intros U. destruct (C1 U) as (D1&_). discriminate.
      * intros U. lia.
      * intros U. destruct (C2 U) as (D1&D2). exists l. split; [exact D1|]. split; [left; reflexivity|].
        intros x [<-|Hx] N; [congruence|auto].
Qed.

Lemma rup_candidates_agree a buf cs : forall r r' b,
  (forall c, In c cs -> slice_ok buf c /\ clause_holds a (lits_of buf c) = true) ->
  agree a (rs_units r) -> rup_candidates buf r cs = Some (r', b) -> agree a (rs_units r') /\ b = false.
Proof.
  induction cs as [|c cs IH]; intros r r' b OK A H; cbn [rup_candidates] in H; [inversion H; subst; auto|].
  destruct (OK c (or_introl eq_refl)) as [[S _] T]. rewrite S in H.
  assert (OK' : forall d, In d cs -> slice_ok buf d /\ clause_holds a (lits_of buf d) = true) by (intros d Hd; apply OK; right; exact Hd).
  destruct (rup_lits r (lits_of buf c) 0 None) as [[[[r1 s] count] un]|] eqn:E; [|discriminate].
  destruct (rup_lits_agree a _ _ _ _ _ _ _ _ A E) as (B1&B2&B3).
  destruct s; [eapply IH; eassumption|]. destruct (B3 eq_refl) as (C1&C2&C3).
  destruct un as [l|].
  - destruct (N.eqb_spec count 1) as [->|NE]; [|eapply IH; eassumption].
    destruct (C3 eq_refl) as (y&D1&D2&D3). inversion D1; subst y.
    destruct (rup_assign r1 l _) as [r2|] eqn:AS; [|discriminate].
    apply (IH (rup_trace r2 (cc_id c)) r' b OK'); [|exact H]. cbn [rup_trace rs_units].
    eapply agree_assign; [exact B1| |exact AS]. cbn [uc_value]. apply lit_holds_eq.
    apply clause_holds_in in T. destruct T as (x&Hx&Tx). destruct (N.eq_dec x l) as [->|NE]; [exact Tx|].
    rewrite (D3 x Hx NE) in Tx. discriminate.
  - destruct (C1 eq_refl) as (_&_&F). apply clause_holds_false in F. congruence.
Qed.

Lemma rup_hashes_agree a m buf hashes : forall r r' res,
  (forall k c, In c (bucket m k) -> slice_ok buf c /\ clause_holds a (lits_of buf c) = true) ->
  agree a (rs_units r) -> rup_hashes m buf r hashes = Some (r', res) -> res <> RupConflict.
Proof.
  induction hashes as [|k hashes IH]; intros r r' res OK A H; cbn [rup_hashes] in H; [inversion H; subst; discriminate|].
  destruct (bucket m k) as [|c cs] eqn:B; [inversion H; subst; discriminate|].
  destruct (rup_candidates buf r (c :: cs)) as [[r1 b]|] eqn:E; [|discriminate].
  destruct (rup_candidates_agree a buf (c :: cs) r r1 b) as [A1 ->]; auto.
  - intros d Hd. apply (OK k). rewrite B. exact Hd.
  - eapply IH; eassumption.
Qed.

(** ** Undoing the assignments *)
Lemma undo_assign r l u r' : rup_assign r l u = Some r' -> rup_undo (rs_units r') (rs_trail r') = rup_undo (rs_units r) (rs_trail r).
Proof.
  unfold rup_assign. destruct (vget (rs_units r) (lit_var l)) as [old|] eqn:E; [|discriminate]. intros H. inversion H; subst; clear H.
  cbn [rs_units rs_trail rup_undo]. rewrite vget_vset_eq by (eapply vget_some_lt; exact E).
  rewrite vset_vset, vset_same by exact E. reflexivity.
Qed.

Lemma undo_falsify lits : forall r r', rup_falsify r lits = Some r' ->
  rup_undo (rs_units r') (rs_trail r') = rup_undo (rs_units r) (rs_trail r).
Proof.
  induction lits as [|l lits IH]; intros r r' H; cbn [rup_falsify] in H; [inversion H; reflexivity|].
  destruct (rup_assign r l _) as [r1|] eqn:E; [|discriminate]. rewrite (IH _ _ H). eapply undo_assign. exact E.
Qed.

Lemma undo_lits lits : forall r count un r' s count' un', rup_lits r lits count un = Some (r', s, count', un') ->
  rup_undo (rs_units r') (rs_trail r') = rup_undo (rs_units r) (rs_trail r).
Proof.
  induction lits as [|l lits IH]; intros r count un r' s count' un' H; cbn [rup_lits] in H; [inversion H; reflexivity|].
  destruct (lit_value (rs_units r) l) as [[[[|] u]|]|]; try discriminate.
  - inversion H; reflexivity.
  - destruct (uc_id u); [|eapply IH; eassumption|eapply IH; eassumption].
    destruct (rup_assign r l _) as [r1|] eqn:E; [|discriminate]. rewrite (IH _ _ _ _ _ _ _ H). cbn [rup_trace rs_units rs_trail].
    eapply undo_assign. exact E.
  - eapply IH; eassumption.
Qed.

Lemma undo_candidates buf cs : forall r r' b, rup_candidates buf r cs = Some (r', b) ->
  rup_undo (rs_units r') (rs_trail r') = rup_undo (rs_units r) (rs_trail r).
Proof.
  induction cs as [|c cs IH]; intros r r' b H; cbn [rup_candidates] in H; [inversion H; reflexivity|].
  destruct (slice (cc_lits c) buf) as [lits|]; [|discriminate].
  destruct (rup_lits r lits 0 None) as [[[[r1 s] count] un]|] eqn:E; [|discriminate]. apply undo_lits in E. rewrite <- E.
  destruct s; [eapply IH; eassumption|]. destruct un as [l|].
  - destruct (count =? 1); [|eapply IH; eassumption].
    destruct (rup_assign r1 l _) as [r2|] eqn:AS; [|discriminate]. rewrite (IH _ _ _ H). cbn [rup_trace rs_units rs_trail].
    eapply undo_assign. exact AS.
  - inversion H; reflexivity.
Qed.

Lemma undo_hashes m buf hashes : forall r r' res, rup_hashes m buf r hashes = Some (r', res) ->
  rup_undo (rs_units r') (rs_trail r') = rup_undo (rs_units r) (rs_trail r).
Proof.
  induction hashes as [|k hashes IH]; intros r r' res H; cbn [rup_hashes] in H; [inversion H; reflexivity|].
  destruct (bucket m k) as [|c cs]; [inversion H; reflexivity|].
  destruct (rup_candidates buf r (c :: cs)) as [[r1 b]|] eqn:E; [|discriminate]. apply undo_candidates in E. rewrite <- E.
  destruct b; [inversion H; reflexivity|eapply IH; eassumption].
Qed.

(** ** The recorded trace *)
Definition is_local (u : unit_clause) : bool := match uc_id u with Global _ => false | _ => true end.
Definition knows (us : list (option unit_clause)) (fal : list N) : Prop :=
  forall l, In l fal <-> exists u, vget us (lit_var l) = Some (Some u) /\ is_local u = true /\ uc_value u = is_negative l.
Definition globals_in (cl : clauses) (us : list (option unit_clause)) : Prop :=
  forall v u, vget us v = Some (Some u) -> is_local u = false -> unit_of cl v = Some u.

Lemma memb_iff l ls : existsb (N.eqb l) ls = true <-> In l ls.
Proof. apply lit_in_iff. Qed.
Lemma memb_false l ls : existsb (N.eqb l) ls = false <-> ~ In l ls.
Proof. apply lit_in_false. Qed.

Lemma negb_inj' a b : negb a = negb b -> a = b.
Proof. destruct a, b; cbn; congruence. Qed.

Lemma knows_assign r l u r' fal : knows (rs_units r) fal -> rup_assign r l u = Some r' -> is_local u = true ->
  uc_value u = is_negative l ->
  (forall w, vget (rs_units r) (lit_var l) = Some (Some w) -> is_local w = true -> uc_value w = is_negative l) ->
  knows (rs_units r') (l :: fal).
Proof.
  intros K H L V O. unfold rup_assign in H. destruct (vget (rs_units r) (lit_var l)) as [old|] eqn:G; [|discriminate].
  inversion H; subst; clear H. cbn [rs_units]. intros x. cbn [In]. rewrite vget_vset.
  pose proof (vget_some_lt _ _ _ G) as LT. apply N.ltb_lt in LT. rewrite LT, andb_true_r.
  destruct (N.eqb_spec (lit_var l) (lit_var x)) as [E|E].
  - split.
    + intros [->|Hx]; [eauto|]. exists u. split; [reflexivity|]. split; [exact L|]. rewrite V.
      apply K in Hx. destruct Hx as (w&W1&W2&W3). rewrite <- E, G in W1. inversion W1; subst. rewrite <- (O w eq_refl W2). exact W3.
    + intros (w&W1&W2&W3). inversion W1; subst w. left. apply lit_eq_split; congruence.
  - rewrite (K x). split.
    + intros [->|H]; [congruence|exact H].
    + auto.
Qed.

Lemma globals_assign cl r l u r' : globals_in cl (rs_units r) -> rup_assign r l u = Some r' -> is_local u = true ->
  globals_in cl (rs_units r').
Proof.
  intros G H L. unfold rup_assign in H. destruct (vget (rs_units r) (lit_var l)) as [old|]; [|discriminate].
  inversion H; subst; clear H. cbn [rs_units]. intros v w Hv Lw. rewrite vget_vset in Hv.
  destruct ((lit_var l =? v) && (lit_var l <? vlen (rs_units r))); [inversion Hv; subst; congruence|apply G; assumption].
Qed.

Lemma unassigned_assign r l u r' : rup_assign r l u = Some r' -> vget (rs_units r) (lit_var l) <> Some None ->
  forall v, vget (rs_units r') v = Some None <-> vget (rs_units r) v = Some None.
Proof.
  intros H O v. unfold rup_assign in H. destruct (vget (rs_units r) (lit_var l)) as [old|] eqn:G; [|discriminate].
  inversion H; subst; clear H. cbn [rs_units]. rewrite vget_vset.
  destruct (N.eqb_spec (lit_var l) v) as [<-|E]; cbn [andb]; [|reflexivity].
  destruct (lit_var l <? vlen (rs_units r)); [|reflexivity]. rewrite G. split; congruence.
Qed.

Lemma opp_unit_lit v b l : lit_var l = v -> b = is_negative l -> opp (2 * v + if b then 0 else 1) = l.
Proof.
  intros <- ->. rewrite <- lnot_opp. apply lit_eq_split; rewrite ?lnot_var, ?lnot_sign.
  - rewrite lit_var_div. apply div2_val.
  - rewrite is_negative_odd, odd_val. apply negb_involutive.
Qed.

Section Trace.
  Context (db : N -> option (list N)) (cl : clauses) (DB : db_ok db cl) (fal0 : list N).

  Definition traces (fal trace : list N) : Prop :=
    forall rest, hint_check db fal0 (trace ++ rest) = hint_check db fal rest.

  Lemma knows_opp us fal l : knows us fal -> In l fal -> ~ In (opp l) fal.
  Proof.
    intros K H1 H2. apply K in H1, H2. destruct H1 as (u&A&_&B), H2 as (w&C&_&D).
    rewrite <- lnot_opp in C, D. rewrite lnot_var, A in C. inversion C; subst w. rewrite lnot_sign in D.
    rewrite B in D. destruct (is_negative l); discriminate.
  Qed.

  Ltac s5 := split; [assumption|split; [assumption|split; [assumption|split; [solve [auto]|split; [solve [assumption|intros; reflexivity]|]]]]].

  Lemma trace_lits lits : forall r count un r' s count' un' fal,
    knows (rs_units r) fal -> globals_in cl (rs_units r) -> traces fal (rs_trace r) ->
    rup_lits r lits count un = Some (r', s, count', un') ->
    exists fal', knows (rs_units r') fal' /\ globals_in cl (rs_units r') /\ traces fal' (rs_trace r') /\
      (forall x, In x fal -> In x fal') /\
      (forall v, vget (rs_units r') v = Some None <-> vget (rs_units r) v = Some None) /\
      (s = false -> exists U, filter (fun l => negb (existsb (N.eqb l) fal')) lits = U /\
         count' = count + N.of_nat (length U) /\ un' = last (map Some U) un /\
         forall x, In x U -> vget (rs_units r) (lit_var x) = Some None).
  Proof.
    induction lits as [|l lits IH]; intros r count un r' s count' un' fal K G T H; cbn [rup_lits] in H.
    - inversion H; subst. exists fal. s5. intros _. exists []. cbn. split; [reflexivity|]. split; [lia|]. split; [reflexivity|intros x []].
    - rewrite lit_value_get in H. destruct (vget (rs_units r) (lit_var l)) as [[u|]|] eqn:V; [| |discriminate].
      + destruct (xorb (uc_value u) (is_negative l)) eqn:X.
        * inversion H; subst. exists fal. s5. discriminate.
        * assert (UV : uc_value u = is_negative l) by (destruct (uc_value u), (is_negative l); cbn in X; congruence).
          destruct (uc_id u) as [id| |] eqn:UI.
          -- destruct (rup_assign r l _) as [r1|] eqn:E; [|discriminate].
             assert (LU : is_local u = false) by (unfold is_local; rewrite UI; reflexivity).
             assert (NF : forall x, lit_var x = lit_var l -> ~ In x fal).
             { intros x Ex Hx. apply K in Hx. destruct Hx as (w&W1&W2&_). rewrite Ex, V in W1. inversion W1; subst. congruence. }
             destruct (IH (rup_trace r1 id) count un r' s count' un' (l :: fal)) as (fal'&A1&A2&A3&A4&A5&A6); auto.
             ++ cbn [rup_trace rs_units]. eapply knows_assign; eauto. intros w W1 W2. rewrite V in W1. inversion W1; subst. congruence.
             ++ cbn [rup_trace rs_units]. eapply globals_assign; eauto.
             ++ cbn [rup_trace rs_trace]. intros rest. rewrite <- app_assoc.
                assert (ET : rs_trace r1 = rs_trace r).
                { unfold rup_assign in E. destruct (vget (rs_units r) (lit_var l)); inversion E; reflexivity. }
                rewrite ET, T. cbn [app hint_check].
                assert (ST : stored cl id [2 * lit_var l + if uc_value u then 0 else 1]).
                { right. exists (lit_var l), (uc_value u). split; [|reflexivity]. rewrite (G _ _ V LU). destruct u as [i b]. cbn in *. subst. reflexivity. }
                rewrite (DB _ _ ST). cbn [filter].
                pose proof (opp_unit_lit (lit_var l) (uc_value u) l eq_refl UV) as OL.
                assert (EX1 : existsb (N.eqb (2 * lit_var l + (if uc_value u then 0 else 1))) fal = false).
                { apply memb_false, NF. rewrite lit_var_div. apply div2_val. }
                rewrite EX1. cbn [negb]. rewrite OL.
                assert (EX2 : existsb (N.eqb l) fal = false) by (apply memb_false, NF; reflexivity).
                rewrite EX2. reflexivity.
             ++ assert (UA : forall v, vget (rs_units r1) v = Some None <-> vget (rs_units r) v = Some None).
                { eapply unassigned_assign; [exact E|]. rewrite V. discriminate. }
                exists fal'. split; [exact A1|]. split; [exact A2|]. split; [exact A3|].
                split; [intros x Hx; apply A4; right; exact Hx|]. split; [intros v; rewrite A5; apply UA|].
                intros S. destruct (A6 S) as (U&B1&B2&B3&B4). exists U. cbn [filter].
                assert (EX : existsb (N.eqb l) fal' = true) by (apply memb_iff, A4; left; reflexivity).
                rewrite EX. cbn [negb]. repeat split; auto. intros x Hx. apply UA. apply (B4 x Hx).
          -- assert (HL : In l fal) by (apply K; exists u; unfold is_local; rewrite UI; auto).
             destruct (IH _ _ _ _ _ _ _ _ K G T H) as (fal'&A1&A2&A3&A4&A5&A6). exists fal'. s5.
             intros S. destruct (A6 S) as (U&B1&B2&B3&B4). exists U. cbn [filter].
             assert (EX : existsb (N.eqb l) fal' = true) by (apply memb_iff, A4; exact HL). rewrite EX. cbn [negb]. auto.
          -- assert (HL : In l fal) by (apply K; exists u; unfold is_local; rewrite UI; auto).
             destruct (IH _ _ _ _ _ _ _ _ K G T H) as (fal'&A1&A2&A3&A4&A5&A6). exists fal'. s5.
             intros S. destruct (A6 S) as (U&B1&B2&B3&B4). exists U. cbn [filter].
             assert (EX : existsb (N.eqb l) fal' = true) by (apply memb_iff, A4; exact HL). rewrite EX. cbn [negb]. auto.
      + destruct (IH _ _ _ _ _ _ _ _ K G T H) as (fal'&A1&A2&A3&A4&A5&A6). exists fal'. s5.
        intros S. destruct (A6 S) as (U&B1&B2&B3&B4). exists (l :: U). cbn [filter].
        assert (EX : existsb (N.eqb l) fal' = false).
        { apply memb_false. intros Hl. apply A1 in Hl. destruct Hl as (w&W1&_). apply A5 in V. rewrite V in W1. discriminate. }
        rewrite EX. cbn [negb]. rewrite B1. split; [reflexivity|]. split; [cbn [length]; lia|]. split.
        * rewrite B3. cbn [map]. destruct U as [|y U]; [reflexivity|]. cbn [map]. clear. revert y un l. induction U as [|z U IHU]; intros; [reflexivity|].
          cbn [map last] in *. apply (IHU z un l).
        * intros x [<-|Hx]; auto.
  Qed.

  Lemma trace_candidates cs : forall r r' b fal,
    (forall c, In c cs -> slice_ok (literal_buffer cl) c /\ In c (allc cl)) ->
    knows (rs_units r) fal -> globals_in cl (rs_units r) -> traces fal (rs_trace r) ->
    rup_candidates (literal_buffer cl) r cs = Some (r', b) ->
    if b then hint_check db fal0 (rs_trace r') = true
    else exists fal', knows (rs_units r') fal' /\ globals_in cl (rs_units r') /\ traces fal' (rs_trace r').
  Proof.
    induction cs as [|c cs IH]; intros r r' b fal OK K G T H; cbn [rup_candidates] in H.
    - inversion H; subst. eauto.
    - destruct (OK c (or_introl eq_refl)) as [[S _] INC]. rewrite S in H.
      assert (OK' : forall d, In d cs -> slice_ok (literal_buffer cl) d /\ In d (allc cl)) by (intros d Hd; apply OK; right; exact Hd).
      assert (DBc : db (cc_id c) = Some (lits_of (literal_buffer cl) c)).
      { apply DB. left. exists (abs_c (literal_buffer cl) c). split; [apply in_map; exact INC|]. split; reflexivity. }
      destruct (rup_lits r (lits_of (literal_buffer cl) c) 0 None) as [[[[r1 s] count] un]|] eqn:E; [|discriminate].
      destruct (trace_lits _ _ _ _ _ _ _ _ _ K G T E) as (fal1&A1&A2&A3&A4&A5&A6).
      destruct s; [eapply IH; eassumption|]. destruct (A6 eq_refl) as (U&B1&B2&B3&B4).
      destruct un as [l|].
      + destruct (N.eqb_spec count 1) as [->|NE]; [|eapply IH; eassumption].
        destruct U as [|x [|y U]]; [discriminate| |cbn [length] in B2; lia].
        cbn in B3. inversion B3; subst x. clear B3.
        destruct (rup_assign r1 l _) as [r2|] eqn:AS; [|discriminate].
        assert (VN : vget (rs_units r1) (lit_var l) = Some None) by (apply A5, B4; left; reflexivity).
        assert (NF : forall x, lit_var x = lit_var l -> ~ In x fal1).
        { intros x Ex Hx. apply A1 in Hx. destruct Hx as (w&W1&_). rewrite Ex, VN in W1. discriminate. }
        apply (IH (rup_trace r2 (cc_id c)) r' b (lnot l :: fal1) OK'); [| | |exact H]; cbn [rup_trace rs_units rs_trace].
        * assert (AS' : rup_assign r1 (lnot l) (UC (TracePos (vlen (rs_trace r1))) (is_positive l)) = Some (RS (rs_units r2) ((lnot l, None) :: rs_trail r1) (rs_trace r1))).
          { unfold rup_assign in *. rewrite lnot_var, VN in *. inversion AS; subst. reflexivity. }
          apply (knows_assign r1 (lnot l) _ _ fal1 A1 AS'); [reflexivity| |].
          -- cbn [uc_value]. rewrite lnot_sign. reflexivity.
          -- intros w W1. rewrite lnot_var, VN in W1. discriminate.
        * eapply globals_assign; eauto.
        * assert (ET : rs_trace r2 = rs_trace r1) by (unfold rup_assign in AS; rewrite VN in AS; inversion AS; reflexivity).
          intros rest. rewrite <- app_assoc, ET, A3. cbn [app hint_check]. rewrite DBc, B1.
          rewrite <- lnot_opp.
          assert (EX : existsb (N.eqb (lnot l)) fal1 = false) by (apply memb_false, NF, lnot_var). rewrite EX. reflexivity.
      + inversion H; subst r' b. cbn [rup_trace rs_trace].
        destruct U as [|x U].
        * rewrite A3. cbn [hint_check]. rewrite DBc, B1. reflexivity.
        * exfalso. clear - B3. cbn [map] in B3. revert x B3. induction U as [|y U IHU]; intros x B3; [discriminate|]. apply (IHU y). exact B3.
  Qed.

  Lemma trace_hashes h vs hashes : wf h cl vs -> forall r r' fal,
    knows (rs_units r) fal -> globals_in cl (rs_units r) -> traces fal (rs_trace r) ->
    rup_hashes (cmap cl) (literal_buffer cl) r hashes = Some (r', RupConflict) ->
    hint_check db fal0 (rs_trace r') = true.
  Proof.
    intros W. induction hashes as [|k hashes IH]; intros r r' fal K G T H; cbn [rup_hashes] in H; [discriminate|].
    destruct (bucket (cmap cl) k) as [|c cs] eqn:B; [discriminate|].
    destruct (rup_candidates _ r (c :: cs)) as [[r1 b]|] eqn:E; [|discriminate].
    pose proof (trace_candidates (c :: cs) r r1 b fal) as TC. lapply TC.
    - clear TC; intros TC. specialize (TC K G T E). destruct b.
      + inversion H; subst. exact TC.
      + destruct TC as (fal'&A1&A2&A3). eapply IH; eassumption.
    - intros d Hd. rewrite <- B in Hd. apply bucket_in_allc in Hd. split; [|exact Hd]. eapply wf_slice; eassumption.
  Qed.
End Trace.

Lemma knows_falsify lits : forall r r' fal,
  (forall l, In l lits -> ~ In (lnot l) lits) -> (forall l, In l lits -> ~ In (lnot l) fal) ->
  knows (rs_units r) fal -> rup_falsify r lits = Some r' -> knows (rs_units r') (rev lits ++ fal).
Proof.
  induction lits as [|l lits IH]; intros r r' fal NT NF K H; cbn [rup_falsify] in H; [inversion H; subst; exact K|].
  destruct (rup_assign r l _) as [r1|] eqn:E; [|discriminate].
  cbn [rev]. rewrite <- app_assoc. apply (IH r1); [| | |exact H].
  - intros x Hx Hn. apply (NT x); right; assumption.
  - intros x Hx [Hn|Hn].
    + apply (NT l); [left; reflexivity|]. right. rewrite Hn, lnot_invol. exact Hx.
    + apply (NF x); [right; exact Hx|exact Hn].
  - eapply knows_assign; [exact K|exact E|reflexivity|reflexivity|]. intros w W1 W2.
    assert (HK : In l fal \/ In (lnot l) fal).
    { destruct (Bool.bool_dec (uc_value w) (is_negative l)) as [EQ|NE].
      - left. apply K. eauto.
      - right. apply K. exists w. rewrite lnot_var, lnot_sign. repeat split; auto. destruct (uc_value w), (is_negative l); cbn; congruence. }
    destruct HK as [HK|HK].
    + apply K in HK. destruct HK as (w'&W1'&_&W3). rewrite W1 in W1'. inversion W1'; subst. exact W3.
    + exfalso. apply (NF l); [left; reflexivity|exact HK].
Qed.

Lemma globals_falsify cl lits : forall r r', globals_in cl (rs_units r) -> rup_falsify r lits = Some r' -> globals_in cl (rs_units r').
Proof.
  induction lits as [|l lits IH]; intros r r' G H; cbn [rup_falsify] in H; [inversion H; subst; exact G|].
  destruct (rup_assign r l _) as [r1|] eqn:E; [|discriminate]. apply (IH r1); [|exact H]. eapply globals_assign; eauto.
Qed.

Lemma trace_falsify lits : forall r r', rup_falsify r lits = Some r' -> rs_trace r' = rs_trace r.
Proof.
  induction lits as [|l lits IH]; intros r r' H; cbn [rup_falsify] in H; [inversion H; reflexivity|].
  destruct (rup_assign r l _) as [r1|] eqn:E; [|discriminate]. rewrite (IH _ _ H).
  unfold rup_assign in E. destruct (vget (rs_units r) (lit_var l)); inversion E; reflexivity.
Qed.

Lemma hint_check_ext db hints : forall f1 f2, (forall l, In l f1 <-> In l f2) -> hint_check db f1 hints = hint_check db f2 hints.
Proof.
  induction hints as [|id hints IH]; intros f1 f2 E; cbn [hint_check]; [reflexivity|]. destruct (db id) as [cl|]; [|reflexivity].
  assert (EB : forall l, existsb (N.eqb l) f1 = existsb (N.eqb l) f2).
  { intros l. apply eq_iff_eq_true. rewrite !memb_iff. apply E. }
  rewrite (filter_ext _ (fun l => negb (existsb (N.eqb l) f2))) by (intros l; rewrite EB; reflexivity).
  destruct (filter _ cl) as [|l [|]]; auto. rewrite EB. f_equal. apply IH. intros x. cbn [In]. rewrite E. reflexivity.
Qed.

(** a literal of the clause that is true: the unit clause is falsified *)
Lemma true_lit_spec lits : forall us id, rup_true_lit us lits = Some (Some id) ->
  exists l b, In l lits /\ vget us (lit_var l) = Some (Some (UC (Global id) b)) /\ b = is_positive l.
Proof.
  induction lits as [|l lits IH]; intros us id H; cbn [rup_true_lit] in H; [discriminate|].
  rewrite lit_value_get in H. destruct (vget us (lit_var l)) as [[[i b]|]|] eqn:V; [| |discriminate].
  - cbn [uc_value uc_id] in H. destruct (xorb b (is_negative l)) eqn:X.
    + destruct i; inversion H; subst. exists l, b. split; [left; reflexivity|]. split; [exact V|].
      rewrite is_pos_neg. destruct b, (is_negative l); cbn in X |- *; congruence.
    + destruct (IH _ _ H) as (x&y&A&B). exists x, y. split; [right; exact A|exact B].
  - destruct (IH _ _ H) as (x&y&A&B). exists x, y. split; [right; exact A|exact B].
Qed.
