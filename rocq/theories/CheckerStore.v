(** The clause store of the checker: abstraction and effect of every operation. *)
From Coq Require Import Arith ZArith ZifyBool ZifyNat ZifyN Permutation Sorted.
From Verif Require Import Spec Lit LitProofs Vec SortedLits SortedLitsProofs Hash HashProofs Vli BinFormat Checker.

(** A stored clause without its representation. *)
Record aclause := AC { a_id : N; a_irr : N; a_red : N; a_lits : list N }.
Definition lits_of (buf : list N) (c : clause) : list N :=
  match slice (cc_lits c) buf with Some l => l | None => [] end.
Definition abs_c (buf : list N) (c : clause) : aclause := AC (cc_id c) (cc_irr c) (cc_red c) (lits_of buf c).
Definition allc (cl : clauses) : list clause := flat_map snd (cmap cl).
Definition aclauses (cl : clauses) : list aclause := map (abs_c (literal_buffer cl)) (allc cl).

(** * Slices *)

Definition slice_ok (buf : list N) (c : clause) : Prop :=
  slice (cc_lits c) buf = Some (lits_of buf c) /\ cl_length (cc_lits c) = N.of_nat (length (lits_of buf c)).

Lemma slice_app ls buf ext l : slice ls buf = Some l -> slice ls (buf ++ ext) = Some l.
Proof.
  unfold slice. destruct (3 <? cl_length ls); [|auto]. destruct (cl_inline ls) as [|i r]; [discriminate|].
  unfold vlen. rewrite app_length. destruct (N.leb_spec (i + cl_length ls) (N.of_nat (length buf))) as [H|H]; [|discriminate].
  intros E. inversion E as [E']. clear E. destruct (N.leb_spec (i + cl_length ls) (N.of_nat (length buf + length ext))); [|lia].
  f_equal. rewrite skipn_app, firstn_app, skipn_length.
  replace (N.to_nat (cl_length ls) - (length buf - N.to_nat i))%nat with 0%nat by lia.
  cbn [firstn]. apply app_nil_r.
Qed.

Lemma slice_ok_app buf ext c : slice_ok buf c -> slice_ok (buf ++ ext) c /\ lits_of (buf ++ ext) c = lits_of buf c.
Proof.
  intros [H L]. pose proof (slice_app _ _ ext _ H) as H'.
  assert (E : lits_of (buf ++ ext) c = lits_of buf c) by (unfold lits_of at 1; rewrite H'; reflexivity).
  split; [|exact E]. split; rewrite E; assumption.
Qed.

Lemma abs_c_app buf ext c : slice_ok buf c -> abs_c (buf ++ ext) c = abs_c buf c.
Proof. intros H. unfold abs_c. rewrite (proj2 (slice_ok_app buf ext c H)). reflexivity. Qed.

Lemma u32_id x : x < 2^32 -> u32 x = x.
Proof. apply N.mod_small. Qed.

Lemma clause_lits_new_spec lits buf ls buf' : N.of_nat (length lits) < 2^32 ->
  clause_lits_new lits buf = Some (ls, buf') ->
  slice ls buf' = Some lits /\ cl_length ls = N.of_nat (length lits) /\
  exists ext, buf' = buf ++ ext /\ N.of_nat (length ext) = buffer_used ls.
Proof.
  intros L H. unfold clause_lits_new in H. destruct (N.ltb_spec 3 (N.of_nat (length lits))) as [G|G].
  - destruct (vlen buf <? 2^32); [|discriminate]. inversion H; subst; clear H.
    cbn [cl_length]. rewrite u32_id by assumption. split; [|split].
    + unfold slice. cbn [cl_length cl_inline].
      destruct (N.ltb_spec 3 (N.of_nat (length lits))); [|lia].
      destruct (N.leb_spec (vlen buf + N.of_nat (length lits)) (vlen (buf ++ lits))) as [Z|Z];
        [|unfold vlen in Z; rewrite app_length in Z; lia].
      f_equal. unfold vlen. rewrite !Nat2N.id, skipn_app, skipn_all, Nat.sub_diag. cbn [skipn app]. apply firstn_all.
    + reflexivity.
    + exists lits. split; [reflexivity|]. unfold buffer_used. cbn [cl_length].
      destruct (N.ltb_spec 3 (N.of_nat (length lits))); lia.
  - injection H as <- <-. cbn [cl_length]. rewrite u32_id by assumption. split; [|split].
    + unfold slice. cbn [cl_length cl_inline].
      destruct (N.ltb_spec 3 (N.of_nat (length lits))); [lia|]. f_equal.
      rewrite Nat2N.id. destruct lits as [|? [|? [|? [|? ?]]]]; try reflexivity. cbn [length] in G. lia.
    + reflexivity.
    + exists []. rewrite app_nil_r. split; [reflexivity|]. unfold buffer_used. cbn [cl_length].
      destruct (N.ltb_spec 3 (N.of_nat (length lits))); [lia|reflexivity].
Qed.

(** * Map operations *)

Lemma map_split m k : exists L R, flat_map snd m = L ++ bucket m k ++ R /\
  (forall x, flat_map snd (mset m k x) = L ++ x ++ R) /\ flat_map snd (mrem m k) = L ++ R.
Proof.
  unfold bucket. induction m as [|[k' v] m IH].
  - exists [], []. cbn. split; [reflexivity|]. split; [intros; reflexivity|reflexivity].
  - cbn [mget mset mrem]. destruct (N.eqb_spec k k') as [->|E].
    + exists [], (flat_map snd m). cbn. auto.
    + destruct IH as (L&R&A&B&C). exists (v ++ L), R. cbn [flat_map snd]. rewrite A, C.
      split; [rewrite <- app_assoc; reflexivity|]. split; [intros x; rewrite B, app_assoc; reflexivity|].
      rewrite app_assoc. reflexivity.
Qed.

Lemma mset_keys m k x : NoDup (map fst m) -> NoDup (map fst (mset m k x)) /\
  (forall j, In j (map fst (mset m k x)) <-> j = k \/ In j (map fst m)).
Proof.
  induction m as [|[k' v] m IH]; cbn [mset map fst].
  - intros _. split; [repeat constructor; auto|]. intros j. cbn. intuition.
  - intros H. inversion H as [|? ? N1 N2]; subst. specialize (IH N2). destruct IH as [I1 I2].
    destruct (N.eqb_spec k k') as [->|E]; cbn [map fst].
    + split; [constructor; assumption|]. intros j. cbn. intuition.
    + split; [constructor; [rewrite I2; intuition|exact I1]|]. intros j. cbn [In]. rewrite I2. intuition.
Qed.

Lemma mrem_keys m k : NoDup (map fst m) -> NoDup (map fst (mrem m k)) /\
  (forall j, In j (map fst (mrem m k)) -> In j (map fst m)).
Proof.
  induction m as [|[k' v] m IH]; cbn [mrem map fst]; [auto|].
  intros H. inversion H as [|? ? N1 N2]; subst. specialize (IH N2). destruct IH as [I1 I2].
  destruct (N.eqb_spec k k') as [->|E]; cbn [map fst].
  - split; [assumption|]. intros j Hj. right. exact Hj.
  - split; [constructor; auto|]. intros j [->|Hj]; cbn; auto.
Qed.

Lemma mset_in m k x e : In e (mset m k x) -> e = (k, x) \/ (In e m /\ (NoDup (map fst m) -> fst e <> k)).
Proof.
  induction m as [|[k' v] m IH]; cbn [mset].
  - intros [<-|[]]. auto.
  - destruct (N.eqb_spec k k') as [->|E]; cbn [In].
    + intros [<-|H]; [auto|]. right. split; [right; exact H|]. cbn [map fst]. intros ND EQ.
      inversion ND; subst. apply H2. apply in_map. exact H.
    + intros [<-|H]; [right; split; [left; reflexivity|cbn; congruence]|].
      destruct (IH H) as [->|[I1 I2]]; [left; reflexivity|]. right. split; [right; exact I1|].
      intros ND. inversion ND; auto.
Qed.

Lemma mrem_in m k e : In e (mrem m k) -> In e m.
Proof.
  induction m as [|[k' v] m IH]; cbn [mrem]; [auto|]. destruct (k =? k'); cbn; intuition.
Qed.

Lemma mget_in m k cs : mget m k = Some cs -> In (k, cs) m.
Proof.
  induction m as [|[k' v] m IH]; cbn [mget]; [discriminate|].
  destruct (N.eqb_spec k k') as [->|E]; [intros H; inversion H; left; reflexivity|right; auto].
Qed.

Lemma mget_nodup m k cs : NoDup (map fst m) -> In (k, cs) m -> mget m k = Some cs.
Proof.
  induction m as [|[k' v] m IH]; intros ND I; [destruct I|]. cbn [mget].
  inversion ND as [|? ? N1 N2]; subst. destruct I as [E|I].
  - inversion E; subst. rewrite N.eqb_refl. reflexivity.
  - destruct (N.eqb_spec k k') as [->|E]; [|auto]. exfalso. apply N1. apply (in_map fst _ _ I).
Qed.

(** * Candidates *)

Lemma lits_eqb_eq a : forall b, lits_eqb a b = true <-> a = b.
Proof.
  induction a as [|x a IH]; intros [|y b]; cbn [lits_eqb]; split; intros H; try discriminate; auto.
  - apply andb_true_iff in H. destruct H as [H1 H2]. apply N.eqb_eq in H1. apply IH in H2. congruence.
  - inversion H; subst. rewrite N.eqb_refl. apply IH. reflexivity.
Qed.

Definition bump (redundant : bool) (c : clause) : clause :=
  if redundant then CC (cc_id c) (cc_irr c) (cc_red c + 1) (cc_lits c)
  else CC (cc_id c) (cc_irr c + 1) (cc_red c) (cc_lits c).
Definition drop (redundant : bool) (c : clause) : clause :=
  if redundant then CC (cc_id c) (cc_irr c) (cc_red c - 1) (cc_lits c)
  else CC (cc_id c) (cc_irr c - 1) (cc_red c) (cc_lits c).
Definition copies (redundant : bool) (c : clause) : N := if redundant then cc_red c else cc_irr c.

Lemma store_candidate_spec buf lits red cs : (forall c, In c cs -> slice_ok buf c) ->
  match store_candidate buf cs lits red with
  | None => exists c, In c cs /\ lits_of buf c = lits /\ 2^32 <= copies red c + 1
  | Some (inr tt) => forall c, In c cs -> lits_of buf c <> lits
  | Some (inl (cs', (id, r))) =>
      exists pre c post, cs = pre ++ c :: post /\ cs' = pre ++ bump red c :: post /\
        lits_of buf c = lits /\ id = cc_id c /\ copies red c + 1 < 2^32 /\
        r = (if negb red && (cc_irr c =? 0) then SNewlyIrredundant else SDuplicate)
  end.
Proof.
  induction cs as [|c cs IH]; intros OK; cbn [store_candidate].
  - intros c [].
  - destruct (OK c (or_introl eq_refl)) as [S _]. rewrite S.
    destruct (lits_eqb (lits_of buf c) lits) eqn:E.
    + apply lits_eqb_eq in E. destruct (N.ltb_spec ((if red then cc_red c else cc_irr c) + 1) (2^32)) as [G|G].
      * exists [], c, cs. cbn [app]. split; [reflexivity|]. split; [unfold bump; destruct red; reflexivity|].
        split; [exact E|]. split; [reflexivity|]. split; [exact G|]. reflexivity.
      * exists c. split; [left; reflexivity|]. split; [exact E|]. exact G.
    + assert (NE : lits_of buf c <> lits) by (intros X; apply lits_eqb_eq in X; congruence).
      specialize (IH (fun c' H => OK c' (or_intror H))).
      destruct (store_candidate buf cs lits red) as [[[cs' [id r]]|[]]|].
      * destruct IH as (pre&d&post&E1&E2&E3&E4&E5&E6). exists (c :: pre), d, post. subst.
        split; [reflexivity|]. split; [reflexivity|]. auto.
      * intros d [<-|Hd]; auto.
      * destruct IH as (d&Hd&R). exists d. split; [right; exact Hd|exact R].
Qed.

Lemma delete_candidate_spec buf lits red cs : (forall c, In c cs -> slice_ok buf c) ->
  exists cs' f x g, delete_candidate buf cs lits red = Some (cs', f, x, g) /\
  match x with
  | None => cs' = cs /\ g = 0 /\
      (if f then exists c, In c cs /\ lits_of buf c = lits /\ copies red c = 0
       else forall c, In c cs -> lits_of buf c <> lits)
  | Some (id, r) =>
      exists pre c post, cs = pre ++ c :: post /\ lits_of buf c = lits /\ id = cc_id c /\ copies red c <> 0 /\
      match r with
      | DRemoved => cs' = pre ++ post /\ cc_irr (drop red c) = 0 /\ cc_red (drop red c) = 0 /\ g = buffer_used (cc_lits c)
      | DNewlyRedundant => cs' = pre ++ drop red c :: post /\ red = false /\ cc_irr (drop red c) = 0 /\ cc_red c <> 0 /\ g = 0
      | DUnchanged => cs' = pre ++ drop red c :: post /\ (red = false -> cc_irr (drop red c) <> 0) /\
                      (cc_irr (drop red c) <> 0 \/ cc_red (drop red c) <> 0) /\ g = 0
      end
  end.
Proof.
  induction cs as [|c cs IH]; intros OK; cbn [delete_candidate].
  - exists [], false, None, 0. split; [reflexivity|]. split; [reflexivity|]. split; [reflexivity|]. intros c [].
  - destruct (OK c (or_introl eq_refl)) as [S _]. rewrite S.
    destruct (lits_eqb (lits_of buf c) lits) eqn:E.
    + apply lits_eqb_eq in E. destruct (N.eqb_spec (if red then cc_red c else cc_irr c) 0) as [Z|Z].
      * exists (c :: cs), true, None, 0. split; [reflexivity|]. split; [reflexivity|]. split; [reflexivity|].
        exists c. split; [left; reflexivity|]. split; [exact E|exact Z].
      * replace (if red then CC (cc_id c) (cc_irr c) ((if red then cc_red c else cc_irr c) - 1) (cc_lits c)
                 else CC (cc_id c) ((if red then cc_red c else cc_irr c) - 1) (cc_red c) (cc_lits c)) with (drop red c)
          by (unfold drop; destruct red; reflexivity).
        destruct ((cc_irr (drop red c) =? 0) && (cc_red (drop red c) =? 0)) eqn:B.
        -- apply andb_true_iff in B. destruct B as [B1 B2]. apply N.eqb_eq in B1, B2.
           exists cs, true, (Some (cc_id c, DRemoved)), (buffer_used (cc_lits c)). split; [reflexivity|].
           exists [], c, cs. cbn [app]. repeat split; auto.
        -- destruct (negb red && (cc_irr (drop red c) =? 0)) eqn:B'.
           ++ exists (drop red c :: cs), true, (Some (cc_id c, DNewlyRedundant)), 0. split; [reflexivity|].
              exists [], c, cs. cbn [app]. apply andb_true_iff in B'. destruct B' as [B1 B2]. apply N.eqb_eq in B2.
              destruct red; [discriminate|]. repeat split; auto.
              rewrite B2 in B. cbn [N.eqb andb drop cc_red] in B. apply N.eqb_neq in B. exact B.
           ++ exists (drop red c :: cs), true, (Some (cc_id c, DUnchanged)), 0. split; [reflexivity|].
              exists [], c, cs. cbn [app]. repeat split; auto.
              ** intros ->. cbn [negb andb] in B'. apply N.eqb_neq in B'. exact B'.
              ** apply andb_false_iff in B. destruct B as [B|B]; apply N.eqb_neq in B; auto.
    + assert (NE : lits_of buf c <> lits) by (intros X; apply lits_eqb_eq in X; congruence).
      destruct (IH (fun c' H => OK c' (or_intror H))) as (cs'&f&x&g&R&H). rewrite R.
      exists (c :: cs'), f, x, g. split; [reflexivity|].
      destruct x as [[id r]|].
      * destruct H as (pre&d&post&E1&E2&E3&E4&E5). exists (c :: pre), d, post. subst.
        repeat split; auto. destruct r; destruct E5 as (X&Y); subst; split; auto.
      * destruct H as (->&->&H). split; [reflexivity|]. split; [reflexivity|]. destruct f.
        -- destruct H as (d&Hd&H). exists d. split; [right; exact Hd|exact H].
        -- intros d [<-|Hd]; auto.
Qed.

(** * Garbage collection *)

Lemma gc_candidates_spec old cs : forall new,
  (forall c, In c cs -> slice_ok old c /\ N.of_nat (length (lits_of old c)) < 2^32) ->
  match gc_candidates old cs new with
  | None => True
  | Some (cs', new') =>
      (exists ext, new' = new ++ ext) /\
      (forall ext, map (abs_c (new' ++ ext)) cs' = map (abs_c old) cs) /\
      (forall ext c, In c cs' -> slice_ok (new' ++ ext) c) /\
      vlen new' = vlen new + fold_right N.add 0 (map (fun c => buffer_used (cc_lits c)) cs') /\
      map (fun c => buffer_used (cc_lits c)) cs' = map (fun c => buffer_used (cc_lits c)) cs
  end.
Proof.
  induction cs as [|c cs IH]; intros new OK; cbn [gc_candidates].
  - split; [exists []; rewrite app_nil_r; reflexivity|]. split; [reflexivity|]. split; [intros ? ? []|].
    cbn. split; [lia|reflexivity].
  - destruct (OK c (or_introl eq_refl)) as [[S SL] LL]. rewrite S.
    destruct (clause_lits_new (lits_of old c) new) as [[ls new1]|] eqn:E; [|exact I].
    destruct (clause_lits_new_spec _ _ _ _ LL E) as (A1&A2&ext1&A3&A4).
    specialize (IH new1 (fun c' H => OK c' (or_intror H))).
    destruct (gc_candidates old cs new1) as [[cs' new']|]; [|exact I].
    destruct IH as ((ext2&B1)&B2&B3&B4&B5).
    assert (SL1 : forall ext, slice_ok (new' ++ ext) (CC (cc_id c) (cc_irr c) (cc_red c) ls) /\
                  lits_of (new' ++ ext) (CC (cc_id c) (cc_irr c) (cc_red c) ls) = lits_of old c).
    { intros ext. assert (LO : lits_of (new' ++ ext) (CC (cc_id c) (cc_irr c) (cc_red c) ls) = lits_of old c).
      { unfold lits_of at 1. cbn [cc_lits]. rewrite B1, <- app_assoc, (slice_app _ _ _ _ A1). reflexivity. }
      split; [|exact LO]. split; rewrite LO; cbn [cc_lits]; [|exact A2].
      rewrite B1, <- app_assoc. apply slice_app. exact A1. }
    split; [exists (ext1 ++ ext2); rewrite B1, A3, app_assoc; reflexivity|]. split; [|split; [|split]].
    + intros ext. cbn [map]. rewrite B2. f_equal. unfold abs_c. cbn [cc_id cc_irr cc_red].
      rewrite (proj2 (SL1 ext)). reflexivity.
    + intros ext d [<-|Hd]; [apply SL1|apply B3; exact Hd].
    + cbn [map fold_right cc_lits]. rewrite B4, A3. unfold vlen. rewrite app_length. lia.
    + cbn [map cc_lits]. rewrite B5. f_equal. unfold buffer_used. rewrite A2, SL. reflexivity.
Qed.

Lemma fold_add_app a b : fold_right N.add 0 (a ++ b) = fold_right N.add 0 a + fold_right N.add 0 b.
Proof. induction a as [|x a IH]; cbn [fold_right app]; [lia|]. rewrite IH. lia. Qed.

Lemma fold_add_perm a b : Permutation a b -> fold_right N.add 0 a = fold_right N.add 0 b.
Proof. induction 1; cbn [fold_right]; lia. Qed.

Lemma gc_map_spec old m : forall new,
  (forall c, In c (flat_map snd m) -> slice_ok old c /\ N.of_nat (length (lits_of old c)) < 2^32) ->
  match gc_map old m new with
  | None => True
  | Some (m', new') =>
      (exists ext, new' = new ++ ext) /\ map fst m' = map fst m /\
      (forall ext, Forall2 (fun e e' => fst e = fst e' /\ map (abs_c (new' ++ ext)) (snd e') = map (abs_c old) (snd e)) m m') /\
      (forall ext c, In c (flat_map snd m') -> slice_ok (new' ++ ext) c) /\
      vlen new' = vlen new + fold_right N.add 0 (map (fun c => buffer_used (cc_lits c)) (flat_map snd m'))
  end.
Proof.
  induction m as [|[k cs] m IH]; intros new OK; cbn [gc_map].
  - split; [exists []; rewrite app_nil_r; reflexivity|]. split; [reflexivity|]. split; [constructor|]. split; [intros ? ? []|]. cbn. lia.
  - cbn [flat_map snd] in OK.
    pose proof (gc_candidates_spec old cs new (fun c H => OK c (in_or_app _ _ _ (or_introl H)))) as G.
    destruct (gc_candidates old cs new) as [[cs' new1]|]; [|exact I]. destruct G as ((e1&G1)&G2&G3&G4&G5).
    specialize (IH new1 (fun c H => OK c (in_or_app _ _ _ (or_intror H)))).
    destruct (gc_map old m new1) as [[m' new']|]; [|exact I]. destruct IH as ((e2&I1)&I2&I3&I4&I5).
    split; [exists (e1 ++ e2); rewrite I1, G1, app_assoc; reflexivity|]. split; [cbn [map fst]; rewrite I2; reflexivity|].
    split; [|split].
    + intros ext. constructor; [|apply I3]. cbn [fst snd]. split; [reflexivity|]. rewrite I1, <- app_assoc. apply G2.
    + intros ext c H. cbn [flat_map snd] in H. apply in_app_or in H. destruct H as [H|H]; [|apply I4; exact H].
      rewrite I1, <- app_assoc. apply G3. exact H.
    + cbn [flat_map snd]. rewrite map_app, fold_add_app, I5, G4. lia.
Qed.
