(** Effect of storing and deleting clauses and of rehashing on the invariant. *)
From Coq Require Import Arith ZArith ZifyBool ZifyNat ZifyN Permutation Sorted.
From Verif Require Import Spec Lit LitProofs Vec SortedLits SortedLitsProofs Hash HashProofs Vli BinFormat Checker CheckerStore CheckerInv.

Lemma nodup_map_inj {A B} (f : A -> B) l x y : NoDup (map f l) -> In x l -> In y l -> f x = f y -> x = y.
Proof.
  induction l as [|z l IH]; intros ND Hx Hy E; [destruct Hx|]. cbn [map] in ND. inversion ND as [|? ? N1 N2]; subst.
  destruct Hx as [<-|Hx], Hy as [<-|Hy]; auto.
  - exfalso. apply N1. rewrite E. apply in_map. exact Hy.
  - exfalso. apply N1. rewrite <- E. apply in_map. exact Hx.
Qed.

Lemma bucket_in_allc cl k c : In c (bucket (cmap cl) k) -> In c (allc cl).
Proof.
  destruct (map_split (cmap cl) k) as (L&R&A&_&_). unfold allc. rewrite A. intros H.
  apply in_or_app. right. apply in_or_app. left. exact H.
Qed.

Lemma bucket_hash h cl vs k c : wf h cl vs -> In c (bucket (cmap cl) k) ->
  hasher_hash h (lits_of (literal_buffer cl) c) = Some k.
Proof.
  intros W H. unfold bucket in H. destruct (mget (cmap cl) k) as [cs|] eqn:E; [|destruct H].
  apply mget_in in E. eapply wf_hash; eassumption.
Qed.

(** every stored clause is found in the bucket of its hash *)
Lemma stored_in_bucket h cl vs c : wf h cl vs -> In c (allc cl) ->
  exists k, hasher_hash h (lits_of (literal_buffer cl) c) = Some k /\ In c (bucket (cmap cl) k).
Proof.
  intros W H. unfold allc in H. apply in_flat_map in H. destruct H as ([k cs]&He&Hc).
  exists k. split; [eapply wf_hash; eassumption|]. unfold bucket.
  rewrite (mget_nodup _ k cs (wf_keys h cl vs W) He). exact Hc.
Qed.

Lemma map_fst_app {A B} (f : A -> B) a x b : map f (a ++ x :: b) = map f a ++ f x :: map f b.
Proof. rewrite map_app. reflexivity. Qed.

(** Replacing one bucket. *)
Definition put_bucket (m : list (N * list clause)) (k : N) (cs : list clause) : list (N * list clause) :=
  match cs with [] => mrem m k | _ => mset m k cs end.

Lemma put_bucket_split m k : exists L R, flat_map snd m = L ++ bucket m k ++ R /\
  (forall x, flat_map snd (put_bucket m k x) = L ++ x ++ R) /\ (forall x, flat_map snd (mset m k x) = L ++ x ++ R).
Proof.
  destruct (map_split m k) as (L&R&A&B&C). exists L, R. split; [exact A|]. split; [|exact B].
  intros [|c x]; [exact C|apply B].
Qed.

Lemma put_bucket_in m k x e : In e (put_bucket m k x) -> e = (k, x) \/ In e m.
Proof.
  destruct x as [|c x]; cbn [put_bucket]; intros H.
  - right. eapply mrem_in. exact H.
  - apply mset_in in H. intuition.
Qed.

Lemma put_bucket_keys m k x : NoDup (map fst m) -> NoDup (map fst (put_bucket m k x)).
Proof. intros H. destruct x; cbn [put_bucket]; [apply mrem_keys|apply mset_keys]; exact H. Qed.

(** The invariant after replacing the bucket [k] by [cs'] and extending the buffer. *)
Lemma wf_put h cl vs k cs' m' next' buf' g' counts' :
  wf h cl vs ->
  m' = put_bucket (cmap cl) k cs' \/ m' = mset (cmap cl) k cs' ->
  (exists ext, buf' = literal_buffer cl ++ ext) -> next_clause_id cl <= next' ->
  (forall c, In c cs' -> slice_ok buf' c /\ hasher_hash h (lits_of buf' c) = Some k) ->
  let cl' := Clauses next' buf' g' m' (unit_clauses cl) (unit_conflict cl) in
  let vs' := with_counts vs counts' in
  (forall a, In a (aclauses cl') -> good_clause next' (nvars vs) a) ->
  NoDup (map a_lits (aclauses cl')) ->
  NoDup (map a_id (aclauses cl') ++ unit_ids (unit_clauses cl)) ->
  vlen counts' = vlen (lit_count vs) ->
  (forall l n, vget counts' l = Some n -> n = count_lit (aclauses cl') l) ->
  g' + sumN (map (fun c => buffer_used (cc_lits c)) (allc cl')) = vlen buf' ->
  wf h cl' vs'.
Proof.
  intros W M [ext B] NX CS cl' vs' GC NL NI LC CC G. subst buf'.
  assert (KI : forall e, In e m' -> e = (k, cs') \/ In e (cmap cl)).
  { destruct M as [-> | ->]; intros e He; [apply put_bucket_in; exact He|apply mset_in in He; intuition]. }
  assert (SO : forall c, In c (allc cl) -> slice_ok (literal_buffer cl ++ ext) c /\ lits_of (literal_buffer cl ++ ext) c = lits_of (literal_buffer cl) c).
  { intros c Hc. apply slice_ok_app. eapply wf_slice; eassumption. }
  destruct W as [w1 w2 w3 w4 w5 w6 w7 w8 w9 w10 w11].
  constructor; cbn [cl' vs' with_counts lit_count cmap literal_buffer unit_clauses next_clause_id garbage_size]; auto.
  - destruct M as [-> | ->]; [apply put_bucket_keys|apply mset_keys]; exact w1.
  - intros c Hc. unfold allc in Hc. apply in_flat_map in Hc. destruct Hc as (e&He&Hc). cbn [cl' cmap] in He.
    destruct (KI e He) as [-> | Ho]; [apply CS; exact Hc|]. apply SO. unfold allc. apply in_flat_map. eauto.
  - intros k' cs c He Hc. destruct (KI _ He) as [E|Ho].
    + inversion E; subst. apply CS. exact Hc.
    + rewrite (proj2 (SO c ltac:(unfold allc; apply in_flat_map; eauto))). eapply w3; eassumption.
  - intros v u Hu. change (unit_of cl v = Some u) in Hu. destruct (w7 v u Hu) as (?&i&?&?).
    split; [assumption|]. exists i. split; [assumption|lia].
  - rewrite LC. exact w9.
Qed.

Lemma abs_c_bump buf red c : abs_c buf (bump red c) = abump red (abs_c buf c).
Proof. unfold abs_c, bump, abump, lits_of. destruct red; reflexivity. Qed.
Lemma abs_c_drop buf red c : abs_c buf (drop red c) = adrop red (abs_c buf c).
Proof. unfold abs_c, drop, adrop, lits_of. destruct red; reflexivity. Qed.
Lemma cc_lits_bump red c : cc_lits (bump red c) = cc_lits c. Proof. destruct red; reflexivity. Qed.
Lemma cc_lits_drop red c : cc_lits (drop red c) = cc_lits c. Proof. destruct red; reflexivity. Qed.
Lemma slice_ok_bump buf red c : slice_ok buf c -> slice_ok buf (bump red c) /\ lits_of buf (bump red c) = lits_of buf c.
Proof. unfold slice_ok, lits_of. rewrite cc_lits_bump. auto. Qed.
Lemma slice_ok_drop buf red c : slice_ok buf c -> slice_ok buf (drop red c) /\ lits_of buf (drop red c) = lits_of buf c.
Proof. unfold slice_ok, lits_of. rewrite cc_lits_drop. auto. Qed.

Lemma perm_mid {A} (L pre post R : list A) x : Permutation (L ++ (pre ++ x :: post) ++ R) (x :: L ++ pre ++ post ++ R).
Proof.
  rewrite <- app_assoc. cbn [app]. rewrite (app_assoc L pre (x :: post ++ R)), (app_assoc L pre (post ++ R)).
  symmetry. apply Permutation_middle.
Qed.

Lemma a_lits_bump red a : a_lits (abump red a) = a_lits a. Proof. destruct red; reflexivity. Qed.
Lemma a_id_bump red a : a_id (abump red a) = a_id a. Proof. destruct red; reflexivity. Qed.
Lemma a_lits_drop red a : a_lits (adrop red a) = a_lits a. Proof. destruct red; reflexivity. Qed.
Lemma a_id_drop red a : a_id (adrop red a) = a_id a. Proof. destruct red; reflexivity. Qed.

Lemma used_len buf c : slice_ok buf c -> buffer_used (cc_lits c) = (let n := N.of_nat (length (lits_of buf c)) in if 3 <? n then n else 0).
Proof. intros [_ E]. unfold buffer_used. rewrite E. reflexivity. Qed.

(** Storing a clause with at least two literals. *)
Lemma store_big_found h cl vs k lits red pre c post :
  wf h cl vs -> bucket (cmap cl) k = pre ++ c :: post -> lits_of (literal_buffer cl) c = lits ->
  let cl' := with_cmap cl (mset (cmap cl) k (pre ++ bump red c :: post)) in
  wf h cl' vs /\ exists a B, Permutation (aclauses cl) (a :: B) /\ a = abs_c (literal_buffer cl) c /\
    Permutation (aclauses cl') (abump red a :: B).
Proof.
  intros W BK LO cl'. set (buf := literal_buffer cl) in *. set (a := abs_c buf c).
  destruct (put_bucket_split (cmap cl) k) as (L&R&S1&_&S2). rewrite BK in S1.
  set (B := map (abs_c buf) (L ++ pre ++ post ++ R)).
  assert (P1 : Permutation (aclauses cl) (a :: B)).
  { unfold aclauses, allc. fold buf. rewrite S1. change (a :: B) with (map (abs_c buf) (c :: L ++ pre ++ post ++ R)).
    apply Permutation_map, perm_mid. }
  assert (AC' : allc cl' = L ++ (pre ++ bump red c :: post) ++ R) by (unfold allc; cbn [cl' with_cmap cmap]; apply S2).
  assert (P2 : Permutation (aclauses cl') (abump red a :: B)).
  { unfold aclauses. rewrite AC'. cbn [cl' with_cmap literal_buffer]. fold buf.
    rewrite (Permutation_map (abs_c buf) (perm_mid L pre post R (bump red c))). cbn [map]. rewrite abs_c_bump. reflexivity. }
  split; [|exists a, B; auto].
  pose proof W as W0. destruct W as [w1 w2 w3 w4 w5 w6 w7 w8 w9 w10 w11].
  assert (CI : forall d, In d (pre ++ c :: post) -> In d (allc cl)) by (intros d Hd; apply (bucket_in_allc cl k); rewrite BK; exact Hd).
  change cl' with (Clauses (next_clause_id cl) buf (garbage_size cl) (mset (cmap cl) k (pre ++ bump red c :: post)) (unit_clauses cl) (unit_conflict cl)).
  replace vs with (with_counts vs (lit_count vs)) at 1 by (destruct vs; reflexivity).
  eapply wf_put; try eassumption; [right; reflexivity|exists []; rewrite app_nil_r; reflexivity|lia| | | | |reflexivity| |].
  - intros d Hd.
    assert (Q : forall d, In d (pre ++ c :: post) -> slice_ok buf d /\ hasher_hash h (lits_of buf d) = Some k).
    { intros x Hx. split; [apply w2, CI, Hx|]. apply (bucket_hash h cl vs k x W0). rewrite BK. exact Hx. }
    apply in_app_or in Hd. destruct Hd as [Hd|[<-|Hd]].
    + apply Q. apply in_or_app. auto.
    + destruct (Q c ltac:(apply in_or_app; cbn; auto)) as [Q1 Q2]. destruct (slice_ok_bump buf red c Q1) as [Q3 Q4].
      rewrite Q4. auto.
    + apply Q. apply in_or_app. cbn. auto.
  - intros x Hx. fold cl' in Hx. apply (Permutation_in _ P2) in Hx. destruct Hx as [<-|Hx].
    + assert (Ha : In a (aclauses cl)) by (apply (Permutation_in _ (Permutation_sym P1)); left; reflexivity).
      destruct (w4 a Ha). constructor; rewrite ?a_lits_bump, ?a_id_bump; auto.
      unfold abump. destruct red; cbn [a_irr a_red]; [right|left]; lia.
    + apply w4. apply (Permutation_in _ (Permutation_sym P1)). right. exact Hx.
  - fold cl'. apply (Permutation_NoDup (Permutation_sym (Permutation_map a_lits P2))). cbn [map]. rewrite a_lits_bump.
    apply (Permutation_NoDup (Permutation_map a_lits P1)). exact w5.
  - fold cl'. apply (Permutation_NoDup (Permutation_sym (Permutation_app_tail _ (Permutation_map a_id P2)))). cbn [map]. rewrite a_id_bump.
    apply (Permutation_NoDup (Permutation_app_tail _ (Permutation_map a_id P1))). exact w6.
  - intros l n Hn. change (n = count_lit (aclauses cl') l). rewrite (count_lit_perm _ _ l P2), count_lit_cons, a_lits_bump, <- (count_lit_cons a B), <- (count_lit_perm _ _ l P1).
    apply w10. exact Hn.
  - change (garbage_size cl + sumN (map (fun c => buffer_used (cc_lits c)) (allc cl')) = vlen buf). rewrite AC'. unfold buf. rewrite <- w11. f_equal. unfold allc. rewrite S1. rewrite !map_app. cbn [map]. rewrite cc_lits_bump. reflexivity.
Qed.

Lemma sumN_app a b : sumN (a ++ b) = sumN a + sumN b. Proof. apply fold_add_app. Qed.

Lemma store_big_new h cl vs k lits (red : bool) ls buf' counts' :
  wf h cl vs -> good_lits lits -> (2 <= length lits)%nat -> Forall (fun l => lit_var l < nvars vs) lits ->
  hasher_hash h lits = Some k -> (forall c, In c (bucket (cmap cl) k) -> lits_of (literal_buffer cl) c <> lits) ->
  clause_lits_new lits (literal_buffer cl) = Some (ls, buf') -> count_up (lit_count vs) lits = Some counts' ->
  let id := next_clause_id cl in
  let c := CC id (if red then 0 else 1) (if red then 1 else 0) ls in
  let cl' := with_next_id (with_buffer (with_cmap cl (mset (cmap cl) k (bucket (cmap cl) k ++ [c]))) buf') (id + 1) in
  wf h cl' (with_counts vs counts') /\ ~ In lits (map a_lits (aclauses cl)) /\
  Permutation (aclauses cl') (AC id (if red then 0 else 1) (if red then 1 else 0) lits :: aclauses cl).
Proof.
  intros W GL LEN VARS HK NB CLN CU id c cl'. set (buf := literal_buffer cl) in *.
  destruct (clause_lits_new_spec _ _ _ _ (good_length _ GL) CLN) as (S1&S2&ext&S3&S4).
  assert (LO : lits_of buf' c = lits) by (unfold lits_of; cbn [c cc_lits]; rewrite S1; reflexivity).
  assert (SOK : slice_ok buf' c) by (split; rewrite LO; assumption).
  destruct (put_bucket_split (cmap cl) k) as (L&R&M1&_&M2).
  assert (SA : forall d, In d (allc cl) -> slice_ok buf' d /\ lits_of buf' d = lits_of buf d).
  { intros d Hd. rewrite S3. apply slice_ok_app. eapply wf_slice; eassumption. }
  assert (AE : map (abs_c buf') (allc cl) = aclauses cl).
  { unfold aclauses. apply map_ext_in. intros d Hd. unfold abs_c. rewrite (proj2 (SA d Hd)). reflexivity. }
  assert (AC' : allc cl' = L ++ (bucket (cmap cl) k ++ [c]) ++ R) by (unfold allc; cbn [cl' with_next_id with_buffer with_cmap cmap]; apply M2).
  assert (PC : Permutation (allc cl') (c :: allc cl)).
  { rewrite AC'. unfold allc. rewrite M1. rewrite (perm_mid L (bucket (cmap cl) k) [] R c). reflexivity. }
  assert (P : Permutation (aclauses cl') (AC id (if red then 0 else 1) (if red then 1 else 0) lits :: aclauses cl)).
  { unfold aclauses at 1. cbn [cl' with_next_id with_buffer with_cmap literal_buffer].
    rewrite (Permutation_map (abs_c buf') PC). cbn [map]. rewrite AE. unfold abs_c at 1. rewrite LO. reflexivity. }
  assert (NI : ~ In lits (map a_lits (aclauses cl))).
  { intros H. apply in_map_iff in H. destruct H as (a&E&Ha). unfold aclauses in Ha. apply in_map_iff in Ha.
    destruct Ha as (d&<-&Hd). cbn [abs_c a_lits] in E. fold buf in E. apply (NB d); [|exact E].
    destruct (stored_in_bucket h cl vs d W Hd) as (k'&K1&K2). fold buf in K1. rewrite E, HK in K1. inversion K1; subst. exact K2. }
  split; [|split; assumption].
  pose proof W as W0. destruct W as [w1 w2 w3 w4 w5 w6 w7 w8 w9 w10 w11].
  destruct (count_up_spec lits _ _ (ssorted_nodup _ (proj1 GL)) CU) as [C1 C2].
  change cl' with (Clauses (id + 1) buf' (garbage_size cl) (mset (cmap cl) k (bucket (cmap cl) k ++ [c])) (unit_clauses cl) (unit_conflict cl)).
  eapply wf_put; try eassumption; [right; reflexivity|exists ext; exact S3|subst id; lia| | | | | |].
  - intros d Hd. apply in_app_or in Hd. destruct Hd as [Hd|[<-|[]]].
    + destruct (SA d (bucket_in_allc cl k d Hd)) as [Q1 Q2]. split; [exact Q1|]. rewrite Q2. apply (bucket_hash h cl vs k d W0 Hd).
    + split; [exact SOK|]. rewrite LO. exact HK.
  - fold cl'. intros x Hx. apply (Permutation_in _ P) in Hx. destruct Hx as [<-|Hx].
    + constructor; cbn [a_lits a_irr a_red a_id]; auto; [destruct red; [right|left]; discriminate|lia].
    + destruct (w4 x Hx). constructor; auto. subst id. lia.
  - fold cl'. apply (Permutation_NoDup (Permutation_sym (Permutation_map a_lits P))). cbn [map a_lits]. constructor; assumption.
  - fold cl'. apply (Permutation_NoDup (Permutation_sym (Permutation_app_tail _ (Permutation_map a_id P)))). cbn [map a_id app].
    constructor; [|exact w6]. intros H. apply in_app_or in H. destruct H as [H|H].
    + apply in_map_iff in H. destruct H as (x&E&Hx). pose proof (gc_id _ _ _ (w4 x Hx)). subst id. lia.
    + apply unit_of_ids in H. destruct H as (v&b&Hv). destruct (w7 _ _ Hv) as (_&j&E&?). cbn in E. inversion E; subst. lia.
  - intros l n Hn. change (n = count_lit (aclauses cl') l). rewrite (count_lit_perm _ _ l P), count_lit_cons. cbn [a_lits].
    assert (Hl : l < vlen (lit_count vs)) by (rewrite <- C1; eapply vget_some_lt; exact Hn).
    apply vget_lt in Hl. destruct Hl as [m Hm]. pose proof (C2 l m Hm) as E. rewrite E in Hn. inversion Hn.
    rewrite (w10 l m Hm). lia.
  - change (garbage_size cl + sumN (map (fun c => buffer_used (cc_lits c)) (allc cl')) = vlen buf'). rewrite (sumN_perm _ _ (Permutation_map (fun c => buffer_used (cc_lits c)) PC)). cbn [map].
    change (sumN (buffer_used (cc_lits c) :: map (fun c0 => buffer_used (cc_lits c0)) (allc cl)))
      with (buffer_used (cc_lits c) + sumN (map (fun c0 => buffer_used (cc_lits c0)) (allc cl))).
    rewrite S3. unfold vlen in *. rewrite app_length. cbn [c cc_lits]. fold buf in w11. lia.
Qed.

Lemma store_eff_ext st cl vs cl1 vs1 lits red st' cl' id r : ext cl vs cl1 vs1 ->
  store_eff st cl1 lits red st' cl' id r -> store_eff st cl lits red st' cl' id r.
Proof.
  intros E H. pose proof (ext_aclauses _ _ _ _ E) as A. destruct E as [e1 e2 e3 e4 e5 e6 e7 e8 e9 e10 e11 e12].
  destruct H; rewrite ?A, ?e3, ?e5, ?e6 in *.
  - apply SE_empty; auto; first [solve [intros v; rewrite <- e6; auto]|congruence].
  - eapply SE_unit_dup; eauto; first [solve [intros v; rewrite <- e6; auto]|congruence].
  - eapply SE_unit_conflict; eauto; first [solve [intros v; rewrite <- e6; auto]|congruence].
  - eapply SE_unit_new; eauto; first [solve [intros v; rewrite <- e6; auto]|congruence].
  - eapply SE_found; eauto; first [solve [intros v; rewrite <- e6; auto]|congruence].
  - eapply SE_new; eauto; first [solve [intros v; rewrite <- e6; auto]|congruence].
Qed.

(** variables only gain fresh entries (clause counts aside) *)
Record vext (vs vs' : variables) : Prop := {
  vx_used : used_user_vars vs' = used_user_vars vs;
  vx_nv : nvars vs <= nvars vs';
  vx_old : forall v, v < nvars vs -> vget (var_datas vs') v = vget (var_datas vs) v;
  vx_fresh : forall v, nvars vs <= v -> v < nvars vs' -> vget (var_datas vs') v = Some vd_default;
}.

Lemma ext_vext cl vs cl' vs' : ext cl vs cl' vs' -> vext vs vs'.
Proof. intros E. constructor; apply E. Qed.

Lemma vext_counts vs vs' counts : vext vs vs' -> vext vs (with_counts vs' counts).
Proof. intros [a b c d]. constructor; auto. Qed.

Lemma vext_refl vs : vext vs vs.
Proof. constructor; auto; intros; lia. Qed.

Lemma vext_trans a b c : vext a b -> vext b c -> vext a c.
Proof.
  intros [a1 a2 a3 a4] [b1 b2 b3 b4]. constructor; [congruence|lia| |].
  - intros v H. rewrite b3, a3 by lia. reflexivity.
  - intros v H1 H2. destruct (N.ltb_spec v (nvars b)); [rewrite b3, a4 by lia; reflexivity|apply b4; assumption].
Qed.

Lemma store_clause_spec st h cl vs lits red st' cl' vs' id r :
  wf h cl vs -> good_lits lits -> store_clause st h cl vs lits red = Some (st', cl', vs', (id, r)) ->
  wf h cl' vs' /\ store_eff st cl lits red st' cl' id r /\ vext vs vs' /\ Forall (fun l => lit_var l < nvars vs') lits.
Proof.
  intros W GL H. unfold store_clause in H. pose proof (ensure_vars_spec h lits cl vs W) as EV.
  destruct (ensure_vars cl vs lits) as [cl1 vs1]. destruct EV as (W1&E1&V1).
  destruct lits as [|l1 [|l2 rest]].
  - inversion H; subst. split; [|split; [|split]].
    + apply (wf_same_clauses h cl1 vs'); auto; cbn [with_next_id next_clause_id unit_clauses]; [lia|apply (wf_ids _ _ _ W1)|].
      intros v u Hu. change (unit_of cl1 v = Some u) in Hu. destruct (wf_units _ _ _ W1 v u Hu) as (?&j&?&?).
      split; [assumption|]. exists j. split; [assumption|lia].
    + eapply store_eff_ext; [exact E1|]. apply SE_empty; reflexivity.
    + eapply ext_vext. exact E1.
    + exact V1.
  - destruct (store_unit_clause st cl1 l1) as [[[st2 cl2] [id2 r2]]|] eqn:SU; [|discriminate]. inversion H; subst.
    inversion V1; subst. destruct GL as (G1&G2&G3). inversion G3; subst.
    destruct (store_unit_spec h st cl1 vs' l1 st' cl' id r W1 ltac:(assumption) ltac:(assumption) SU) as (A&B&_).
    split; [exact A|]. split; [|split; [eapply ext_vext; exact E1|exact V1]].
    eapply store_eff_ext; [exact E1|]. destruct B; try discriminate.
    + eapply SE_unit_dup; eassumption.
    + eapply SE_unit_conflict; eassumption.
    + eapply SE_unit_new; eassumption.
    + cbn [length] in *. lia.
    + cbn [length] in *. lia.
  - set (lits := l1 :: l2 :: rest) in *. assert (LEN : (2 <= length lits)%nat) by (cbn; lia).
    destruct (hasher_hash h lits) as [k|] eqn:HK; [|discriminate].
    pose proof (store_candidate_spec (literal_buffer cl1) lits red (bucket (cmap cl1) k)
      (fun c Hc => wf_slice h cl1 vs1 W1 c (bucket_in_allc cl1 k c Hc))) as SC.
    destruct (store_candidate (literal_buffer cl1) (bucket (cmap cl1) k) lits red) as [[[cs' [id2 r2]]|[]]|]; [| |discriminate].
    + inversion H; subst st2 id2 r2 vs1 || inversion H; subst.
      destruct SC as (pre&c&post&BK&->&LO&->&_&->).
      destruct (store_big_found h cl1 vs' k lits red pre c post W1 BK LO) as (A&a&B&P1&Ea&P2).
      split; [exact A|]. split; [|split; [eapply ext_vext; exact E1|exact V1]].
      eapply store_eff_ext; [exact E1|]. eapply SE_found with (a := a) (B := B); subst a; auto.
    + destruct (clause_lits_new lits (literal_buffer cl1)) as [[ls buf']|] eqn:CLN; [|discriminate].
      destruct (count_up (lit_count vs1) lits) as [counts'|] eqn:CU; [|discriminate]. inversion H; subst.
      destruct (store_big_new h cl1 vs1 k lits red ls buf' counts' W1 GL LEN V1 HK SC CLN CU) as (A&B&C).
      split; [exact A|]. split; [|split; [apply vext_counts; eapply ext_vext; exact E1|exact V1]].
      eapply store_eff_ext; [exact E1|]. apply SE_new; auto.
Qed.

(** * Deleting clauses *)

Inductive delete_eff (cl : clauses) (lits : list N) (red : bool) (cl' : clauses) : (N * delete_result) + check_msg -> Prop :=
| DE_removed a B :
    Permutation (aclauses cl) (a :: B) -> a_lits a = lits -> acopies red a = 1 -> acopies (negb red) a = 0 ->
    Permutation (aclauses cl') B -> delete_eff cl lits red cl' (inl (a_id a, DRemoved))
| DE_dropped a B r :
    Permutation (aclauses cl) (a :: B) -> a_lits a = lits -> acopies red a <> 0 ->
    a_irr (adrop red a) <> 0 \/ a_red (adrop red a) <> 0 ->
    r = (if negb red && (a_irr (adrop red a) =? 0) then DNewlyRedundant else DUnchanged) ->
    Permutation (aclauses cl') (adrop red a :: B) -> delete_eff cl lits red cl' (inl (a_id a, r))
| DE_error m :
    Permutation (aclauses cl') (aclauses cl) ->
    ((length lits < 2)%nat \/ forall a, In a (aclauses cl) -> a_lits a = lits -> acopies red a = 0) ->
    delete_eff cl lits red cl' (inr m).

(** everything but the stored long clauses is the same *)
Record same_units (cl cl' : clauses) : Prop := {
  su_units : unit_clauses cl' = unit_clauses cl;
  su_conflict : unit_conflict cl' = unit_conflict cl;
  su_next : next_clause_id cl' = next_clause_id cl;
}.

Lemma delete_big_drop h cl vs k lits red pre c post g' :
  wf h cl vs -> bucket (cmap cl) k = pre ++ c :: post -> lits_of (literal_buffer cl) c = lits ->
  cc_irr (drop red c) <> 0 \/ cc_red (drop red c) <> 0 -> g' = garbage_size cl ->
  let m := put_bucket (cmap cl) k (pre ++ drop red c :: post) in
  let cl' := with_garbage (with_cmap cl m) g' in
  wf h cl' vs /\ exists B, Permutation (aclauses cl) (abs_c (literal_buffer cl) c :: B) /\
    Permutation (aclauses cl') (adrop red (abs_c (literal_buffer cl) c) :: B).
Proof.
  intros W BK LO NZ Eg m cl'. set (buf := literal_buffer cl) in *. set (a := abs_c buf c).
  destruct (put_bucket_split (cmap cl) k) as (L&R&S1&S2&_). rewrite BK in S1.
  set (B := map (abs_c buf) (L ++ pre ++ post ++ R)).
  assert (P1 : Permutation (aclauses cl) (a :: B)).
  { unfold aclauses, allc. fold buf. rewrite S1. change (a :: B) with (map (abs_c buf) (c :: L ++ pre ++ post ++ R)).
    apply Permutation_map, perm_mid. }
  assert (AC' : allc cl' = L ++ (pre ++ drop red c :: post) ++ R) by (unfold allc; cbn [cl' with_cmap with_garbage cmap]; apply S2).
  assert (P2 : Permutation (aclauses cl') (adrop red a :: B)).
  { unfold aclauses. rewrite AC'. cbn [cl' with_cmap with_garbage literal_buffer]. fold buf.
    rewrite (Permutation_map (abs_c buf) (perm_mid L pre post R (drop red c))). cbn [map]. rewrite abs_c_drop. reflexivity. }
  split; [|exists B; auto].
  pose proof W as W0. destruct W as [w1 w2 w3 w4 w5 w6 w7 w8 w9 w10 w11].
  assert (CI : forall d, In d (pre ++ c :: post) -> In d (allc cl)) by (intros d Hd; apply (bucket_in_allc cl k); rewrite BK; exact Hd).
  change cl' with (Clauses (next_clause_id cl) buf g' m (unit_clauses cl) (unit_conflict cl)).
  replace vs with (with_counts vs (lit_count vs)) at 1 by (destruct vs; reflexivity).
  eapply wf_put; try eassumption; [left; reflexivity|exists []; rewrite app_nil_r; reflexivity|lia| | | | |reflexivity| |].
  - intros d Hd.
    assert (Q : forall d, In d (pre ++ c :: post) -> slice_ok buf d /\ hasher_hash h (lits_of buf d) = Some k).
    { intros x Hx. split; [apply w2, CI, Hx|]. apply (bucket_hash h cl vs k x W0). rewrite BK. exact Hx. }
    apply in_app_or in Hd. destruct Hd as [Hd|[<-|Hd]].
    + apply Q. apply in_or_app. auto.
    + destruct (Q c ltac:(apply in_or_app; cbn; auto)) as [Q1 Q2]. destruct (slice_ok_drop buf red c Q1) as [Q3 Q4].
      rewrite Q4. auto.
    + apply Q. apply in_or_app. cbn. auto.
  - intros x Hx. fold cl' in Hx. apply (Permutation_in _ P2) in Hx. destruct Hx as [<-|Hx].
    + assert (Ha : In a (aclauses cl)) by (apply (Permutation_in _ (Permutation_sym P1)); left; reflexivity).
      destruct (w4 a Ha). constructor; rewrite ?a_lits_drop, ?a_id_drop; auto.
      unfold a. unfold adrop, drop in *. destruct red; cbn [a_irr a_red abs_c cc_irr cc_red] in *; auto.
    + apply w4. apply (Permutation_in _ (Permutation_sym P1)). right. exact Hx.
  - apply (Permutation_NoDup (Permutation_sym (Permutation_map a_lits P2))). cbn [map]. rewrite a_lits_drop.
    apply (Permutation_NoDup (Permutation_map a_lits P1)). exact w5.
  - apply (Permutation_NoDup (Permutation_sym (Permutation_app_tail _ (Permutation_map a_id P2)))). cbn [map]. rewrite a_id_drop.
    apply (Permutation_NoDup (Permutation_app_tail _ (Permutation_map a_id P1))). exact w6.
  - intros l n Hn. change (n = count_lit (aclauses cl') l). rewrite (count_lit_perm _ _ l P2), count_lit_cons, a_lits_drop, <- (count_lit_cons a B), <- (count_lit_perm _ _ l P1).
    apply w10. exact Hn.
  - change (g' + sumN (map (fun c => buffer_used (cc_lits c)) (allc cl')) = vlen buf). rewrite AC', Eg. unfold buf. rewrite <- w11. f_equal. unfold allc. rewrite S1. rewrite !map_app. cbn [map]. rewrite cc_lits_drop. reflexivity.
Qed.

Lemma delete_big_none h cl vs k g' : wf h cl vs -> g' = garbage_size cl ->
  let cl' := with_garbage (with_cmap cl (put_bucket (cmap cl) k (bucket (cmap cl) k))) g' in
  wf h cl' vs /\ aclauses cl' = aclauses cl.
Proof.
  intros W Eg cl'. destruct (put_bucket_split (cmap cl) k) as (L&R&S1&S2&_).
  assert (AC' : allc cl' = allc cl) by (unfold allc; cbn [cl' with_cmap with_garbage cmap]; rewrite S2; congruence).
  assert (A : aclauses cl' = aclauses cl) by (unfold aclauses; rewrite AC'; reflexivity).
  split; [|exact A]. pose proof W as W0. destruct W as [w1 w2 w3 w4 w5 w6 w7 w8 w9 w10 w11].
  change cl' with (Clauses (next_clause_id cl) (literal_buffer cl) g' (put_bucket (cmap cl) k (bucket (cmap cl) k)) (unit_clauses cl) (unit_conflict cl)).
  replace vs with (with_counts vs (lit_count vs)) at 1 by (destruct vs; reflexivity).
  eapply wf_put; try eassumption; [left; reflexivity|exists []; rewrite app_nil_r; reflexivity|lia| | | | |reflexivity| |].
  - intros d Hd. split; [apply w2, (bucket_in_allc cl k), Hd|apply (bucket_hash h cl vs k d W0 Hd)].
  - change (forall a, In a (aclauses cl') -> good_clause (next_clause_id cl) (nvars vs) a). rewrite A. exact w4.
  - change (NoDup (map a_lits (aclauses cl'))). rewrite A. exact w5.
  - change (NoDup (map a_id (aclauses cl') ++ unit_ids (unit_clauses cl))). rewrite A. exact w6.
  - intros l n Hn. change (n = count_lit (aclauses cl') l). rewrite A. apply w10. exact Hn.
  - change (g' + sumN (map (fun c => buffer_used (cc_lits c)) (allc cl')) = vlen (literal_buffer cl)). rewrite AC', Eg. exact w11.
Qed.

Lemma delete_big_remove h cl vs k lits pre c post g' counts' :
  wf h cl vs -> bucket (cmap cl) k = pre ++ c :: post -> lits_of (literal_buffer cl) c = lits ->
  g' = garbage_size cl + buffer_used (cc_lits c) -> count_down (lit_count vs) lits = Some counts' ->
  let m := put_bucket (cmap cl) k (pre ++ post) in
  let cl' := with_garbage (with_cmap cl m) g' in
  wf h cl' (with_counts vs counts') /\ Permutation (aclauses cl) (abs_c (literal_buffer cl) c :: aclauses cl').
Proof.
  intros W BK LO Eg CD m cl'. set (buf := literal_buffer cl) in *. set (a := abs_c buf c).
  destruct (put_bucket_split (cmap cl) k) as (L&R&S1&S2&_). rewrite BK in S1.
  assert (AC' : allc cl' = L ++ (pre ++ post) ++ R) by (unfold allc; cbn [cl' with_cmap with_garbage cmap]; apply S2).
  assert (PC : Permutation (allc cl) (c :: allc cl')).
  { rewrite AC'. unfold allc. rewrite S1. rewrite <- (app_assoc pre post R). apply perm_mid. }
  assert (P1 : Permutation (aclauses cl) (a :: aclauses cl')) by (apply (Permutation_map (abs_c buf) PC)).
  split; [|exact P1].
  pose proof W as W0. destruct W as [w1 w2 w3 w4 w5 w6 w7 w8 w9 w10 w11].
  assert (CI : forall d, In d (pre ++ c :: post) -> In d (allc cl)) by (intros d Hd; apply (bucket_in_allc cl k); rewrite BK; exact Hd).
  assert (Ha : In a (aclauses cl)) by (apply (Permutation_in _ (Permutation_sym P1)); left; reflexivity).
  assert (ND : NoDup lits) by (rewrite <- LO; apply ssorted_nodup; apply (gc_lits _ _ _ (w4 a Ha))).
  destruct (count_down_spec lits _ _ ND CD) as [C1 C2].
  change cl' with (Clauses (next_clause_id cl) buf g' m (unit_clauses cl) (unit_conflict cl)).
  eapply wf_put; try eassumption; [left; reflexivity|exists []; rewrite app_nil_r; reflexivity|lia| | | | | |].
  - intros d Hd. assert (Hd' : In d (pre ++ c :: post)) by (apply in_app_or in Hd; apply in_or_app; cbn; tauto).
    split; [apply w2, CI, Hd'|]. apply (bucket_hash h cl vs k d W0). rewrite BK. exact Hd'.
  - intros x Hx. fold cl' in Hx. apply w4. apply (Permutation_in _ (Permutation_sym P1)). right. exact Hx.
  - pose proof (Permutation_NoDup (Permutation_map a_lits P1) w5) as X. inversion X; assumption.
  - pose proof (Permutation_NoDup (Permutation_app_tail _ (Permutation_map a_id P1)) w6) as X. inversion X; assumption.
  - intros l n Hn. change (n = count_lit (aclauses cl') l).
    assert (Hl : l < vlen (lit_count vs)) by (rewrite <- C1; eapply vget_some_lt; exact Hn).
    apply vget_lt in Hl. destruct Hl as [x Hx]. pose proof (C2 l x Hx) as E. rewrite E in Hn. inversion Hn.
    rewrite (w10 l x Hx), (count_lit_perm _ _ l P1), count_lit_cons. change (a_lits a) with (lits_of buf c). rewrite LO. lia.
  - change (g' + sumN (map (fun c => buffer_used (cc_lits c)) (allc cl')) = vlen buf).
    unfold buf. rewrite <- w11, (sumN_perm _ _ (Permutation_map (fun c => buffer_used (cc_lits c)) PC)). cbn [map].
    change (sumN (buffer_used (cc_lits c) :: map (fun c0 => buffer_used (cc_lits c0)) (allc cl')))
      with (buffer_used (cc_lits c) + sumN (map (fun c0 => buffer_used (cc_lits c0)) (allc cl'))). lia.
Qed.

Lemma forall2_flat {A B} (f : A -> B) (g : A -> B) (m m' : list (N * list A)) :
  Forall2 (fun e e' => fst e = fst e' /\ map g (snd e') = map f (snd e)) m m' ->
  map g (flat_map snd m') = map f (flat_map snd m).
Proof.
  induction 1 as [|e e' m m' [_ H] F IH]; [reflexivity|]. cbn [flat_map]. rewrite !map_app, H, IH. reflexivity.
Qed.

Lemma collect_garbage_spec h cl vs cl' : wf h cl vs -> collect_garbage cl = Some cl' ->
  wf h cl' vs /\ aclauses cl' = aclauses cl /\ same_units cl cl'.
Proof.
  intros W H. unfold collect_garbage in H. destruct (garbage_size cl * 2 <=? vlen (literal_buffer cl)).
  - inversion H; subst. split; [exact W|]. split; [reflexivity|]. constructor; reflexivity.
  - assert (OK : forall c, In c (flat_map snd (cmap cl)) ->
        slice_ok (literal_buffer cl) c /\ N.of_nat (length (lits_of (literal_buffer cl) c)) < 2^32).
    { intros c Hc. split; [eapply wf_slice; eassumption|]. apply good_length.
      apply (gc_lits _ _ _ (wf_clause _ _ _ W (abs_c (literal_buffer cl) c) (in_map _ _ _ Hc))). }
    pose proof (gc_map_spec (literal_buffer cl) (cmap cl) [] OK) as G.
    destruct (gc_map (literal_buffer cl) (cmap cl) []) as [[m' new']|]; [|discriminate].
    inversion H; subst; clear H. destruct G as ((ex&G1)&G2&G3&G4&G5). specialize (G3 []). specialize (G4 []).
    rewrite app_nil_r in G3, G4.
    set (cl' := with_garbage (with_buffer (with_cmap cl m') new') 0).
    assert (A : aclauses cl' = aclauses cl) by (exact (forall2_flat _ _ _ _ G3)).
    split; [|split; [exact A|constructor; reflexivity]].
    destruct W as [w1 w2 w3 w4 w5 w6 w7 w8 w9 w10 w11].
    constructor; rewrite ?A; auto; cbn [cl' with_garbage with_buffer with_cmap cmap literal_buffer garbage_size].
    + rewrite G2. exact w1.
    + intros k cs' c Hi Hc. clear - G3 w3 Hi Hc. revert w3. induction G3 as [|[k1 cs1] [k2 cs2] m m2 [E1 E2] F IH]; intros w3; [destruct Hi|].
      cbn [fst snd] in *. subst k2. destruct Hi as [E|Hi].
      * inversion E; subst. apply (in_map (abs_c new')) in Hc. rewrite E2 in Hc. apply in_map_iff in Hc. destruct Hc as (d&Ed&Hd).
        assert (Q : lits_of new' c = lits_of (literal_buffer cl) d) by (unfold abs_c in Ed; congruence).
        rewrite Q. apply (w3 k cs1 d); [left; reflexivity|exact Hd].
      * apply IH; [exact Hi|]. intros k' cs c0 X Y. apply (w3 k' cs c0); [right; exact X|exact Y].
Qed.

Lemma delete_clause_spec h cl vs lits red cl' vs' r :
  wf h cl vs -> delete_clause h cl vs lits red = Some (cl', vs', r) ->
  wf h cl' vs' /\ delete_eff cl lits red cl' r /\ same_units cl cl' /\
  var_datas vs' = var_datas vs /\ used_user_vars vs' = used_user_vars vs.
Proof.
  intros W H. unfold delete_clause in H. destruct (Nat.ltb_spec (length lits) 2) as [S|S].
  - inversion H; subst. split; [exact W|]. split; [apply DE_error; auto|]. split; [constructor; reflexivity|auto].
  - destruct (hasher_hash h lits) as [k|] eqn:HK; [|discriminate].
    destruct (delete_candidate_spec (literal_buffer cl) lits red (bucket (cmap cl) k)
      (fun c Hc => wf_slice h cl vs W c (bucket_in_allc cl k c Hc))) as (cs'&f&x&g&DC&SP).
    rewrite DC in H. change (match cs' with [] => mrem (cmap cl) k | _ => mset (cmap cl) k cs' end) with (put_bucket (cmap cl) k cs') in H.
    destruct x as [[id r']|].
    + destruct SP as (pre&c&post&BK&LO&->&CP&SP).
      assert (EA : abs_c (literal_buffer cl) c = abs_c (literal_buffer cl) c) by reflexivity.
      assert (CPA : acopies red (abs_c (literal_buffer cl) c) = copies red c) by (destruct red; reflexivity).
      destruct r'.
      * destruct SP as (->&Q1&Q2&->).
        destruct (collect_garbage _) as [cl2|] eqn:CG in H; [|discriminate]. inversion H; subst; clear H.
        destruct (delete_big_drop h cl vs k _ red pre c post _ W BK eq_refl Q2 (N.add_0_r _)) as (A&B&P1&P2).
        replace (with_counts vs (lit_count vs)) with vs by (destruct vs; reflexivity).
        destruct (collect_garbage_spec _ _ _ _ A CG) as (W'&EQ&SU).
        split; [exact W'|]. split; [|split; [destruct SU; constructor; auto|auto]].
        change (cc_id c) with (a_id (abs_c (literal_buffer cl) c)). rewrite <- EQ in P2.
        apply DE_dropped with (B := B); auto; rewrite ?CPA; auto; rewrite <- abs_c_drop; auto.
        cbn [abs_c a_irr]. destruct red; [reflexivity|]. specialize (Q1 eq_refl).
        destruct (N.eqb_spec (cc_irr (drop false c)) 0); [contradiction|reflexivity].
      * destruct SP as (->&->&Q1&Q2&->).
        destruct (collect_garbage _) as [cl2|] eqn:CG in H; [|discriminate]. inversion H; subst; clear H.
        destruct (delete_big_drop h cl vs k _ false pre c post _ W BK eq_refl (or_intror Q2) (N.add_0_r _)) as (A&B&P1&P2).
        replace (with_counts vs (lit_count vs)) with vs by (destruct vs; reflexivity).
        destruct (collect_garbage_spec _ _ _ _ A CG) as (W'&EQ&SU).
        split; [exact W'|]. split; [|split; [destruct SU; constructor; auto|auto]].
        change (cc_id c) with (a_id (abs_c (literal_buffer cl) c)). rewrite <- EQ in P2.
        apply DE_dropped with (B := B); auto; rewrite ?CPA; auto; rewrite <- ?abs_c_drop; auto.
        cbn [abs_c a_irr]. rewrite Q1. reflexivity.
      * destruct SP as (->&Q1&Q2&->).
        destruct (count_down (lit_count vs) lits) as [counts'|] eqn:CD; [|discriminate].
        destruct (collect_garbage _) as [cl2|] eqn:CG in H; [|discriminate]. inversion H; subst; clear H.
        destruct (delete_big_remove h cl vs k _ pre c post _ _ W BK eq_refl eq_refl CD) as (A&P1).
        destruct (collect_garbage_spec _ _ _ _ A CG) as (W'&EQ&SU).
        split; [exact W'|]. split; [|split; [destruct SU; constructor; auto|auto]].
        change (cc_id c) with (a_id (abs_c (literal_buffer cl) c)). rewrite <- EQ in P1.
        apply DE_removed with (B := aclauses cl'); auto; unfold drop, copies, acopies in *; destruct red; cbn [cc_irr cc_red abs_c a_irr a_red negb] in *; lia.
    + inversion H; subst; clear H. destruct SP as (->&->&SP). destruct (delete_big_none h cl vs' k _ W (N.add_0_r _)) as (A&EQ).
      split; [exact A|]. split; [|split; [constructor; reflexivity|auto]].
      apply DE_error; [rewrite EQ; reflexivity|]. right. intros a Ha L. unfold aclauses in Ha. apply in_map_iff in Ha.
      destruct Ha as (c&<-&Hc). cbn [abs_c a_lits] in L.
      destruct (stored_in_bucket h cl vs' c W Hc) as (k'&K1&K2). rewrite L, HK in K1. inversion K1; subst k'.
      assert (CPA : acopies red (abs_c (literal_buffer cl) c) = copies red c) by (destruct red; reflexivity). rewrite CPA.
      destruct f; [|exfalso; exact (SP c K2 L)].
      destruct SP as (d&Hd&Ld&Zd).
      assert (E : abs_c (literal_buffer cl) c = abs_c (literal_buffer cl) d).
      { pose proof (wf_lits _ _ _ W) as ND. apply bucket_in_allc in Hd.
        assert (I1 : In (abs_c (literal_buffer cl) c) (aclauses cl)) by (apply in_map; exact Hc).
        assert (I2 : In (abs_c (literal_buffer cl) d) (aclauses cl)) by (apply in_map; exact Hd).
        apply (nodup_map_inj a_lits (aclauses cl)); auto. cbn [abs_c a_lits]. congruence. }
      unfold copies, abs_c in *. destruct red; congruence.
Qed.
