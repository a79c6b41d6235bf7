(** Properties C23 (second part) and C32: the clause database through any history of
    operations.

    A history keeps, beside the state, what the operations say that it should contain: the
    literals of the clauses present in order of addition, the words taken by deleted clauses,
    and the size of the buffer. *)
From Coq Require Import Lia Arith PeanoNat Permutation.
From Verif Require Import Spec Lit LitProofs F32 Vsids VsidsProofs Search SearchBase Propagate ClauseDb DbProofs.
Local Open Scope nat_scope.

(** What the search has to respect: literals on the trail are true and a clause that is the
    reason of one is present with that literal first. *)
Definition reasons_ok (s : search) (d : cdb) : Prop :=
  NoDup (map lit_var (s_trail s)) /\ (forall l, In l (s_trail s) -> istrue s l) /\
  forall l c, In l (s_trail s) -> s_reason s (lit_var l) = RLong c -> In c (live d) /\ exists rest, s_lits s c = l :: rest.
(** The invariants of the search say so. *)
Lemma search_reasons_ok n bin s d : trail_ok n s -> store_ok n (live d) bin s -> reasons_ok s d.
Proof.
  intros T S. split; [exact (tk_nodup _ _ T)|]. split; [intros l; apply (tk_true _ _ T)|].
  intros l c I R. split; [exact (so_rlong _ _ _ _ S l c I R)|]. apply In_nth_error in I. destruct I as [p I].
  pose proof (tk_reason _ _ T p l I) as Q. unfold reason_ok in Q. rewrite R in Q. destruct Q as (_ & r & Q & _). exists r. exact Q.
Qed.

(** Number of words of clauses: three for the header and one per literal *)
Fixpoint words (l : list (list N)) : N := match l with [] => 0 | cl :: l => 3 + N.of_nat (length cl) + words l end%N.
(** The entries of [k], aligned with [refs], of the clauses (not) in [out] *)
Fixpoint without (out refs : list N) (k : list (list N)) : list (list N) :=
  match refs, k with
  | c :: refs, cl :: k => if existsb (N.eqb c) out then without out refs k else cl :: without out refs k
  | _, _ => []
  end.
Fixpoint only (out refs : list N) (k : list (list N)) : list (list N) :=
  match refs, k with
  | c :: refs, cl :: k => if existsb (N.eqb c) out then cl :: only out refs k else only out refs k
  | _, _ => []
  end.
Fixpoint replace (c : N) (new : list N) (refs : list N) (k : list (list N)) : list (list N) :=
  match refs, k with
  | x :: refs, cl :: k => if N.eqb x c then new :: k else cl :: replace c new refs k
  | _, _ => []
  end.

Inductive history : search -> cdb -> list (list N) -> N -> N -> Prop :=
| hi_new : history search_default cdb_default [] 0%N 0%N
| hi_search s d k g z s' :  (* propagation, decisions, backtracking *)
    history s d k g z -> (forall c, Permutation (s_lits s c) (s_lits s' c)) -> reasons_ok s' d ->
    history s' d k g z
| hi_add s d k g z h cl s' d' c :  (* add_clause, with a new header *)
    history s d k g z -> 3 <= length cl -> h_deleted h = false -> h_mark h = false ->
    (h_tier h = Irred -> h_glue h = 0%N) -> add_long s d h cl = (s', d', c) -> d_full d' = false ->
    history s' d' (k ++ [cl]) g (z + 3 + N.of_nat (length cl))%N
| hi_tier s d k g z c t :  (* set_clause_tier *)
    history s d k g z -> In c (live d) -> t <> Irred -> history s (set_clause_tier d c t) k g z
| hi_bump s d k g z f c d' f' :  (* bump_clause *)
    history s d k g z -> In c (live d) -> bump_clause s d f c = (d', f') -> history s d' k g z
| hi_activity s d k g z c :  (* bump_clause_activity *)
    history s d k g z -> history s (bump_clause_activity d c) k g z
| hi_decay s d k g z :  (* decay_clause_activities *)
    history s d k g z -> history s (decay_clause_activities d) k g z
| hi_delete s d k g z c s' d' :  (* delete_clause, not for a reason *)
    history s d k g z -> In c (live d) -> (forall l, In l (s_trail s) -> s_reason s (lit_var l) <> RLong c) ->
    delete_clause s d c = (s', d') ->
    history s' d' (without [c] (live d) k) (g + words (only [c] (live d) k))%N z
| hi_try s d k g z c s' d' b :  (* try_delete_clause *)
    history s d k g z -> In c (live d) -> try_delete_clause s d c = (s', d', b) ->
    history s' d' (if b then without [c] (live d) k else k) (if b then g + words (only [c] (live d) k) else g)%N z
| hi_shorten s d k g z c new :  (* shortening by unit clauses, not for a reason *)
    history s d k g z -> In c (live d) -> length new <= length (s_lits s c) ->
    (forall l, In l (s_trail s) -> s_reason s (lit_var l) <> RLong c) ->
    history (with_lits s (upd (s_lits s) c new)) d (replace c new (live d) k) g z
| hi_locals s d k g z s' d' out :  (* reduce_locals *)
    history s d k g z -> reduce_locals s d = (s', d', out) ->
    history s' d' (without out (live d) k) (g + words (only out (live d) k))%N z
| hi_mids s d k g z :  (* reduce_mids *)
    history s d k g z -> history s (reduce_mids d) k g z
| hi_collect s d k g z s' d' :  (* collect_garbage *)
    history s d k g z -> collect_garbage s d = Some (s', d') -> d_full d' = false ->
    history s' d' k (if z <? g * 2 then 0 else g)%N (if z <? g * 2 then words k else z)%N.

Definition aligned (s : search) (refs : list N) (k : list (list N)) : Prop :=
  Forall2 (fun c cl => Permutation (s_lits s c) cl) refs k.

Lemma words_tot s refs k : aligned s refs k -> words k = tot (s_lits s) refs.
Proof.
  induction 1 as [|c cl refs k P _ IH]; [reflexivity|]. cbn [words tot fold_right]. fold (tot (s_lits s) refs). rewrite IH.
  unfold clause_size. rewrite (Permutation_length P). reflexivity.
Qed.
Lemma without_aligned s out refs k : aligned s refs k ->
  aligned s (filter (fun c => negb (existsb (N.eqb c) out)) refs) (without out refs k).
Proof. induction 1 as [|c cl refs k P _ IH]; cbn [filter without]; [constructor|]. destruct (existsb _ out); cbn [negb]; [exact IH|constructor; assumption]. Qed.
Lemma only_aligned s out refs k : aligned s refs k ->
  aligned s (filter (fun c => existsb (N.eqb c) out) refs) (only out refs k).
Proof. induction 1 as [|c cl refs k P _ IH]; cbn [filter only]; [constructor|]. destruct (existsb _ out); [constructor; assumption|exact IH]. Qed.
Lemma aligned_ext s s' refs k : (forall c, In c refs -> Permutation (s_lits s' c) (s_lits s c)) -> aligned s refs k -> aligned s' refs k.
Proof.
  intros H A. induction A as [|c cl refs k P _ IH]; constructor.
  - rewrite H by (left; reflexivity). exact P.
  - apply IH. intros x I. apply H. right. exact I.
Qed.
Lemma aligned_map s s' (ρ : N -> N) refs k : (forall c, In c refs -> s_lits s' (ρ c) = s_lits s c) -> aligned s refs k -> aligned s' (map ρ refs) k.
Proof.
  intros H A. induction A as [|c cl refs k P _ IH]; constructor.
  - rewrite H by (left; reflexivity). exact P.
  - apply IH. intros x I. apply H. right. exact I.
Qed.
Lemma replace_aligned s c new refs k : NoDup refs -> aligned s refs k ->
  aligned (with_lits s (upd (s_lits s) c new)) refs (replace c new refs k).
Proof.
  intros ND A. induction A as [|x cl refs k P A IH]; [constructor|]. inversion ND as [|? ? NI ND']; subst. cbn [replace].
  destruct (N.eqb_spec x c) as [->|Ne].
  - constructor; [cbn [with_lits s_lits]; rewrite upd_eq; reflexivity|]. eapply aligned_ext; [|exact A].
    intros y I. cbn [with_lits s_lits]. rewrite upd_ne; [reflexivity|]. intros ->. contradiction.
  - constructor; [cbn [with_lits s_lits]; rewrite upd_ne by exact Ne; exact P|]. apply IH, ND'.
Qed.
Lemma words_only_perm s out refs k : aligned s refs k -> NoDup refs -> NoDup out -> incl out refs ->
  words (only out refs k) = tot (s_lits s) out.
Proof.
  intros A ND NO I. rewrite (words_tot s _ _ (only_aligned s out _ _ A)).
  assert (P : Permutation (filter (fun c => existsb (N.eqb c) out) refs) out).
  { apply NoDup_Permutation; [apply NoDup_filter, ND|exact NO|]. intros c. rewrite filter_In, memb_in. split; [tauto|]. intros J. split; [apply I, J|exact J]. }
  revert P. generalize (filter (fun c => existsb (N.eqb c) out) refs) as l. intros l P. clear - P.
  induction P as [|x l l' P IH|x y l|]; cbn [tot fold_right] in *; try fold (tot (s_lits s) l) in *; try fold (tot (s_lits s) l') in *; try lia.
Qed.
Lemma out_nodup s d s' d' out : db_ok (s_lits s) d -> reduce_locals s d = (s', d', out) -> NoDup out.
Proof.
  intros [K U] E. unfold reduce_locals in E.
  destruct (dedup_and_mark d Local (d_tier d Local)) as [d1 l1] eqn:E1. apply dedup_spec in E1. destruct E1 as (H1 & ND1 & In1 & M1).
  assert (P2 : Permutation l1 (sort_by (key_leb d1) l1)) by apply sort_perm.
  destruct (reduce_scan s d1 _ _) as [[[[s2 d2] keep] rest] out2] eqn:E2. injection E as <- <- <-.
  apply reduce_scan_spec in E2; [|exact (hsim_core _ _ _ _ H1 K)|exact (Permutation_NoDup P2 ND1)|].
  2:{ intros c I. rewrite (hsim_live _ _ H1). apply (Permutation_in _ (Permutation_sym P2)) in I. apply In1 in I. apply live_in.
      destruct I as (A & B & _). split; [|exact B]. apply (dk_tier _ _ _ K) in A. apply A, B. }
  destruct E2 as (_ & _ & _ & _ & P3 & _). pose proof (Permutation_NoDup P3 (Permutation_NoDup P2 ND1)) as Q.
  eapply NoDup_app_l. exact Q.
Qed.

Record right (s : search) (d : cdb) (k : list (list N)) (g z : N) : Prop := {
  ri_db : db_ok (s_lits s) d; ri_reasons : reasons_ok s d; ri_clauses : aligned s (live d) k;
  ri_garbage : d_garbage d = g; ri_size : d_size d = z }.

Lemma reasons_same s s' d d' : s_trail s' = s_trail s -> s_val s' = s_val s -> s_reason s' = s_reason s ->
  (forall c, (exists l, In l (s_trail s) /\ s_reason s (lit_var l) = RLong c) -> In c (live d) -> In c (live d') /\ s_lits s' c = s_lits s c) ->
  reasons_ok s d -> reasons_ok s' d'.
Proof.
  intros A B C H (R1 & R2 & R3). split; [rewrite A; exact R1|]. split; [unfold istrue; rewrite A, B; exact R2|].
  intros l c. rewrite A, C. intros I Q. destruct (R3 l c I Q) as [J (r & E)]. destruct (H c) as [H1 H2]; [exists l; auto|exact J|].
  split; [exact H1|]. exists r. congruence.
Qed.
Lemma keeps_right s d d' k g z : db_ok (s_lits s) d' -> keeps d d' -> right s d k g z -> right s d' k g z.
Proof.
  intros K P [A B C D E]. constructor; [exact K| | | |].
  - eapply reasons_same; [reflexivity|reflexivity|reflexivity| |exact B]. intros c _ I. rewrite (kp_live _ _ P). auto.
  - rewrite (kp_live _ _ P). exact C.
  - rewrite (kp_garbage _ _ P). exact D.
  - rewrite (kp_size _ _ P). exact E.
Qed.
Lemma dels_right s s' d d' k g z out : right s d k g z -> db_ok (s_lits s) d' -> same_but_wen s s' -> NoDup out -> incl out (live d) ->
  live d' = filter (fun c => negb (existsb (N.eqb c) out)) (live d) -> d_size d' = d_size d -> d_garbage d' = (d_garbage d + tot (s_lits s) out)%N ->
  (forall c, In c out -> forall l, In l (s_trail s) -> s_reason s (lit_var l) <> RLong c) ->
  right s' d' (without out (live d) k) (g + words (only out (live d) k))%N z.
Proof.
  intros [A B C D E] K (b & -> & _) NO I L Z G R. constructor.
  - exact K.
  - eapply reasons_same; [reflexivity|reflexivity|reflexivity| |exact B]. intros c (l & Il & Q) Ic. split; [|reflexivity].
    rewrite L, filter_In. split; [exact Ic|]. destruct (existsb (N.eqb c) out) eqn:X; [|reflexivity]. apply memb_in in X.
    destruct (R c X l Il Q).
  - rewrite L. exact (without_aligned s _ _ _ C).
  - rewrite G, D. f_equal. symmetry. apply words_only_perm; [exact C|apply (live_nodup _ _ _ (proj1 A))|exact NO|exact I].
  - congruence.
Qed.
Lemma unmarked_same d d' : (forall x, h_mark (d_hdr d' x) = h_mark (d_hdr d x)) -> unmarked d -> unmarked d'.
Proof. intros H U c. rewrite H. apply U. Qed.

Lemma history_right s d k g z : history s d k g z -> right s d k g z.
Proof.
  induction 1 as [|s d k g z s' _ IH P R|s d k g z h cl s' d' c _ IH L Hd Hm Hg E F|s d k g z c t _ IH I T|s d k g z f c d' f' _ IH I E
    |s d k g z c _ IH|s d k g z _ IH|s d k g z c s' d' _ IH I R E|s d k g z c s' d' b _ IH I E|s d k g z c new _ IH I L R
    |s d k g z s' d' out _ IH E|s d k g z _ IH|s d k g z s' d' _ IH E F].
  - constructor; [| |constructor|reflexivity|reflexivity].
    + split; [|intros c; reflexivity]. constructor; try (cbn; intros; tauto); try reflexivity.
      * constructor.
      * exists []. split; [constructor|]. split; [intros ? []|]. split; [apply incl_refl|]. split; [intros ? []|]. split; reflexivity.
    + split; [constructor|]. split; [intros ? []|intros ? ? []].
  - destruct IH as [A B C D E]. constructor; [|exact R| |exact D|exact E].
    + eapply db_ok_perm; [|exact A]. exact P.
    + eapply aligned_ext; [|exact C]. intros c _. symmetry. apply P.
  - destruct IH as [A B C D Z].
    assert (Es : s' = fst (fst (add_long s d h cl))) by (rewrite E; reflexivity).
    assert (Ed : d' = snd (fst (add_long s d h cl))) by (rewrite E; reflexivity).
    assert (Sz : (d_size d <= 2^32 - 1)%N).
    { rewrite Ed in F. cbn [add_long fst snd d_full] in F. apply orb_false_iff in F. apply N.ltb_ge, F. }
    pose proof (add_long_core s d h cl Hd (proj1 A) Sz Hg) as K. rewrite <- Es, <- Ed in K.
    pose proof (add_live s d h cl Hd (proj1 A)) as Lv. rewrite <- Ed in Lv.
    pose proof (add_lits s d h cl) as Lt. rewrite <- Es in Lt.
    assert (Lo : forall x, In x (live d) -> s_lits s' x = s_lits s x).
    { intros x Ix. rewrite Lt. pose proof (live_lt s d (proj1 A) x Ix). destruct (N.eqb_spec x (d_size d)); [lia|reflexivity]. }
    constructor.
    + split; [exact K|]. intros x. rewrite Ed. cbn [add_long fst snd d_hdr]. unfold upd. destruct (N.eqb x (d_size d)); [exact Hm|apply (proj2 A)].
    + assert (Q : s_trail s' = s_trail s /\ s_val s' = s_val s /\ s_reason s' = s_reason s).
      { rewrite Es. unfold add_long, watch_clause. cbn [fst]. destruct (s_wen _); auto. }
      destruct Q as (Q1 & Q2 & Q3). eapply reasons_same; [exact Q1|exact Q2|exact Q3| |exact B].
      intros x _ Ix. split; [rewrite Lv; apply in_or_app; auto|apply Lo, Ix].
    + rewrite Lv. apply Forall2_app; [eapply aligned_ext; [|exact C]; intros x Ix; rewrite Lo by exact Ix; reflexivity|].
      constructor; [|constructor]. rewrite Lt, N.eqb_refl. reflexivity.
    + rewrite Ed. exact D.
    + rewrite Ed. cbn [add_long fst snd d_size]. rewrite Z. unfold clause_size. lia.
  - assert (Q := ri_db _ _ _ _ _ IH). pose proof (set_clause_tier_core _ _ d c t (proj1 Q) I T) as X. cbv zeta in X.
    destruct X as (X1 & X2 & X3 & X4 & X5). destruct IH as [A B C D Z]. constructor.
    + split; [exact X1|apply X5, A].
    + eapply reasons_same; [reflexivity|reflexivity|reflexivity| |exact B]. intros x _ Ix. rewrite X2. auto.
    + rewrite X2. exact C.
    + unfold set_clause_tier. destruct (tier_eqb _ _); exact D.
    + unfold set_clause_tier. destruct (tier_eqb _ _); exact Z.
  - destruct (bump_clause_spec _ _ _ _ _ _ (ri_db _ _ _ _ _ IH) I E) as [A B]. eapply keeps_right; eauto.
  - destruct (bump_activity_spec _ _ c (ri_db _ _ _ _ _ IH)) as (A & B & _). eapply keeps_right; eauto.
  - destruct (decay_activities_spec _ _ (ri_db _ _ _ _ _ IH)) as (A & B & _). eapply keeps_right; eauto.
  - unfold delete_clause in E. injection E as <- <-.
    pose proof (ri_db _ _ _ _ _ IH) as Q. destruct (delete_header_core _ s d c (proj1 Q) I) as (A & B & C).
    eapply dels_right; [exact IH| |exists false; split; [reflexivity|discriminate]| | | | | |].
    + split; [exact A|eapply unmarked_same; [exact C|apply Q]].
    + constructor; [intros []|constructor].
    + intros x [<-|[]]. exact I.
    + apply dels_live_eq, B.
    + reflexivity.
    + cbn [tot fold_right]. rewrite N.add_0_r. reflexivity.
    + intros x [<-|[]]. exact R.
  - pose proof (ri_db _ _ _ _ _ IH) as Q. pose proof E as E'. apply (try_delete_core no_tier) in E; [|apply Q|exact I].
    destruct E as (A & B & C & D & _ & F & G). destruct b.
    + eapply dels_right; [exact IH| |exact D| | | | | |].
      * split; [exact A|eapply unmarked_same; [exact C|apply Q]].
      * constructor; [intros []|constructor].
      * intros x [<-|[]]. exact I.
      * apply dels_live_eq, B.
      * apply B.
      * unfold try_delete_clause in E'. destruct (_ && _); [discriminate|]. cbn [delete_clause] in E'. injection E' as _ <-.
        cbn [tot fold_right]. rewrite N.add_0_r. reflexivity.
      * intros x [<-|[]] l Il Rl. pose proof (ri_reasons _ _ _ _ _ IH) as (_ & R2 & R3). destruct (R3 _ _ Il Rl) as [_ (r & El)].
        exact (G eq_refl l r El (R2 _ Il) Rl).
    + destruct (F eq_refl) as [-> ->]. exact IH.
  - destruct IH as [A B C D Z]. constructor; [apply shrink_ok; assumption| | |exact D|exact Z].
    + apply (reasons_same s _ d); [reflexivity|reflexivity|reflexivity| |exact B]. intros x (l & Il & Q) Ix. split; [exact Ix|].
      cbn [with_lits s_lits]. apply upd_ne. intros ->. exact (R l Il Q).
    + apply replace_aligned; [apply (live_nodup _ _ _ (proj1 A))|exact C].
  - pose proof (ri_db _ _ _ _ _ IH) as Q. pose proof E as E'. pose proof (reduce_locals_garbage _ _ _ _ _ E) as [G1 G2].
    pose proof (out_nodup _ _ _ _ _ Q E) as NO. apply reduce_locals_spec in E; [|exact Q]. destruct E as (A & B & _ & R & _).
    eapply dels_right; [exact IH|exact A|exact B|exact NO| |exact (rd_live_eq _ _ _ _ R)|exact G2|exact G1|].
    + intros c Ic. apply (rd_out _ _ _ _ R), Ic.
    + intros c Ic l Il Rl. pose proof (ri_reasons _ _ _ _ _ IH) as (_ & R2 & R3). destruct (R3 _ _ Il Rl) as [_ (r & El)].
      exact (rd_reason _ _ _ _ R c Ic l r El (R2 _ Il) Rl).
  - pose proof (reduce_mids_spec s d (ri_db _ _ _ _ _ IH)) as Q. cbv zeta in Q. destruct Q as (A & R & L & _).
    destruct (reduce_mids_garbage d) as [G1 G2]. destruct IH as [A' B C D Z]. constructor; [exact A| | |congruence|congruence].
    + eapply reasons_same; [reflexivity|reflexivity|reflexivity| |exact B]. intros x _ Ix. rewrite L. auto.
    + rewrite L. exact C.
  - destruct IH as [A B C D Z]. destruct B as (R1 & R2 & R3). unfold collect_garbage in E. rewrite <- D, <- Z.
    destruct (d_size d <? d_garbage d * 2)%N.
    + destruct (collect_now_spec s d A R1 R3) as (s1 & d1 & ρ & E1 & M & W & G & Cl & Sz & _ & K). rewrite E1 in E. injection E as <- <-.
      constructor; [apply K, F| | |exact G|].
      * destruct (mv_search _ _ _ _ _ M) as [Es|Es].
        2:{ subst s1. split; [exact R1|]. split; [exact R2|]. intros l c Il Q. pose proof (mv_reason _ _ _ _ _ M l Il) as X. rewrite Q in X.
            cbn [move] in X. destruct (R3 _ _ Il Q) as [J (r & El)]. split; [|exists r; exact El]. rewrite (mv_live _ _ _ _ _ M).
            assert (c = ρ c) as -> by congruence. apply in_map, J. }
        assert (Tq : s_trail s1 = s_trail s) by (rewrite Es; reflexivity).
        split; [rewrite Tq; exact R1|]. split; [rewrite Tq; rewrite Es; exact R2|].
        intros l c. rewrite Tq. intros Il. rewrite (mv_reason _ _ _ _ _ M l Il). destruct (s_reason s (lit_var l)) as [|b|c0] eqn:Q; cbn [move]; try discriminate.
        intros [= <-]. destruct (R3 _ _ Il Q) as [J (r & El)]. split; [rewrite (mv_live _ _ _ _ _ M); apply in_map, J|].
        exists r. rewrite (mv_lits _ _ _ _ _ M) by exact J. exact El.
      * rewrite (mv_live _ _ _ _ _ M). eapply aligned_map; [|exact C]. apply M.
      * rewrite Sz. symmetry. apply words_tot, C.
    + injection E as <- <-. constructor; try assumption; try reflexivity. split; [exact R1|]. split; [exact R2|exact R3].
Qed.

(** After any history, the clauses present have the literals they were given (up to their
    order), the counters count them, the marks are clear, and the accounting of the buffer is
    exact. *)
Theorem C23_database : forall s d k g z, history s d k g z ->
  Forall2 (fun c cl => Permutation (s_lits s c) cl) (live d) k /\ NoDup (live d) /\
  (forall t, d_count d t = length (filter (fun c => tier_eqb (h_tier (d_hdr d c)) t) (live d))) /\
  (forall c, h_mark (d_hdr d c) = false) /\
  d_garbage d = g /\ d_size d = z /\ (words k + g <= z)%N /\
  (forall l c, In l (s_trail s) -> s_reason s (lit_var l) = RLong c ->
     In c (live d) /\ exists rest, s_lits s c = l :: rest).
Proof.
  intros s d k g z H. apply history_right in H. destruct H as [A B C D Z].
  split; [exact C|]. split; [apply (live_nodup _ _ _ (proj1 A))|]. split; [exact (dk_count _ _ _ (proj1 A))|].
  split; [apply A|]. split; [exact D|]. split; [exact Z|]. split; [|apply B].
  rewrite (words_tot s _ _ C), <- D, <- Z. destruct (dk_alloc _ _ _ (proj1 A)) as (al & Na & _ & I1 & I2 & -> & Le).
  etransitivity; [|exact Le].
  assert (P : Permutation (live d) (filter (fun c => negb (deleted d c)) al)).
  { apply NoDup_Permutation; [apply (live_nodup _ _ _ (proj1 A))|apply NoDup_filter, Na|]. intros c. rewrite live_in, filter_In.
    destruct (deleted d c) eqn:Q; cbn [negb]; split; intros X; [destruct X; discriminate|destruct X; discriminate| |].
    - split; [apply I1, X|reflexivity].
    - split; [apply I2; [apply X|exact Q]|reflexivity]. }
  assert (T : forall a b, Permutation a b -> tot (s_lits s) a = tot (s_lits s) b).
  { clear. induction 1 as [|x l l' P IH|x y l|]; cbn [tot fold_right] in *; try fold (tot (s_lits s) l) in *; try fold (tot (s_lits s) l') in *; try lia. }
  rewrite (T _ _ P). clear. induction al as [|x al IH]; [reflexivity|]. cbn [filter]. destruct (deleted d x); cbn [negb tot fold_right];
    fold (tot (s_lits s) al); try fold (tot (s_lits s) (filter (deleted d) al)); try fold (tot (s_lits s) (filter (fun c => negb (deleted d c)) al)); lia.
Qed.

(** A collection never fails, changes no assignment, and the reason of every assignment is
    afterwards the same clause at its new place. *)
Theorem C23_reasons_moved : forall s d k g z, history s d k g z ->
  exists s' d', collect_garbage s d = Some (s', d') /\ length (live d') = length (live d) /\
    s_trail s' = s_trail s /\ s_val s' = s_val s /\ s_level s' = s_level s /\ s_decs s' = s_decs s /\
    forall l, In l (s_trail s) ->
      match s_reason s (lit_var l) with
      | RLong c => exists c' i, s_reason s' (lit_var l) = RLong c' /\ nth_error (live d) i = Some c /\
                     nth_error (live d') i = Some c' /\ s_lits s' c' = s_lits s c
      | r => s_reason s' (lit_var l) = r
      end.
Proof.
  intros s d k g z H. apply history_right in H. destruct H as [A (R1 & R2 & R3) C D Z].
  destruct (collect_spec s d A R1 R3) as (s' & d' & ρ & E & M & _). exists s', d'. split; [exact E|].
  split; [rewrite (mv_live _ _ _ _ _ M), map_length; reflexivity|].
  assert (Q : s_trail s' = s_trail s /\ s_val s' = s_val s /\ s_level s' = s_level s /\ s_decs s' = s_decs s).
  { destruct (mv_search _ _ _ _ _ M) as [Es|Es]; rewrite Es; auto. }
  destruct Q as (Q1 & Q2 & Q3 & Q4). repeat (split; [assumption|]). intros l I. pose proof (mv_reason _ _ _ _ _ M l I) as X.
  destruct (s_reason s (lit_var l)) as [|b|c] eqn:Rl; try exact X.
  destruct (R3 _ _ I Rl) as [J _]. pose proof (In_nth_error _ _ J) as [i Hi]. exists (ρ c), i. split; [exact X|]. split; [exact Hi|].
  split; [|apply M, J]. rewrite (mv_live _ _ _ _ _ M). rewrite nth_error_map, Hi. reflexivity.
Qed.

(** Reducing the local tier deletes at most half of it, nothing irredundant and no reason; it
    leaves no marks, and keeps the counters right. *)
Theorem C32_reduce_locals : forall s d k g z s' d' out, history s d k g z -> reduce_locals s d = (s', d', out) ->
  (forall c, In c (live d') <-> In c (live d) /\ ~ In c out) /\
  (forall c, In c out -> In c (live d) /\ h_tier (d_hdr d c) = Local /\
     forall l, In l (s_trail s) -> s_reason s (lit_var l) <> RLong c) /\
  2 * length out <= d_count d Local /\
  (forall c, h_tier (d_hdr d' c) = h_tier (d_hdr d c)) /\ (forall c, h_mark (d_hdr d' c) = false) /\
  (forall t, d_count d' t = length (filter (fun c => tier_eqb (h_tier (d_hdr d' c)) t) (live d'))) /\
  s_lits s' = s_lits s /\ s_trail s' = s_trail s /\ s_val s' = s_val s /\ s_reason s' = s_reason s.
Proof.
  intros s d k g z s' d' out H E. pose proof (history_right _ _ _ _ _ H) as [A (R1 & R2 & R3) C D Z].
  pose proof (out_nodup _ _ _ _ _ A E) as NO. pose proof E as E0. apply reduce_locals_spec in E; [|exact A].
  destruct E as (A' & (b & -> & _) & _ & R & T & Lo). split; [apply (rd_live _ _ _ _ R)|]. split; [|split].
  - intros c I. split; [apply (rd_out _ _ _ _ R), I|]. split; [apply Lo, I|]. intros l Il Rl. destruct (R3 _ _ Il Rl) as [_ (r & El)].
    exact (rd_reason _ _ _ _ R c I l r El (R2 _ Il) Rl).
  - unfold reduce_locals in E0. destruct (dedup_and_mark d Local (d_tier d Local)) as [d1 l1] eqn:E1. apply dedup_spec in E1. destruct E1 as (_ & N1 & I1 & _).
    destruct (reduce_scan s d1 _ _) as [[[[s2 d2] keep] rest] out2] eqn:E2. injection E0 as _ _ <-. apply reduce_scan_garbage in E2.
    destruct E2 as (_ & _ & L2). rewrite (dk_count _ _ _ (proj1 A)).
    assert (L1 : length l1 <= length (of_tier d Local)).
    { apply NoDup_incl_length; [exact N1|]. intros c I. apply I1 in I. destruct I as (X & Y & V & _). apply of_tier_in. split; [|exact V].
      apply live_in. split; [|exact Y]. apply (dk_tier _ _ _ (proj1 A)) in X. apply X, Y. }
    rewrite <- (Permutation_length (sort_perm (key_leb d1) l1)) in L2. pose proof (Nat.div2_decr (length l1)). rewrite Nat.div2_div in L2.
    pose proof (Nat.mul_div_le (length l1) 2). lia.
  - split; [exact T|]. split; [apply A'|]. split; [exact (dk_count _ _ _ (proj1 A'))|]. auto.
Qed.

(** Reducing the mid tier deletes nothing: it moves clauses that were not used to the local
    tier. *)
Theorem C32_reduce_mids : forall s d k g z, history s d k g z -> let d' := reduce_mids d in
  live d' = live d /\
  (forall c, h_tier (d_hdr d' c) = h_tier (d_hdr d c) \/ h_tier (d_hdr d c) = Mid /\ h_tier (d_hdr d' c) = Local) /\
  (forall c, h_mark (d_hdr d' c) = false) /\
  (forall t, d_count d' t = length (filter (fun c => tier_eqb (h_tier (d_hdr d' c)) t) (live d'))).
Proof.
  intros s d k g z H d'. apply history_right in H. pose proof (reduce_mids_spec s d (ri_db _ _ _ _ _ H)) as Q. cbv zeta in Q.
  destruct Q as (A & _ & L & T). split; [exact L|]. split; [exact T|]. split; [apply A|exact (dk_count _ _ _ (proj1 A))].
Qed.

(** Whatever the schedule, the irredundant clauses stay: operations other than explicit deletion
    keep every one of them. *)
Theorem C32_irredundant_stay : forall s d k g z, history s d k g z ->
  (forall s' d' out, reduce_locals s d = (s', d', out) ->
     filter (fun c => tier_eqb (h_tier (d_hdr d' c)) Irred) (live d') = filter (fun c => tier_eqb (h_tier (d_hdr d c)) Irred) (live d)) /\
  filter (fun c => tier_eqb (h_tier (d_hdr (reduce_mids d) c)) Irred) (live (reduce_mids d)) =
    filter (fun c => tier_eqb (h_tier (d_hdr d c)) Irred) (live d).
Proof.
  intros s d k g z H. pose proof (history_right _ _ _ _ _ H) as [A _ _ _ _]. split.
  - intros s' d' out E. apply reduce_locals_spec in E; [|exact A]. destruct E as (_ & _ & _ & R & T & _).
    rewrite (rd_live_eq _ _ _ _ R). assert (Q : forall l, incl l (live d) ->
      filter (fun c => tier_eqb (h_tier (d_hdr d' c)) Irred) (filter (fun c => negb (existsb (N.eqb c) out)) l) = filter (fun c => tier_eqb (h_tier (d_hdr d c)) Irred) l).
    { induction l as [|c l IH]; intros I; [reflexivity|]. specialize (IH (fun x J => I x (or_intror J))). cbn [filter].
      destruct (existsb (N.eqb c) out) eqn:X; cbn [negb filter].
      - apply memb_in in X. apply (rd_out _ _ _ _ R) in X. destruct X as [_ X]. apply tier_eqb_ne in X. unfold htier in X. rewrite X. exact IH.
      - specialize (T c). unfold htier in T. rewrite T, IH. reflexivity. }
    apply Q, incl_refl.
  - pose proof (reduce_mids_spec s d A) as Q. cbv zeta in Q. destruct Q as (_ & _ & L & T). rewrite L. apply filter_ext'.
    intros c _. specialize (T c). unfold htier in T. destruct T as [->|[-> ->]]; reflexivity.
Qed.

(** Four clauses, of which the second becomes the reason of the literal 6 and so survives the
    reduction; then two more are deleted and the collection moves it from 6 to 0. *)
Definition ex_local : hdr := set_tier hdr_new Local.
Definition ex_step (p : search * cdb) (h : hdr) (cl : list N) : search * cdb := fst (add_long (fst p) (snd p) h cl).
Definition ex_1 := ex_step (search_default, cdb_default) hdr_new [0;2;4]%N.
Definition ex_2 := ex_step ex_1 ex_local [0;2;6]%N.
Definition ex_3 := ex_step ex_2 ex_local [0;4;6]%N.
Definition ex_4 := ex_step ex_3 ex_local [2;4;6]%N.
Lemma ex_add p h cl k z : history (fst p) (snd p) k 0 z -> 3 <= length cl -> h_deleted h = false -> h_mark h = false ->
  h_glue h = 0%N -> d_full (snd (ex_step p h cl)) = false ->
  history (fst (ex_step p h cl)) (snd (ex_step p h cl)) (k ++ [cl]) 0 (z + 3 + N.of_nat (length cl)).
Proof.
  intros H A B C D F. apply (hi_add (fst p) (snd p) k 0 z h cl _ _ (d_size (snd p)) H A B C (fun _ => D)); [reflexivity|exact F].
Qed.
Definition ex_search (s : search) : search :=
  let s := with_lits s (upd (s_lits s) 6 [6;0;2]%N) in
  enqueue (enqueue (enqueue s 1 RUnit) 3 RUnit) 6 (RLong 6).
Definition ex_7 : search * cdb * list N := reduce_locals (ex_search (fst ex_4)) (snd ex_4).
Definition ex_8 := delete_clause (fst (fst ex_7)) (snd (fst ex_7)) 18.
Definition ex_9 := delete_clause (fst ex_8) (snd ex_8) 0.
Lemma ex_H4 : history (fst ex_4) (snd ex_4) [[0;2;4];[0;2;6];[0;4;6];[2;4;6]]%N 0 24.
Proof.
  apply (ex_add ex_3 ex_local [2;4;6]%N [[0;2;4];[0;2;6];[0;4;6]]%N 18); [|cbn; lia|reflexivity..].
    apply (ex_add ex_2 ex_local [0;4;6]%N [[0;2;4];[0;2;6]]%N 12); [|cbn; lia|reflexivity..].
    apply (ex_add ex_1 ex_local [0;2;6]%N [[0;2;4]]%N 6); [|cbn; lia|reflexivity..].
    apply (ex_add (search_default, cdb_default) hdr_new [0;2;4]%N [] 0); [constructor|cbn; lia|reflexivity..]. 
Qed.
Lemma ex_H6 : history (ex_search (fst ex_4)) (snd ex_4) [[0;2;4];[0;2;6];[0;4;6];[2;4;6]]%N 0 24.
Proof.
  eapply hi_search; [exact ex_H4| |].
    - intros c. change (s_lits (ex_search (fst ex_4))) with (upd (s_lits (fst ex_4)) 6 [6;0;2])%N. unfold upd.
      destruct (N.eqb_spec c 6) as [->|]; [|reflexivity].
      change (s_lits (fst ex_4) 6%N) with [0;2;6]%N. exact (Permutation_app_comm [0;2]%N [6]%N).
    - split; [|split].
      + change (map lit_var (s_trail (ex_search (fst ex_4)))) with [0;1;3]%N. repeat constructor; cbn; intros X; intuition discriminate.
      + intros l I. cbn in I. intuition subst; reflexivity.
      + intros l c I Q. cbn in I. destruct I as [<-|[<-|[<-|[]]]]; vm_compute in Q; try discriminate. injection Q as <-.
        split; [vm_compute; auto|]. eexists. reflexivity. 
Qed.
Lemma ex_H7 : history (fst (fst ex_7)) (snd (fst ex_7)) [[0;2;4];[0;2;6];[2;4;6]]%N 6 24.
Proof.
  assert (Q : reduce_locals (ex_search (fst ex_4)) (snd ex_4) = (fst (fst ex_7), snd (fst ex_7), snd ex_7)).
    { unfold ex_7. destruct (reduce_locals _ _) as [[? ?] ?]. reflexivity. }
    pose proof (hi_locals _ _ _ _ _ _ _ _ ex_H6 Q) as H7. clear Q.
    assert (Q1 : without (snd ex_7) (live (snd ex_4)) [[0;2;4];[0;2;6];[0;4;6];[2;4;6]]%N = [[0;2;4];[0;2;6];[2;4;6]]%N) by (vm_compute; reflexivity).
    assert (Q2 : (0 + words (only (snd ex_7) (live (snd ex_4)) [[0;2;4];[0;2;6];[0;4;6];[2;4;6]]))%N = 6%N) by (vm_compute; reflexivity).
    rewrite Q1, Q2 in H7. exact H7. 
Qed.
Lemma ex_del p c k g z : history (fst p) (snd p) k g z -> In c (live (snd p)) ->
  s_trail (fst p) = [1;3;6]%N -> s_reason (fst p) 0%N = RUnit -> s_reason (fst p) 1%N = RUnit -> s_reason (fst p) 3%N = RLong 6 -> c <> 6%N ->
  forall k' g', without [c] (live (snd p)) k = k' -> (g + words (only [c] (live (snd p)) k))%N = g' ->
  history (fst (delete_clause (fst p) (snd p) c)) (snd (delete_clause (fst p) (snd p) c)) k' g' z.
Proof.
  intros H I T R0 R1 R3 N k' g' <- <-. apply (hi_delete _ _ _ _ _ c _ _ H I); [|reflexivity]. rewrite T.
  intros l [<-|[<-|[<-|[]]]]; [change (lit_var 1) with 0%N|change (lit_var 3) with 1%N|change (lit_var 6) with 3%N]; congruence.
Qed.
Lemma ex_H8 : history (fst ex_8) (snd ex_8) [[0;2;4];[0;2;6]]%N 12 24.
Proof.
  apply (ex_del (fst ex_7) 18%N _ _ _ ex_H7); try (vm_compute; reflexivity); [vm_compute; auto|discriminate].
Qed.
Lemma ex_H9 : history (fst ex_9) (snd ex_9) [[0;2;6]]%N 18 24.
Proof.
  apply (ex_del ex_8 0%N _ _ _ ex_H8); try (vm_compute; reflexivity); [vm_compute; auto|discriminate].
Qed.
Example ex_history : snd ex_7 = [12]%N /\
  exists s d, history s d [[0;2;6]]%N 0 6 /\ s_reason s 3 = RLong 0 /\ s_lits s 0%N = [6;0;2]%N /\
    collect_garbage (fst ex_9) (snd ex_9) = Some (s, d).
Proof.
  split; [vm_compute; reflexivity|].
  destruct (collect_garbage (fst ex_9) (snd ex_9)) as [[s d]|] eqn:E.
  2:{ exfalso. assert (Q : match collect_garbage (fst ex_9) (snd ex_9) with Some _ => true | None => false end = true) by (vm_compute; reflexivity).
      rewrite E in Q. discriminate. }
  assert (Q : match collect_garbage (fst ex_9) (snd ex_9) with
              | Some (s, d) => (d_full d, s_reason s 3%N, s_lits s 0%N) | None => (true, RUnit, []) end = (false, RLong 0, [6;0;2]%N)) by (vm_compute; reflexivity).
  rewrite E in Q. injection Q as Q1 Q2 Q3.
  exists s, d. split; [exact (hi_collect _ _ _ _ _ _ _ ex_H9 E Q1)|]. auto.
Qed.

Print Assumptions C23_database.
Print Assumptions C23_reasons_moved.
Print Assumptions C32_reduce_locals.
Print Assumptions C32_reduce_mids.
Print Assumptions C32_irredundant_stay.
