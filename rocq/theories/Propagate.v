(** Unit propagation (Search.v): it keeps the invariants of the search, and finds all
    consequences. *)
From Coq Require Import Lia Arith PeanoNat Permutation.
From Verif Require Import Spec Lit LitProofs F32 Vsids VsidsProofs Search SearchBase.
Local Open Scope nat_scope.

(** * Invariants *)
Definition clause_ok (n : N) (lits : list N) : Prop :=
  3 <= length lits /\ NoDup (map lit_var lits) /\ forall x, In x lits -> (lit_var x < n)%N.

Definition on_trail (s : search) (l : N) : Prop := In (lit_var l) (map lit_var (s_trail s)).

(** The stored clauses: [L] are the references of the long ones, [bin] the binary ones. *)
Record store_ok (n : N) (L : list N) (bin : N -> list N) (s : search) : Prop := {
  so_nodup : NoDup L;
  so_clause : forall c, In c L -> clause_ok n (s_lits s c);
  so_bin : forall l o, In o (bin l) ->
      (lit_var l < n)%N /\ (lit_var o < n)%N /\ lit_var o <> lit_var l /\ In (lnot l) (bin (lnot o));
  so_on_long : forall c x, In c L -> In x (s_lits s c) -> s_val s (lit_var x) <> None -> on_trail s x;
  so_on_bin : forall l o, In o (bin l) -> s_val s (lit_var o) <> None -> on_trail s o;
  so_rlong : forall l c, In l (s_trail s) -> s_reason s (lit_var l) = RLong c -> In c L;
  so_rbin : forall l b, In l (s_trail s) -> s_reason s (lit_var l) = RBinary b -> In l (bin (lnot b)) }.

Record watch_ok (L : list N) (s : search) (wl : N -> list (N * N)) : Prop := {
  wo_nodup : forall l, NoDup (map fst (wl l));
  wo_entry : forall l c b, In (c, b) (wl l) -> In c L /\ In b (s_lits s c) /\
      exists c0 c1 r, s_lits s c = c0 :: c1 :: r /\ (lnot l = c0 \/ lnot l = c1);
  wo_watched : forall c c0 c1 r, In c L -> s_lits s c = c0 :: c1 :: r ->
      (exists b, In (c, b) (wl (lnot c0))) /\ (exists b, In (c, b) (wl (lnot c1))) }.

Definition processed (s : search) (l : N) : Prop :=
  exists p, p < s_head s /\ nth_error (s_trail s) p = Some l.

Definition sat_le (s : search) (lits : list N) (lv : nat) : Prop :=
  exists t, In t lits /\ istrue s t /\ s_level s (lit_var t) <= lv.

(** Consequences of the processed literals are found, except for those in [exL] and [exB]. *)
Record prop_ok (L : list N) (bin : N -> list N) (s : search) (exL exB : N -> N -> Prop) : Prop := {
  po_long : forall c c0 c1 r w, In c L -> s_lits s c = c0 :: c1 :: r -> w = c0 \/ w = c1 ->
      processed s (lnot w) -> exL (lnot w) c \/ sat_le s (s_lits s c) (s_level s (lit_var w));
  po_bin : forall l o, In o (bin l) -> processed s l ->
      exB l o \/ (istrue s o /\ s_level s (lit_var o) <= s_level s (lit_var l)) }.

(** What propagation may change *)
Record extends (s s' : search) : Prop := {
  ex_trail : exists t, s_trail s' = s_trail s ++ t;
  ex_decs : s_decs s' = s_decs s;
  ex_lits : forall c, Permutation (s_lits s c) (s_lits s' c);
  ex_val : forall v, s_val s v <> None -> s_val s' v = s_val s v;
  ex_new : forall v, s_val s v = None -> s_val s' v <> None -> In v (map lit_var (s_trail s'));
  ex_reason : forall v, s_val s v <> None -> s_reason s' v = s_reason s v;
  ex_level : forall v, s_val s v <> None -> s_level s' v = s_level s v;
  ex_depth : forall v, s_val s v <> None -> s_depth s' v = s_depth s v;
  ex_unit : forall v, s_val s v = None -> s_val s' v <> None -> s_reason s' v <> RUnit;
  ex_last : s_last s' = s_last s;
  ex_wen : s_wen s' = s_wen s }.

Lemma extends_refl s : extends s s.
Proof.
  constructor; auto; try congruence. exists []. symmetry. apply app_nil_r.
Qed.
Lemma extends_val s s' v : extends s s' -> s_val s v <> None -> s_val s' v <> None.
Proof. intros E H. rewrite (ex_val _ _ E v H). exact H. Qed.
Lemma extends_trans s1 s2 s3 : extends s1 s2 -> extends s2 s3 -> extends s1 s3.
Proof.
  intros A B.
  assert (V : forall v, s_val s1 v <> None -> s_val s2 v <> None) by (intros; eapply extends_val; eauto).
  constructor.
  - destruct (ex_trail _ _ A) as (t & E), (ex_trail _ _ B) as (u & F). exists (t ++ u). rewrite F, E. symmetry. apply app_assoc.
  - rewrite (ex_decs _ _ B). apply (ex_decs _ _ A).
  - intros c. etransitivity; [apply (ex_lits _ _ A)|apply (ex_lits _ _ B)].
  - intros v H. rewrite (ex_val _ _ B v (V v H)). apply (ex_val _ _ A v H).
  - intros v H1 H3. destruct (s_val s2 v) as [b|] eqn:E2.
    + destruct (ex_trail _ _ B) as (u & F). rewrite F, map_app, in_app_iff. left.
      apply (ex_new _ _ A v H1). congruence.
    + exact (ex_new _ _ B v E2 H3).
  - intros v H. rewrite (ex_reason _ _ B v (V v H)). apply (ex_reason _ _ A v H).
  - intros v H. rewrite (ex_level _ _ B v (V v H)). apply (ex_level _ _ A v H).
  - intros v H. rewrite (ex_depth _ _ B v (V v H)). apply (ex_depth _ _ A v H).
  - intros v H1 H3. destruct (s_val s2 v) as [b|] eqn:E2.
    + rewrite (ex_reason _ _ B v) by congruence. apply (ex_unit _ _ A v H1). congruence.
    + exact (ex_unit _ _ B v E2 H3).
  - rewrite (ex_last _ _ B). apply (ex_last _ _ A).
  - rewrite (ex_wen _ _ B). apply (ex_wen _ _ A).
Qed.

Lemma processed_true n s l : trail_ok n s -> processed s l -> istrue s l.
Proof. intros K (p & _ & H). apply (tk_true _ _ K). eapply nth_error_In; eauto. Qed.

Lemma trail_level n s l : trail_ok n s -> In l (s_trail s) -> s_level s (lit_var l) <= clevel s.
Proof.
  intros K H. apply In_nth_error in H. destruct H as (p & H). rewrite (tk_level _ _ K p l H). apply lvl_le.
Qed.
Lemma on_trail_level n s l : trail_ok n s -> on_trail s l -> s_level s (lit_var l) <= clevel s.
Proof.
  intros K H. apply in_map_iff in H. destruct H as (x & E & I). rewrite <- E. eapply trail_level; eauto.
Qed.
(** A literal at or after the head has the current level. *)
Lemma head_level n s p l : trail_ok n s -> nth_error (s_trail s) p = Some l -> s_head s <= S p ->
  (forall d, In d (s_decs s) -> d < s_head s) \/ s_head s <= p -> s_level s (lit_var l) = clevel s.
Proof.
  intros K H Hp Hd. rewrite (tk_level _ _ K p l H). apply lvl_all. intros d I.
  pose proof (tk_decs _ _ K d I). destruct Hd as [Hd|Hd]; [specialize (Hd d I)|]; lia.
Qed.

Lemma on_trail_true n s l : trail_ok n s -> istrue s l -> on_trail s l -> In l (s_trail s).
Proof.
  intros K T H. apply in_vars in H. destruct H as [H|H]; [exact H|exfalso].
  exact (true_not_false _ _ T (tk_true _ _ K _ H)).
Qed.

(** * Changing the order of the literals of a clause that is not a reason *)
Definition set_lits (s : search) (c : N) (l : list N) : search := with_lits s (upd (s_lits s) c l).

Lemma set_lits_lits s c l d : s_lits (set_lits s c l) d = if N.eqb d c then l else s_lits s d.
Proof. reflexivity. Qed.

Lemma set_lits_trail n s c l : trail_ok n s ->
  (forall x, In x (s_trail s) -> s_reason s (lit_var x) = RLong c -> l = s_lits s c) ->
  trail_ok n (set_lits s c l).
Proof.
  intros K R. constructor; try apply K.
  intros p x H. pose proof (tk_reason _ _ K p x H) as Q. unfold reason_ok in *.
  cbn [set_lits with_lits s_reason s_decs s_lits].
  destruct (s_reason s (lit_var x)) as [|b|d] eqn:E; try exact Q.
  destruct Q as (Q1 & rest & E2 & Q2). split; [exact Q1|]. exists rest. split; [|exact Q2].
  unfold upd. destruct (N.eqb_spec d c) as [->|]; [|exact E2].
  rewrite (R x (nth_error_In _ _ H) E). exact E2.
Qed.

Lemma clause_ok_perm n a b : Permutation a b -> clause_ok n a -> clause_ok n b.
Proof.
  intros P (A & B & C). split; [rewrite <- (Permutation_length P); exact A|]. split.
  - eapply Permutation_NoDup; [apply Permutation_map; exact P|exact B].
  - intros x H. apply C. eapply Permutation_in; [symmetry; exact P|exact H].
Qed.

Lemma set_lits_store n L bin s c l : store_ok n L bin s -> Permutation (s_lits s c) l ->
  store_ok n L bin (set_lits s c l).
Proof.
  intros K P. constructor; try apply K.
  - intros d Hd. rewrite set_lits_lits. destruct (N.eqb_spec d c) as [->|]; [|apply K; exact Hd].
    eapply clause_ok_perm; [exact P|]. apply K. exact Hd.
  - intros d x Hd. rewrite set_lits_lits. destruct (N.eqb_spec d c) as [->|].
    + intros Hx. apply (so_on_long _ _ _ _ K c x Hd). eapply Permutation_in; [symmetry; exact P|exact Hx].
    + apply (so_on_long _ _ _ _ K d x Hd).
Qed.

Lemma sat_le_perm s s' a b lv : Permutation a b -> s_val s' = s_val s -> s_level s' = s_level s ->
  sat_le s a lv -> sat_le s' b lv.
Proof.
  intros P V E (t & I & T & Lv). exists t. split; [eapply Permutation_in; eauto|].
  unfold istrue. rewrite V, E. auto.
Qed.

(** [enqueue] extends *)
Lemma enqueue_extends n s l r : trail_ok n s -> s_val s (lit_var l) = None -> r <> RUnit -> extends s (enqueue s l r).
Proof.
  intros K U NR.
  assert (NE : forall v, s_val s v <> None -> v <> lit_var l) by (intros v H ->; contradiction).
  constructor; cbn [enqueue s_trail s_decs s_lits s_val s_reason s_level s_depth s_last s_wen]; auto.
  - exists [l]. reflexivity.
  - intros v H. rewrite upd_ne; auto.
  - intros v H. unfold upd. destruct (N.eqb_spec v (lit_var l)) as [->|]; [|congruence].
    intros _. rewrite map_app, in_app_iff. right. left. reflexivity.
  - intros v H. rewrite upd_ne; auto.
  - intros v H. rewrite upd_ne; auto.
  - intros v H. rewrite upd_ne; auto.
  - intros v H. unfold upd. destruct (N.eqb_spec v (lit_var l)) as [->|]; congruence.
Qed.

Lemma extends_istrue s s' l : extends s s' -> istrue s l -> istrue s' l.
Proof. intros E H. unfold istrue in *. rewrite (ex_val _ _ E); [exact H|]. congruence. Qed.
Lemma extends_isfalse s s' l : extends s s' -> isfalse s l -> isfalse s' l.
Proof. apply extends_istrue. Qed.
Lemma sat_le_ext s s' lits lits' lv : extends s s' -> Permutation lits lits' -> sat_le s lits lv -> sat_le s' lits' lv.
Proof.
  intros E P (t & I & T & Lv). exists t. split; [eapply Permutation_in; eauto|].
  split; [eapply extends_istrue; eauto|]. rewrite (ex_level _ _ E); [exact Lv|]. apply istrue_assigned; exact T.
Qed.

(** The store after [enqueue] *)
Lemma enqueue_store n L bin s l r : trail_ok n s -> store_ok n L bin s -> s_val s (lit_var l) = None ->
  (forall c, r = RLong c -> In c L) -> (forall b, r = RBinary b -> In l (bin (lnot b))) ->
  store_ok n L bin (enqueue s l r).
Proof.
  intros K S U RL RB. pose proof (unk_not_in _ _ _ K U) as NI.
  constructor; try apply S.
  - intros c x Hc Hx. cbn [enqueue s_val s_lits] in *. unfold upd, on_trail. cbn [enqueue s_trail].
    rewrite map_app, in_app_iff. destruct (N.eqb_spec (lit_var x) (lit_var l)) as [->|].
    + intros _. right. left. reflexivity.
    + intros H. left. exact (so_on_long _ _ _ _ S c x Hc Hx H).
  - intros a o Ho. cbn [enqueue s_val]. unfold upd, on_trail. cbn [enqueue s_trail].
    rewrite map_app, in_app_iff. destruct (N.eqb_spec (lit_var o) (lit_var l)) as [->|].
    + intros _. right. left. reflexivity.
    + intros H. left. exact (so_on_bin _ _ _ _ S a o Ho H).
  - intros x c. cbn [enqueue s_trail s_reason]. rewrite in_app_iff. unfold upd.
    destruct (N.eqb_spec (lit_var x) (lit_var l)) as [E|NE].
    + intros _ H. apply RL. exact H.
    + intros [I|[->|[]]]; [|congruence]. apply (so_rlong _ _ _ _ S x c I).
  - intros x b. cbn [enqueue s_trail s_reason]. rewrite in_app_iff. unfold upd.
    destruct (N.eqb_spec (lit_var x) (lit_var l)) as [E|NE].
    + intros [I|[->|[]]] H; [exfalso; apply NI; rewrite <- E; apply in_map; exact I|]. apply RB. exact H.
    + intros [I|[->|[]]]; [|congruence]. apply (so_rbin _ _ _ _ S x b I).
Qed.

(** Processed literals do not change while the head stays. *)
Lemma processed_ext s s' l : extends s s' -> s_head s' = s_head s -> s_head s <= length (s_trail s) ->
  (processed s' l <-> processed s l).
Proof.
  intros E H Hl. unfold processed. rewrite H. destruct (ex_trail _ _ E) as (t & Et).
  split; intros (p & L & N); exists p; (split; [exact L|]).
  - rewrite Et, nth_error_app1 in N by lia. exact N.
  - rewrite Et, nth_error_app1 by lia. exact N.
Qed.

(** [prop_ok] after an extension that leaves the stored order of the literals *)
Lemma prop_ok_ext L bin s s' exL exB n : trail_ok n s -> extends s s' -> s_head s' = s_head s ->
  s_lits s' = s_lits s -> prop_ok L bin s exL exB -> prop_ok L bin s' exL exB.
Proof.
  intros K E H El P. pose proof (tk_head _ _ K) as Hl.
  constructor.
  - intros c c0 c1 r w Hc Ec Hw Hp. rewrite El in *. apply (processed_ext _ _ _ E H Hl) in Hp.
    destruct (po_long _ _ _ _ _ P c c0 c1 r w Hc Ec Hw Hp) as [X|X]; [left; exact X|right].
    rewrite (ex_level _ _ E).
    2:{ rewrite <- (lnot_var w). apply istrue_assigned. eapply processed_true; eauto. }
    eapply sat_le_ext; eauto.
  - intros l o Ho Hp. apply (processed_ext _ _ _ E H Hl) in Hp.
    destruct (po_bin _ _ _ _ _ P l o Ho Hp) as [X|[X Y]]; [left; exact X|right].
    split; [eapply extends_istrue; eauto|].
    rewrite (ex_level _ _ E (lit_var l)), (ex_level _ _ E (lit_var o)); [exact Y|apply istrue_assigned; exact X|].
    apply istrue_assigned. eapply processed_true; eauto.
Qed.

(** * Binary clauses *)
Lemma propagate_binary_spec n L bin lit : forall implied s s' r exL,
  (forall o, In o implied -> In o (bin lit)) ->
  trail_ok n s -> store_ok n L bin s -> In lit (s_trail s) -> s_level s (lit_var lit) = clevel s ->
  prop_ok L bin s exL (fun l o => l = lit /\ In o implied) ->
  propagate_binary s lit implied = (s', r) ->
  trail_ok n s' /\ store_ok n L bin s' /\ extends s s' /\ s_head s' = s_head s /\ s_lits s' = s_lits s
  /\ s_watch s' = s_watch s /\
  match r with
  | None => prop_ok L bin s' exL (fun _ _ => False)
  | Some c => prop_ok L bin s' exL (fun l o => l = lit) /\
      exists l, c = CBinary l (lnot lit) /\ In l (bin lit) /\ isfalse s' l
  end.
Proof.
  induction implied as [|o rest IH]; intros s s' r exL Inc K S Hlit Hlv P E; cbn [propagate_binary] in E.
  - injection E as <- <-. split; [exact K|]. split; [exact S|]. split; [apply extends_refl|].
    split; [reflexivity|]. split; [reflexivity|]. split; [reflexivity|].
    constructor; [apply (po_long _ _ _ _ _ P)|].
    intros l o Ho Hp. destruct (po_bin _ _ _ _ _ P l o Ho Hp) as [[_ []]|X]. right. exact X.
  - assert (Io : In o (bin lit)) by (apply Inc; left; reflexivity).
    assert (Inc' : forall x, In x rest -> In x (bin lit)) by (intros; apply Inc; right; assumption).
    destruct (lfalse s o) eqn:Ef; [|destruct (ltrue s o) eqn:Et].
    + injection E as <- <-. apply lfalse_iff in Ef.
      split; [exact K|]. split; [exact S|]. split; [apply extends_refl|].
      split; [reflexivity|]. split; [reflexivity|]. split; [reflexivity|]. split.
      * constructor; [apply (po_long _ _ _ _ _ P)|].
        intros l x Hx Hp. destruct (po_bin _ _ _ _ _ P l x Hx Hp) as [[-> _]|X]; auto.
      * exists o. auto.
    + apply ltrue_iff in Et. apply IH with (exL := exL) in E; auto.
      constructor; [apply (po_long _ _ _ _ _ P)|].
      intros l x Hx Hp. destruct (po_bin _ _ _ _ _ P l x Hx Hp) as [[-> [<-|Q]]|X]; auto.
      right. split; [exact Et|]. rewrite Hlv. eapply on_trail_level; [exact K|].
      apply (so_on_bin _ _ _ _ S lit o Io). apply istrue_assigned. exact Et.
    + apply ltrue_false in Et. apply lfalse_false in Ef.
      assert (U : s_val s (lit_var o) = None).
      { destruct (value_cases s o) as [?|[?|?]]; [contradiction|contradiction|assumption]. }
      set (s1 := enqueue s o (RBinary (lnot lit))) in *.
      assert (K1 : trail_ok n s1).
      { apply enqueue_ok; auto; [apply (so_bin _ _ _ _ S lit o Io)|].
        cbn. rewrite lnot_invol. exact Hlit. }
      assert (S1 : store_ok n L bin s1).
      { apply enqueue_store; auto; [discriminate|]. intros b Hb. injection Hb as <-. rewrite lnot_invol. exact Io. }
      assert (X1 : extends s s1) by (eapply enqueue_extends; eauto; discriminate).
      assert (Alit : s_val s (lit_var lit) <> None).
      { apply istrue_assigned. apply (tk_true _ _ K). exact Hlit. }
      assert (T1 : istrue s1 o) by (apply enqueue_istrue; auto).
      apply IH with (exL := exL) in E; auto.
      * destruct E as (A & B & C & D & F & G & R). split; [exact A|]. split; [exact B|].
        split; [eapply extends_trans; eauto|]. split; [exact D|]. split; [exact F|]. split; [exact G|exact R].
      * destruct (ex_trail _ _ X1) as (t & ->). apply in_or_app. auto.
      * rewrite (ex_level _ _ X1) by exact Alit. exact Hlv.
      * pose proof (prop_ok_ext _ _ _ _ _ _ _ K X1 eq_refl eq_refl P) as P1.
        constructor; [apply (po_long _ _ _ _ _ P1)|].
        intros l x Hx Hp. destruct (po_bin _ _ _ _ _ P1 l x Hx Hp) as [[-> [<-|Q]]|X]; auto.
        right. split; [exact T1|]. unfold s1 at 1. cbn [enqueue s_level]. rewrite upd_eq.
        rewrite (ex_level _ _ X1) by exact Alit. rewrite Hlv. unfold clevel. lia.
Qed.

(** * Long clauses *)
Lemma take_watch_some s x rest l rest' : take_watch s x rest = Some (l, rest') ->
  exists a b, rest = a ++ l :: b /\ rest' = a ++ x :: b /\ ~ isfalse s l /\ forall y, In y a -> isfalse s y.
Proof.
  revert rest'. induction rest as [|y rest IH]; intros rest' E; cbn [take_watch] in E; [discriminate|].
  destruct (lfalse s y) eqn:F.
  - destruct (take_watch s x rest) as [[z r]|]; [|discriminate]. injection E as <- <-.
    destruct (IH r eq_refl) as (a & b & -> & -> & NF & A). exists (y :: a), b.
    split; [reflexivity|]. split; [reflexivity|]. split; [exact NF|].
    intros w [<-|H]; [apply lfalse_iff; exact F|auto].
  - injection E as <- <-. exists [], rest. split; [reflexivity|]. split; [reflexivity|].
    split; [apply lfalse_false; exact F|intros ? []].
Qed.
Lemma take_watch_none s x rest : take_watch s x rest = None -> forall y, In y rest -> isfalse s y.
Proof.
  induction rest as [|y rest IH]; intros E z H; [destruct H|]. cbn [take_watch] in E.
  destruct (lfalse s y) eqn:F; [|discriminate].
  destruct (take_watch s x rest) as [[w r]|]; [discriminate|].
  destruct H as [<-|H]; [apply lfalse_iff; exact F|auto].
Qed.

Definition eff (s : search) (lit : N) (ws : list (N * N)) : N -> list (N * N) := upd (s_watch s) lit ws.

Lemma nodup_mid {A} (a : list A) x b : NoDup (a ++ x :: b) -> ~ In x (a ++ b).
Proof. intros H. apply NoDup_remove_2 in H. exact H. Qed.

Lemma lit_neq_var (x y : N) : lit_var x <> lit_var y -> x <> y.
Proof. congruence. Qed.

(** Replacing the blocking literal of one entry, with the clause reordered in its first two
    literals at most *)
Lemma watch_ok_entry L s s' lit kept ws c b b' l0 l1 r :
  watch_ok L s (eff s lit (kept ++ (c, b) :: ws)) ->
  (s_lits s c = l0 :: l1 :: r \/ s_lits s c = l1 :: l0 :: r) ->
  s_lits s' = upd (s_lits s) c (l0 :: l1 :: r) -> s_watch s' = s_watch s -> In b' (l0 :: l1 :: r) ->
  watch_ok L s' (eff s' lit (kept ++ (c, b') :: ws)).
Proof.
  intros W Ec El Ew Hb'. unfold eff in *. rewrite Ew.
  assert (EL : forall d, d <> c -> s_lits s' d = s_lits s d) by (intros d Hd; rewrite El; apply upd_ne; exact Hd).
  assert (ELc : s_lits s' c = l0 :: l1 :: r) by (rewrite El; apply upd_eq).
  assert (Hin : forall x, In x (s_lits s c) <-> In x (s_lits s' c)).
  { intros x. rewrite ELc. destruct Ec as [-> | ->]; cbn; tauto. }
  assert (Tr : forall d x, (exists y, In (d, y) (upd (s_watch s) lit (kept ++ (c, b) :: ws) x)) ->
               exists y, In (d, y) (upd (s_watch s) lit (kept ++ (c, b') :: ws) x)).
  { intros d x (y & H). unfold upd in *. destruct (N.eqb x lit); [|eauto].
    apply in_app_or in H. destruct H as [H|[H|H]].
    - exists y. apply in_or_app. auto.
    - injection H as <- <-. exists b'. apply in_or_app. right. left. reflexivity.
    - exists y. apply in_or_app. right. right. exact H. }
  constructor.
  - intros l. pose proof (wo_nodup _ _ _ W l) as ND. unfold upd in *. destruct (N.eqb l lit); [|exact ND].
    rewrite map_app in *. exact ND.
  - intros l d x H.
    assert (H0 : (d = c /\ x = b' /\ l = lit) \/ In (d, x) (upd (s_watch s) lit (kept ++ (c, b) :: ws) l)).
    { unfold upd in *. destruct (N.eqb_spec l lit) as [->|]; [|auto].
      apply in_app_or in H. destruct H as [H|[H|H]].
      - right. apply in_or_app. auto.
      - left. injection H as <- <-. auto.
      - right. apply in_or_app. right. right. exact H. }
    assert (G : In d L /\ (d = c -> In x (s_lits s' c)) /\ (d <> c -> In x (s_lits s d)) /\
      exists c0 c1 r0, s_lits s d = c0 :: c1 :: r0 /\ (lnot l = c0 \/ lnot l = c1)).
    { destruct H0 as [(-> & -> & ->)|H0].
      - destruct (wo_entry _ _ _ W lit c b) as (A & B & C).
        { rewrite upd_eq. apply in_or_app. right. left. reflexivity. }
        split; [exact A|]. split; [intros _; rewrite ELc; exact Hb'|]. split; [congruence|exact C].
      - destruct (wo_entry _ _ _ W l d x H0) as (A & B & C). split; [exact A|].
        split; [intros ->; apply Hin; exact B|]. split; [auto|exact C]. }
    destruct G as (A & B & B' & c0 & c1 & r0 & E0 & Hw). split; [exact A|].
    destruct (N.eq_dec d c) as [->|NE].
    + split; [auto|]. exists l0, l1, r. split; [exact ELc|].
      destruct Ec as [Ec|Ec]; rewrite Ec in E0; injection E0 as <- <- <-; tauto.
    + rewrite EL by exact NE. split; [auto|]. exists c0, c1, r0. auto.
  - intros d c0 c1 r0 Hd E0. destruct (N.eq_dec d c) as [->|NE].
    + rewrite ELc in E0. injection E0 as <- <- <-.
      assert (G : (exists y, In (c, y) (upd (s_watch s) lit (kept ++ (c, b) :: ws) (lnot l0))) /\
                  (exists y, In (c, y) (upd (s_watch s) lit (kept ++ (c, b) :: ws) (lnot l1)))).
      { destruct Ec as [Ec|Ec].
        - exact (wo_watched _ _ _ W c l0 l1 r Hd Ec).
        - destruct (wo_watched _ _ _ W c l1 l0 r Hd Ec). auto. }
      destruct G. split; apply Tr; assumption.
    + rewrite EL in E0 by exact NE. destruct (wo_watched _ _ _ W d c0 c1 r0 Hd E0). split; apply Tr; assumption.
Qed.

(** Moving a watch to another literal *)
Lemma watch_ok_move L s s' lit kept ws c b x first l r r' :
  watch_ok L s (eff s lit (kept ++ (c, b) :: ws)) ->
  (s_lits s c = first :: lnot lit :: r \/ s_lits s c = lnot lit :: first :: r) ->
  NoDup (first :: lnot lit :: r) -> In l r -> Permutation (l :: r') (lnot lit :: r) ->
  s_lits s' = upd (s_lits s) c (first :: l :: r') ->
  s_watch s' = add_watch (s_watch s) (lnot l) (c, x) -> In x (first :: l :: r') ->
  watch_ok L s' (eff s' lit (kept ++ ws)).
Proof.
  intros W Ec ND Hl Pm El Ew Hx. unfold eff in *. rewrite Ew.
  inversion ND as [|? ? N1 ND1]; subst. inversion ND1 as [|? ? N2 ND2]; subst.
  assert (Nl : l <> lnot lit) by (intros ->; contradiction).
  assert (Nf : l <> first) by (intros ->; apply N1; right; exact Hl).
  assert (NL : lnot l <> lit) by (intros E; apply Nl; rewrite <- E, lnot_invol; reflexivity).
  assert (EL : forall d, d <> c -> s_lits s' d = s_lits s d) by (intros d Hd; rewrite El; apply upd_ne; exact Hd).
  assert (ELc : s_lits s' c = first :: l :: r') by (rewrite El; apply upd_eq).
  set (old := upd (s_watch s) lit (kept ++ (c, b) :: ws)) in *.
  set (new := upd (add_watch (s_watch s) (lnot l) (c, x)) lit (kept ++ ws)).
  assert (Onew : forall d, d <> c -> forall y z, In (d, z) (new y) <-> In (d, z) (old y)).
  { intros d Hd y z. unfold new, old, upd, add_watch. destruct (N.eqb_spec y lit) as [->|].
    - rewrite !in_app_iff. cbn. intuition congruence.
    - unfold upd. destruct (N.eqb y (lnot l)) eqn:Ey; [|reflexivity].
      apply N.eqb_eq in Ey. subst y. rewrite in_app_iff. cbn. intuition congruence. }
  assert (Cold : forall y z, In (c, z) (old y) -> y = lit \/ y = lnot first).
  { intros y z H. destruct (wo_entry _ _ _ W y c z H) as (_ & _ & c0 & c1 & r0 & E0 & Hw).
    destruct Ec as [Ec|Ec]; rewrite Ec in E0; injection E0 as <- <- <-;
      destruct Hw as [Hw|Hw]; rewrite <- (lnot_invol y), Hw; rewrite ?lnot_invol; auto. }
  assert (Ncl : forall z, ~ In (c, z) (s_watch s (lnot l))).
  { intros z H. assert (H' : In (c, z) (old (lnot l))) by (unfold old; rewrite upd_ne; [exact H|exact NL]).
    apply Cold in H'. destruct H' as [H'|H']; [contradiction|]. apply lnot_inj in H'. contradiction. }
  assert (Nclit : forall z, ~ In (c, z) (kept ++ ws)).
  { intros z H. pose proof (wo_nodup _ _ _ W lit) as Q. unfold old in Q. rewrite upd_eq, map_app in Q.
    apply nodup_mid in Q. apply Q. rewrite <- map_app. apply (in_map fst) in H. exact H. }
  constructor.
  - intros y. pose proof (wo_nodup _ _ _ W y) as Q. fold old in Q. unfold new.
    destruct (N.eq_dec y lit) as [->|NE].
    + rewrite upd_eq. unfold old in Q. rewrite upd_eq, map_app in Q. apply NoDup_remove_1 in Q.
      rewrite map_app. exact Q.
    + rewrite upd_ne by exact NE. unfold old in Q. rewrite upd_ne in Q by exact NE. unfold add_watch.
      destruct (N.eq_dec y (lnot l)) as [->|NE2]; [|rewrite upd_ne by exact NE2; exact Q].
      rewrite upd_eq, map_app. cbn [map fst].
      rewrite <- (rev_involutive (map fst (s_watch s (lnot l)) ++ [c])). apply NoDup_rev. rewrite rev_app_distr. cbn.
      constructor; [|apply NoDup_rev; exact Q]. rewrite <- in_rev. intros H. apply in_map_iff in H.
      destruct H as ([d z] & E & H). cbn in E. subst d. exact (Ncl z H).
  - intros y d z H. destruct (N.eq_dec d c) as [->|NE].
    + assert (G : (y = lnot l /\ z = x) \/ (y = lnot first /\ In (c, z) (old y))).
      { unfold new, upd in H. destruct (N.eqb_spec y lit) as [->|NE]; [exfalso; exact (Nclit z H)|].
        unfold add_watch, upd in H. destruct (N.eqb_spec y (lnot l)) as [->|NE2].
        - apply in_app_or in H. destruct H as [H|[H|[]]]; [exfalso; exact (Ncl z H)|]. injection H as <-. auto.
        - right. assert (H' : In (c, z) (old y)) by (unfold old; rewrite upd_ne; assumption).
          split; [|exact H']. destruct (Cold y z H'); [contradiction|assumption]. }
      assert (Hc : In c L /\ In z (first :: l :: r')).
      { destruct (wo_entry _ _ _ W lit c b) as (A & _).
        { unfold old. rewrite upd_eq. apply in_or_app. right. left. reflexivity. }
        split; [exact A|]. destruct G as [[_ ->]|[_ G]]; [exact Hx|].
        destruct (wo_entry _ _ _ W y c z G) as (_ & B & _).
        assert (Pz : In z (first :: lnot lit :: r)) by (destruct Ec as [Ec|Ec]; rewrite Ec in B; cbn in *; tauto).
        destruct Pz as [->|Pz]; [left; reflexivity|right]. eapply Permutation_in; [symmetry; exact Pm|exact Pz]. }
      destruct Hc as [A B]. split; [exact A|]. rewrite ELc. split; [exact B|].
      exists first, l, r'. split; [reflexivity|]. destruct G as [[-> _]|[-> _]]; rewrite lnot_invol; auto.
    + apply Onew in H; [|exact NE]. rewrite EL by exact NE. exact (wo_entry _ _ _ W y d z H).
  - intros d c0 c1 r0 Hd E0. destruct (N.eq_dec d c) as [->|NE].
    + rewrite ELc in E0. injection E0 as <- <- <-. split.
      * assert (G : exists y, In (c, y) (old (lnot first))).
        { destruct Ec as [Ec|Ec].
          - exact (proj1 (wo_watched _ _ _ W c _ _ r Hd Ec)).
          - exact (proj2 (wo_watched _ _ _ W c _ _ r Hd Ec)). }
        destruct G as (y & G). exists y.
        assert (Nf1 : lnot first <> lit) by (intros E; apply N1; left; rewrite <- E, lnot_invol; reflexivity).
        assert (Nf2 : lnot first <> lnot l) by (intros E; apply lnot_inj in E; congruence).
        unfold old in G. rewrite upd_ne in G by exact Nf1.
        unfold new. rewrite upd_ne by exact Nf1. unfold add_watch. rewrite upd_ne by exact Nf2. exact G.
      * exists x. unfold new. rewrite upd_ne by exact NL. unfold add_watch. rewrite upd_eq.
        apply in_or_app. right. left. reflexivity.
    + rewrite EL in E0 by exact NE. destruct (wo_watched _ _ _ W d c0 c1 r0 Hd E0) as [(y & A) (z & B)].
      split; [exists y|exists z]; apply Onew; auto.
Qed.

Lemma prop_ok_change L bin s s' c n0 n1 rr (exL exL' exB : N -> N -> Prop) :
  s_val s' = s_val s -> s_level s' = s_level s -> s_trail s' = s_trail s -> s_head s' = s_head s ->
  s_lits s' = upd (s_lits s) c (n0 :: n1 :: rr) ->
  (forall l d, d <> c -> exL l d -> exL' l d) ->
  (forall w, w = n0 \/ w = n1 -> processed s (lnot w) ->
     exL' (lnot w) c \/ sat_le s (n0 :: n1 :: rr) (s_level s (lit_var w))) ->
  prop_ok L bin s exL exB -> prop_ok L bin s' exL' exB.
Proof.
  intros Ev Elv Et Eh El Hex Hc P.
  assert (Pr : forall l, processed s' l <-> processed s l) by (intros l; unfold processed; rewrite Et, Eh; reflexivity).
  constructor.
  - intros d c0 c1 r w Hd Ed Hw Hp. apply Pr in Hp. rewrite El in *. rewrite Elv. destruct (N.eq_dec d c) as [->|NE].
    + rewrite upd_eq in *. injection Ed as <- <- <-. destruct (Hc w Hw Hp) as [X|X]; [left; exact X|right].
      eapply sat_le_perm; [reflexivity|exact Ev|exact Elv|exact X].
    + rewrite upd_ne in * by exact NE. destruct (po_long _ _ _ _ _ P d c0 c1 r w Hd Ed Hw Hp) as [X|X]; [left; auto|right].
      eapply sat_le_perm; [reflexivity|exact Ev|exact Elv|exact X].
  - intros l o Ho Hp. apply Pr in Hp. rewrite Elv. unfold istrue. rewrite Ev. exact (po_bin _ _ _ _ _ P l o Ho Hp).
Qed.

(** The watched literals of a watched clause *)
Lemma watch_pair n L bin s lit kept ws c b c0 c1 r : trail_ok n s -> store_ok n L bin s ->
  watch_ok L s (eff s lit (kept ++ (c, b) :: ws)) -> s_lits s c = c0 :: c1 :: r ->
  In c L /\ In b (s_lits s c) /\ exists first,
    (if N.eqb c0 (lnot lit) then (c1, lnot lit) else (c0, c1)) = (first, lnot lit) /\
    (s_lits s c = first :: lnot lit :: r \/ s_lits s c = lnot lit :: first :: r) /\
    NoDup (map lit_var (first :: lnot lit :: r)) /\ Permutation (s_lits s c) (first :: lnot lit :: r).
Proof.
  intros K S W E. destruct (wo_entry _ _ _ W lit c b) as (A & B & d0 & d1 & r0 & E0 & Hw).
  { unfold eff. rewrite upd_eq. apply in_or_app. right. left. reflexivity. }
  rewrite E in E0. injection E0 as <- <- <-. split; [exact A|]. split; [exact B|].
  destruct (so_clause _ _ _ _ S c A) as (_ & ND & _). rewrite E in ND.
  destruct (N.eqb_spec c0 (lnot lit)) as [->|NE].
  - exists c1. split; [reflexivity|]. split; [right; exact E|].
    assert (Pm : Permutation (s_lits s c) (c1 :: lnot lit :: r)) by (rewrite E; apply perm_swap).
    split; [|exact Pm]. eapply Permutation_NoDup; [|exact ND]. apply (Permutation_map lit_var (perm_swap c1 (lnot lit) r)).
  - destruct Hw as [Hw|Hw]; [congruence|]. subst c1. exists c0. split; [reflexivity|]. split; [left; exact E|].
    split; [exact ND|]. rewrite E. reflexivity.
Qed.

Definition conflict_at (L : list N) (bin : N -> list N) (s : search) (c : conflict) : Prop :=
  match c with
  | CBinary a b => In a (bin (lnot b))
  | CLong c => In c L
  end /\ (forall x, In x (conflict_lits s c) -> isfalse s x) /\
  exists x, In x (conflict_lits s c) /\ s_level s (lit_var x) = clevel s.

Lemma propagate_watches_spec n L bin lit : forall ws kept s s' r,
  trail_ok n s -> store_ok n L bin s -> In lit (s_trail s) -> s_level s (lit_var lit) = clevel s ->
  watch_ok L s (eff s lit (kept ++ ws)) ->
  prop_ok L bin s (fun l c => l = lit /\ In c (map fst ws)) (fun _ _ => False) ->
  propagate_watches s lit ws kept = (s', r) ->
  trail_ok n s' /\ store_ok n L bin s' /\ extends s s' /\ s_head s' = s_head s /\ watch_ok L s' (s_watch s') /\
  match r with
  | POk => prop_ok L bin s' (fun _ _ => False) (fun _ _ => False)
  | PConflict c => prop_ok L bin s' (fun l _ => l = lit) (fun _ _ => False) /\ conflict_at L bin s' c
  | _ => False
  end.
Proof.
  induction ws as [|[c b] ws IH]; intros kept s s' r K S Hlit Hlv W P E; cbn [propagate_watches] in E.
  { injection E as <- <-. rewrite app_nil_r in W.
    split. { constructor; try apply K. }
    split. { constructor; try apply S. }
    split. { constructor; cbn [with_watch s_trail s_decs s_lits s_val s_reason s_level s_depth s_last s_wen]; auto; try congruence.
             exists []. symmetry. apply app_nil_r. }
    split; [reflexivity|].
    split. { constructor; apply W. }
    constructor.
    - intros d c0 c1 r w Hd Ed Hw Hp. destruct (po_long _ _ _ _ _ P d c0 c1 r w Hd Ed Hw Hp) as [[_ []]|X]. right. exact X.
    - intros l o Ho Hp. destruct (po_bin _ _ _ _ _ P l o Ho Hp) as [[]|X]. right. exact X. }
  assert (Tlit : istrue s lit) by (apply (tk_true _ _ K); exact Hlit).
  assert (Flit : isfalse s (lnot lit)) by (unfold isfalse; rewrite lnot_invol; exact Tlit).
  assert (Alit : s_val s (lit_var lit) <> None) by (apply istrue_assigned; exact Tlit).
  assert (Lev : forall x, In c L -> In x (s_lits s c) -> istrue s x -> s_level s (lit_var x) <= s_level s (lit_var lit)).
  { intros x Hc Hx Tx. rewrite Hlv. eapply on_trail_level; [exact K|]. apply (so_on_long _ _ _ _ S c x Hc Hx).
    apply istrue_assigned. exact Tx. }
  assert (ApE : forall x : N * N, (kept ++ [x]) ++ ws = kept ++ x :: ws) by (intros; rewrite <- app_assoc; reflexivity).
  destruct (ltrue s b) eqn:Eb.
  { apply ltrue_iff in Eb. apply IH in E; auto.
    - rewrite ApE. exact W.
    - destruct (wo_entry _ _ _ W lit c b) as (Hc & Hb & _).
      { unfold eff. rewrite upd_eq. apply in_or_app. right. left. reflexivity. }
      constructor; [|apply (po_bin _ _ _ _ _ P)].
      intros d c0 c1 r0 w Hd Ed Hw Hp.
      destruct (po_long _ _ _ _ _ P d c0 c1 r0 w Hd Ed Hw Hp) as [[E1 [E2|E2]]|X]; [|left; auto|right; exact X].
      cbn [fst] in E2. subst d. right. exists b. split; [exact Hb|]. split; [exact Eb|].
      rewrite <- (lnot_var w), E1. apply Lev; auto. }
  assert (NTb : ~ istrue s b) by (apply ltrue_false; exact Eb).
  assert (Hc0 : In c L).
  { apply (wo_entry _ _ _ W lit c b). unfold eff. rewrite upd_eq. apply in_or_app. right. left. reflexivity. }
  destruct (s_lits s c) as [|c0 [|c1 rest]] eqn:Ec.
  { exfalso. destruct (so_clause _ _ _ _ S c Hc0) as (X & _). rewrite Ec in X. cbn in X. lia. }
  { exfalso. destruct (so_clause _ _ _ _ S c Hc0) as (X & _). rewrite Ec in X. cbn in X. lia. }
  rewrite <- Ec in Lev.
  destruct (watch_pair _ _ _ _ _ _ _ _ _ _ _ _ K S W Ec) as (_ & Hb & first & E1 & E2 & ND & Pm).
  cbv zeta in E. rewrite E1 in E. clear E1.
  assert (NDl : NoDup (first :: lnot lit :: rest)) by (eapply NoDup_map_inv; exact ND).
  (* the clause is not a reason unless its first literal is true *)
  assert (NR : forall x, In x (s_trail s) -> s_reason s (lit_var x) = RLong c ->
             s_lits s c = first :: lnot lit :: rest /\ istrue s first).
  { intros x Hx Rx. apply In_nth_error in Hx. destruct Hx as (p & Hp).
    pose proof (tk_reason _ _ K p x Hp) as Q. unfold reason_ok in Q. rewrite Rx in Q.
    destruct Q as (_ & rr & Q & _).
    assert (Tx : istrue s x) by (apply (tk_true _ _ K); eapply nth_error_In; exact Hp).
    destruct E2 as [E2|E2]; rewrite E2 in Q; injection Q as Q1 Q2.
    - split; [exact E2|]. rewrite Q1. exact Tx.
    - exfalso. rewrite Q1 in Flit. exact (true_not_false _ _ Tx Flit). }
  set (s1 := with_lits s (upd (s_lits s) c (first :: lnot lit :: rest))) in *.
  assert (K1 : trail_ok n s1).
  { apply set_lits_trail; [exact K|]. intros x Hx Rx. symmetry. apply (NR x Hx Rx). }
  assert (S1 : store_ok n L bin s1) by (apply set_lits_store; assumption).
  assert (X1 : extends s s1).
  { constructor; cbn [s1 with_lits s_trail s_decs s_lits s_val s_reason s_level s_depth s_last s_wen]; auto; try congruence.
    - exists []. symmetry. apply app_nil_r.
    - intros d. unfold upd. destruct (N.eqb_spec d c) as [->|]; [exact Pm|reflexivity]. }
  assert (W1 : watch_ok L s1 (eff s1 lit (kept ++ (c, first) :: ws))).
  { eapply watch_ok_entry; [exact W|exact E2|reflexivity|reflexivity|left; reflexivity]. }
  assert (Lc1 : s_lits s1 c = first :: lnot lit :: rest) by (cbn [s1 with_lits s_lits]; apply upd_eq).
  destruct (negb (first =? b)%N && ltrue s first)%bool eqn:Ef.
  { apply andb_true_iff in Ef. destruct Ef as [_ Ef]. apply ltrue_iff in Ef.
    apply IH in E; auto.
    - destruct E as (A & B & C & D & F & G). split; [exact A|]. split; [exact B|].
      split; [eapply extends_trans; eauto|]. split; [exact D|]. split; [exact F|exact G].
    - rewrite ApE. exact W1.
    - eapply prop_ok_change; [..|exact P]; try reflexivity.
      + intros l d Hd [El [Ed|Id]]; [cbn in Ed; congruence|auto].
      + intros w Hw Hp. destruct Hw as [->| ->].
        * exfalso. eapply true_not_false; [exact Ef|]. unfold isfalse. eapply processed_true; eauto.
        * right. exists first. split; [left; reflexivity|]. split; [exact Ef|]. rewrite lnot_var.
          apply Lev; auto. eapply Permutation_in; [symmetry; exact Pm|left; reflexivity]. }
  assert (NTf : ~ istrue s first).
  { intros T. apply andb_false_iff in Ef. destruct Ef as [Ef|Ef].
    - apply negb_false_iff, N.eqb_eq in Ef. subst b. contradiction.
    - apply ltrue_false in Ef. contradiction. }
  assert (NR' : forall x, In x (s_trail s) -> s_reason s (lit_var x) <> RLong c).
  { intros x Hx Rx. destruct (NR x Hx Rx). contradiction. }
  destruct (take_watch s (lnot lit) rest) as [[l rest']|] eqn:Etw.
  { destruct (take_watch_some _ _ _ _ _ Etw) as (u & v & Er & Er' & NF & _).
    assert (Il : In l rest) by (rewrite Er; apply in_elt).
    assert (Nl : (lnot l =? lit)%N = false).
    { apply N.eqb_neq. intros El. inversion NDl as [|? ? _ Q]; subst. inversion Q as [|? ? Q1 _]; subst.
      apply Q1. rewrite lnot_invol. exact Il. }
    rewrite Nl in E.
    assert (Pr : Permutation (l :: rest') (lnot lit :: rest)).
    { subst rest rest'. etransitivity; [|apply Permutation_middle with (l1 := lnot lit :: u)].
      cbn [app]. apply perm_skip. symmetry. apply (Permutation_middle u v (lnot lit)). }
    assert (Pm2 : Permutation (s_lits s c) (first :: l :: rest')).
    { rewrite Pm. apply perm_skip. symmetry. exact Pr. }
    set (s2 := with_lits s (upd (s_lits s) c (first :: l :: rest'))) in *.
    set (s3 := with_watch s2 (add_watch (s_watch s2) (lnot l) (c, first))) in *.
    assert (K2 : trail_ok n s2).
    { apply set_lits_trail; [exact K|]. intros x Hx Rx. exfalso. exact (NR' x Hx Rx). }
    assert (S2 : store_ok n L bin s2) by (apply set_lits_store; assumption).
    assert (K3 : trail_ok n s3) by (constructor; apply K2).
    assert (S3 : store_ok n L bin s3) by (constructor; apply S2).
    assert (X3 : extends s s3).
    { constructor; cbn [s3 s2 with_watch with_lits s_trail s_decs s_lits s_val s_reason s_level s_depth s_last s_wen]; auto; try congruence.
      - exists []. symmetry. apply app_nil_r.
      - intros d. unfold upd. destruct (N.eqb_spec d c) as [->|]; [exact Pm2|reflexivity]. }
    apply IH in E; auto.
    - destruct E as (A & B & C & D & F & G). split; [exact A|]. split; [exact B|].
      split; [eapply extends_trans; eauto|]. split; [exact D|]. split; [exact F|exact G].
    - eapply watch_ok_move; [exact W|exact E2|exact NDl|exact Il|exact Pr|reflexivity|reflexivity|left; reflexivity].
    - eapply prop_ok_change; [..|exact P]; try reflexivity.
      + intros y d Hd [El [Ed|Id]]; [cbn in Ed; congruence|auto].
      + intros w Hw Hp. destruct Hw as [->| ->].
        * assert (Q : exists d0 d1, s_lits s c = d0 :: d1 :: rest /\ (first = d0 \/ first = d1)).
          { destruct E2 as [E2|E2]; rewrite E2; eauto. }
          destruct Q as (d0 & d1 & Q1 & Q2).
          destruct (po_long _ _ _ _ _ P c d0 d1 rest first Hc0 Q1 Q2 Hp) as [[Ex _]|X].
          -- exfalso. inversion NDl as [|? ? Q3 _]; subst. apply Q3. left. rewrite lnot_invol. reflexivity.
          -- right. eapply sat_le_perm; [exact Pm2|reflexivity|reflexivity|exact X].
        * exfalso. apply NF. unfold isfalse. eapply processed_true; eauto. }
  pose proof (take_watch_none _ _ _ Etw) as Fr.
  destruct (lfalse s first) eqn:Eff.
  { apply lfalse_iff in Eff. injection E as <- <-.
    set (s2 := with_watch s1 (upd (s_watch s) lit (kept ++ (c, first) :: ws))) in *.
    split; [constructor; apply K1|]. split; [constructor; apply S1|].
    split. { constructor; apply X1. }
    split; [reflexivity|]. split; [constructor; apply W1|]. split.
    - eapply prop_ok_change with (s := s) (c := c); [..|exact P]; try reflexivity.
      + intros l d Hd [El _]. exact El.
      + intros w Hw Hp. destruct Hw as [->| ->].
        * assert (Q : exists d0 d1, s_lits s c = d0 :: d1 :: rest /\ (first = d0 \/ first = d1)).
          { destruct E2 as [E2|E2]; rewrite E2; eauto. }
          destruct Q as (d0 & d1 & Q1 & Q2).
          destruct (po_long _ _ _ _ _ P c d0 d1 rest first Hc0 Q1 Q2 Hp) as [[Ex _]|X]; [left; exact Ex|].
          right. eapply sat_le_perm; [exact Pm|reflexivity|reflexivity|exact X].
        * left. apply lnot_invol.
    - split; [exact Hc0|].
      assert (Lc2 : conflict_lits s2 (CLong c) = first :: lnot lit :: rest) by exact Lc1.
      rewrite Lc2. split.
      + intros x [<-|[<-|Hx]]; [exact Eff|exact Flit|exact (Fr x Hx)].
      + exists (lnot lit). split; [right; left; reflexivity|]. rewrite lnot_var. exact Hlv. }
  assert (NFf : ~ isfalse s first) by (apply lfalse_false; exact Eff).
  assert (U : s_val s (lit_var first) = None).
  { destruct (value_cases s first) as [?|[?|?]]; [contradiction|contradiction|assumption]. }
  set (s2 := enqueue s1 first (RLong c)) in *.
  assert (K2 : trail_ok n s2).
  { apply enqueue_ok; auto.
    - apply (so_clause _ _ _ _ S c Hc0). eapply Permutation_in; [symmetry; exact Pm|left; reflexivity].
    - unfold new_reason_ok. exists (lnot lit :: rest). split; [exact Lc1|].
      intros x Hx. apply on_trail_true with (n := n); [exact K1| |].
      + change (isfalse s x). destruct Hx as [<-|Hx]; [exact Flit|exact (Fr x Hx)].
      + change (on_trail s (lnot x)). unfold on_trail. rewrite lnot_var.
        apply (so_on_long _ _ _ _ S c x Hc0).
        * eapply Permutation_in; [symmetry; exact Pm|right; exact Hx].
        * apply isfalse_assigned. destruct Hx as [<-|Hx]; [exact Flit|exact (Fr x Hx)]. }
  assert (S2 : store_ok n L bin s2).
  { apply enqueue_store; auto; [|discriminate]. intros d Hd. injection Hd as <-. exact Hc0. }
  assert (X2 : extends s1 s2) by (eapply enqueue_extends; eauto; discriminate).
  assert (T2 : istrue s2 first) by (apply enqueue_istrue; auto).
  apply IH in E; auto.
  - destruct E as (A & B & C & D & F & G). split; [exact A|]. split; [exact B|].
    split; [eapply extends_trans; [|exact C]; eapply extends_trans; eauto|]. split; [exact D|]. split; [exact F|exact G].
  - destruct (ex_trail _ _ X2) as (t & ->). apply in_or_app. left. exact Hlit.
  - rewrite (ex_level _ _ X2) by exact Alit. exact Hlv.
  - rewrite ApE. constructor; apply W1.
  - assert (P1 : prop_ok L bin s1 (fun l d => l = lit /\ In d (map fst ((c, b) :: ws))) (fun _ _ => False)).
    { eapply prop_ok_change; [..|exact P]; try reflexivity; auto.
      intros w Hw Hp. assert (Q : exists d0 d1, s_lits s c = d0 :: d1 :: rest /\ (w = d0 \/ w = d1)).
      { destruct E2 as [E2|E2]; rewrite E2; eexists; eexists; (split; [reflexivity|tauto]). }
      destruct Q as (d0 & d1 & Q1 & Q2).
      destruct (po_long _ _ _ _ _ P c d0 d1 rest w Hc0 Q1 Q2 Hp) as [X|X]; [left; exact X|].
      right. eapply sat_le_perm; [exact Pm|reflexivity|reflexivity|exact X]. }
    pose proof (prop_ok_ext _ _ _ _ _ _ _ K1 X2 eq_refl eq_refl P1) as P2.
    constructor; [|apply (po_bin _ _ _ _ _ P2)].
    intros d d0 d1 r0 w Hd Ed Hw Hp.
    destruct (po_long _ _ _ _ _ P2 d d0 d1 r0 w Hd Ed Hw Hp) as [[Ex [Ey|Ey]]|X]; [|left; auto|right; exact X].
    cbn [fst] in Ey. subst d. right. exists first.
    split; [change (s_lits s2 c) with (s_lits s1 c); rewrite Lc1; left; reflexivity|]. split; [exact T2|].
    unfold s2 at 1. cbn [enqueue s_level]. rewrite upd_eq. rewrite <- (lnot_var w), Ex.
    rewrite (ex_level _ _ X2) by exact Alit. change (s_level s1 (lit_var lit)) with (s_level s (lit_var lit)).
    rewrite Hlv. unfold clevel, s1. cbn [with_lits s_decs]. lia.
Qed.

(** * Watching a clause that was not watched *)
Lemma watch_ok_iff L L' s s' wl wl' : (forall c, In c L <-> In c L') -> (forall c, In c L -> s_lits s' c = s_lits s c) ->
  (forall l, wl' l = wl l) -> watch_ok L s wl -> watch_ok L' s' wl'.
Proof.
  intros EL Es E W. constructor.
  - intros l. rewrite E. apply W.
  - intros l c b. rewrite E. intros H. destruct (wo_entry _ _ _ W l c b H) as (A & B & C).
    rewrite (Es c A). rewrite <- EL. auto.
  - intros c c0 c1 r Hc. apply EL in Hc. rewrite (Es c Hc), !E. apply (wo_watched _ _ _ W c c0 c1 r Hc).
Qed.

Lemma watch_ok_add L L' s s' c c0 c1 r : watch_ok L s (s_watch s) -> ~ In c L ->
  (forall d, In d L' <-> d = c \/ In d L) -> (forall d, In d L -> s_lits s' d = s_lits s d) ->
  s_lits s' c = c0 :: c1 :: r -> c0 <> c1 ->
  s_watch s' = add_watch (add_watch (s_watch s) (lnot c0) (c, c1)) (lnot c1) (c, c0) ->
  watch_ok L' s' (s_watch s').
Proof.
  intros W NI EL El Ec NE Ew.
  assert (NL : lnot c0 <> lnot c1) by (intros H; apply lnot_inj in H; contradiction).
  assert (Nin : forall l b, ~ In (c, b) (s_watch s l)).
  { intros l b H. apply NI. apply (wo_entry _ _ _ W l c b H). }
  assert (In_iff : forall l d b, In (d, b) (s_watch s' l) <->
     In (d, b) (s_watch s l) \/ (d = c /\ ((l = lnot c0 /\ b = c1) \/ (l = lnot c1 /\ b = c0)))).
  { intros l d b. rewrite Ew. unfold add_watch.
    destruct (N.eq_dec l (lnot c1)) as [->|N1].
    - rewrite upd_eq, upd_ne by auto. rewrite in_app_iff. cbn [In]. split.
      + intros [H|[H|[]]]; [auto|injection H as <- <-; auto].
      + intros [H|[-> [[E _]|[_ ->]]]]; [auto|congruence|auto].
    - rewrite upd_ne by exact N1. destruct (N.eq_dec l (lnot c0)) as [->|N0].
      + rewrite upd_eq, in_app_iff. cbn [In]. split.
        * intros [H|[H|[]]]; [auto|injection H as <- <-; auto].
        * intros [H|[-> [[_ ->]|[E _]]]]; [auto|auto|congruence].
      + rewrite upd_ne by exact N0. split; [auto|]. intros [H|[_ [[E _]|[E _]]]]; [exact H|contradiction|contradiction]. }
  assert (Snoc : forall l b, NoDup (map fst (s_watch s l ++ [(c, b)]))).
  { intros l b. rewrite map_app. cbn [map fst].
    rewrite <- (rev_involutive (map fst (s_watch s l) ++ [c])). apply NoDup_rev. rewrite rev_app_distr. cbn.
    constructor; [|apply NoDup_rev; apply W]. rewrite <- in_rev. intros H. apply in_map_iff in H.
    destruct H as ([d z] & E & H). cbn in E. subst d. exact (Nin l z H). }
  constructor.
  - intros l. rewrite Ew. unfold add_watch. destruct (N.eq_dec l (lnot c1)) as [->|N1].
    + rewrite upd_eq, upd_ne by auto. apply Snoc.
    + rewrite upd_ne by exact N1. destruct (N.eq_dec l (lnot c0)) as [->|N0].
      * rewrite upd_eq. apply Snoc.
      * rewrite upd_ne by exact N0. apply W.
  - intros l d b H. apply In_iff in H. destruct H as [H|(-> & H)].
    + destruct (wo_entry _ _ _ W l d b H) as (A & B & C). split; [apply EL; auto|]. rewrite (El d A). auto.
    + split; [apply EL; auto|]. rewrite Ec. split.
      * destruct H as [[_ ->]|[_ ->]]; cbn; auto.
      * exists c0, c1, r. split; [reflexivity|]. destruct H as [[-> _]|[-> _]]; rewrite lnot_invol; auto.
  - intros d d0 d1 r0 Hd Ed. apply EL in Hd. destruct Hd as [->|Hd].
    + rewrite Ec in Ed. injection Ed as <- <- <-. split; [exists c1|exists c0]; apply In_iff; auto.
    + rewrite (El d Hd) in Ed. destruct (wo_watched _ _ _ W d d0 d1 r0 Hd Ed) as [(x & A) (y & B)].
      split; [exists x|exists y]; apply In_iff; auto.
Qed.

Lemma watch_all_spec n : forall live s L, s_wen s = true -> watch_ok L s (s_watch s) -> NoDup (live ++ L) ->
  (forall c, In c live -> clause_ok n (s_lits s c)) ->
  let s' := watch_all s live in watch_ok (live ++ L) s' (s_watch s') /\ exists w, s' = with_watch s w.
Proof.
  induction live as [|c live IH]; intros s L En W ND Hc; cbn [watch_all app]; cbv zeta.
  - split; [exact W|]. exists (s_watch s). destruct s; reflexivity.
  - cbn [app] in ND. inversion ND as [|? ? N1 ND1]; subst.
    destruct (Hc c (or_introl eq_refl)) as (A & B & _).
    destruct (s_lits s c) as [|c0 [|c1 r]] eqn:Ec; [cbn in A; lia|cbn in A; lia|]. cbn [nth].
    set (s1 := watch_clause s c c0 c1).
    assert (E1 : s1 = with_watch s (add_watch (add_watch (s_watch s) (lnot c0) (c, c1)) (lnot c1) (c, c0))).
    { unfold s1, watch_clause. rewrite En. reflexivity. }
    assert (NE : c0 <> c1).
    { intros ->. cbn [map] in B. inversion B as [|? ? Q _]; subst. apply Q. left. reflexivity. }
    assert (W1 : watch_ok (c :: L) s1 (s_watch s1)).
    { eapply watch_ok_add with (s := s) (L := L) (c := c) (c0 := c0) (c1 := c1) (r := r).
      - exact W.
      - intros H. apply N1. apply in_or_app. auto.
      - intros d. cbn [In]. intuition congruence.
      - intros d _. rewrite E1. reflexivity.
      - rewrite E1. exact Ec.
      - exact NE.
      - rewrite E1. reflexivity. }
    destruct (IH s1 (c :: L)) as (P & w & Q).
    + rewrite E1. exact En.
    + exact W1.
    + apply NoDup_Add with (a := c) (l := live ++ L); [|split; assumption]. apply Add_app.
    + intros d Hd. rewrite E1. apply (Hc d). right. exact Hd.
    + split.
      * eapply watch_ok_iff; [| |reflexivity|exact P]; [|reflexivity].
        intros d. cbn [In app]. rewrite !in_app_iff. cbn [In]. intuition.
      * exists w. rewrite Q, E1. reflexivity.
Qed.

Lemma enable_watchlists_spec n L bin s : trail_ok n s -> store_ok n L bin s ->
  (s_wen s = true -> watch_ok L s (s_watch s)) ->
  let s' := enable_watchlists s L in
  watch_ok L s' (s_watch s') /\ s_wen s' = true /\ exists w b, s' = with_wen (with_watch s w) b.
Proof.
  intros K S W. cbv zeta. unfold enable_watchlists. destruct (s_wen s) eqn:En.
  - split; [auto|]. split; [exact En|]. exists (s_watch s), true. destruct s; cbn in *; subst; reflexivity.
  - destruct (watch_all_spec n L (with_wen (with_watch s (fun _ => [])) true) []) as (A & w & B).
    + reflexivity.
    + constructor; cbn; [constructor|intros ? ? ? []|intros ? ? ? ? []].
    + rewrite app_nil_r. apply S.
    + intros c Hc. apply (so_clause _ _ _ _ S c Hc).
    + rewrite app_nil_r in A. split; [exact A|]. rewrite B. split; [reflexivity|]. exists w, true. reflexivity.
Qed.

(** * The loop *)
Lemma prop_ok_weaken L bin s (exL exL' exB exB' : N -> N -> Prop) :
  (forall l c, processed s l -> exL l c -> exL' l c) -> (forall l o, processed s l -> exB l o -> exB' l o) ->
  prop_ok L bin s exL exB -> prop_ok L bin s exL' exB'.
Proof.
  intros A B P. constructor.
  - intros c c0 c1 r w Hc Ec Hw Hp. destruct (po_long _ _ _ _ _ P c c0 c1 r w Hc Ec Hw Hp); auto.
  - intros l o Ho Hp. destruct (po_bin _ _ _ _ _ P l o Ho Hp); auto.
Qed.

Definition none2 (_ _ : N) : Prop := False.
Definition at_level (s : search) (l _ : N) : Prop := s_level s (lit_var l) = clevel s.

Lemma propagate_loop_spec n L bin : forall fuel s s' r,
  trail_ok n s -> store_ok n L bin s -> watch_ok L s (s_watch s) -> prop_ok L bin s none2 none2 ->
  N.to_nat n <= s_head s + fuel ->
  propagate_loop fuel bin s = (s', r) ->
  trail_ok n s' /\ store_ok n L bin s' /\ extends s s' /\ watch_ok L s' (s_watch s') /\
  match r with
  | POk => s_head s' = length (s_trail s') /\ prop_ok L bin s' none2 none2
  | PConflict c => prop_ok L bin s' (at_level s') (at_level s') /\ conflict_at L bin s' c
  | _ => False
  end.
Proof.
  induction fuel as [|fuel IH]; intros s s' r K S W P Hf E; cbn [propagate_loop] in E.
  { destruct (nth_error (s_trail s) (s_head s)) as [lit|] eqn:En.
    - exfalso. assert (s_head s < length (s_trail s)) by (apply nth_error_Some; congruence).
      pose proof (trail_ok_length _ _ K). lia.
    - injection E as <- <-. split; [exact K|]. split; [exact S|]. split; [apply extends_refl|]. split; [exact W|].
      split; [|exact P]. apply nth_error_None in En. pose proof (tk_head _ _ K). lia. }
  destruct (nth_error (s_trail s) (s_head s)) as [lit|] eqn:En.
  2:{ injection E as <- <-. split; [exact K|]. split; [exact S|]. split; [apply extends_refl|]. split; [exact W|].
      split; [|exact P]. apply nth_error_None in En. pose proof (tk_head _ _ K). lia. }
  assert (Hlt : s_head s < length (s_trail s)) by (apply nth_error_Some; congruence).
  set (s0 := with_head s (Datatypes.S (s_head s))) in *.
  assert (K0 : trail_ok n s0).
  { constructor; [apply K|apply K|apply K|apply K|apply K|apply K| | |apply K|apply K]; cbn [s0 with_head s_head s_trail s_decs].
    - intros d Hd. pose proof (tk_decs _ _ K d Hd). lia.
    - exact Hlt. }
  assert (S0 : store_ok n L bin s0) by (constructor; apply S).
  assert (X0 : extends s s0).
  { constructor; cbn [s0 with_head s_trail s_decs s_lits s_val s_reason s_level s_depth s_last s_wen]; auto; try congruence.
    exists []. symmetry. apply app_nil_r. }
  assert (Hlit : In lit (s_trail s0)) by (eapply nth_error_In; exact En).
  assert (Hlv : s_level s0 (lit_var lit) = clevel s0).
  { apply head_level with (n := n) (p := s_head s) (s := s); auto. }
  assert (Pr : forall l, processed s0 l -> processed s l \/ l = lit).
  { intros l (p & Hp & Hn). cbn [s0 with_head s_head s_trail] in *.
    destruct (Nat.eq_dec p (s_head s)) as [->|]; [right; congruence|left]. exists p. split; [lia|exact Hn]. }
  assert (P0 : prop_ok L bin s0 (fun l c => l = lit /\ In c (map fst (s_watch s lit))) (fun l o => l = lit /\ In o (bin lit))).
  { constructor.
    - intros c c0 c1 r0 w Hc Ec Hw Hp. destruct (Pr _ Hp) as [Hp'|El].
      + destruct (po_long _ _ _ _ _ P c c0 c1 r0 w Hc Ec Hw Hp') as [[]|X]. right. exact X.
      + left. split; [exact El|]. destruct (wo_watched _ _ _ W c c0 c1 r0 Hc Ec) as [(x & A) (y & B)].
        rewrite <- El. destruct Hw as [->| ->]; [exact (in_map fst _ _ A)|exact (in_map fst _ _ B)].
    - intros l o Ho Hp. destruct (Pr _ Hp) as [Hp'| ->]; [|auto].
      destruct (po_bin _ _ _ _ _ P l o Ho Hp') as [[]|X]. right. exact X. }
  destruct (propagate_binary s0 lit (bin lit)) as [s1 rb] eqn:Eb.
  destruct (propagate_binary_spec n L bin lit (bin lit) s0 s1 rb _ (fun o H => H) K0 S0 Hlit Hlv P0 Eb)
    as (K1 & S1 & X1 & H1 & L1 & W1 & R).
  assert (Wok1 : watch_ok L s1 (s_watch s1)).
  { eapply watch_ok_iff; [reflexivity| | |exact W].
    - intros c _. rewrite L1. reflexivity.
    - intros l. rewrite W1. reflexivity. }
  assert (Hlit1 : In lit (s_trail s1)).
  { destruct (ex_trail _ _ X1) as (t & ->). apply in_or_app. left. exact Hlit. }
  assert (Hlv1 : s_level s1 (lit_var lit) = clevel s1).
  { rewrite (ex_level _ _ X1) by (apply istrue_assigned; apply (tk_true _ _ K0); exact Hlit).
    unfold clevel. rewrite (ex_decs _ _ X1). exact Hlv. }
  destruct rb as [c|].
  { injection E as <- <-. destruct R as (P1 & l & -> & Il & Fl).
    split; [exact K1|]. split; [exact S1|]. split; [eapply extends_trans; eauto|]. split; [exact Wok1|]. split.
    - eapply prop_ok_weaken; [| |exact P1]; unfold at_level.
      + intros x d _ [-> _]. exact Hlv1.
      + intros x d _ ->. exact Hlv1.
    - unfold conflict_at. cbn [conflict_lits]. rewrite lnot_invol. split; [exact Il|]. split.
      + intros x [<-|[<-|[]]]; [exact Fl|]. unfold isfalse. rewrite lnot_invol. apply (tk_true _ _ K1). exact Hlit1.
      + exists (lnot lit). split; [right; left; reflexivity|]. rewrite lnot_var. exact Hlv1. }
  destruct (propagate_watches s1 lit (s_watch s1 lit) []) as [s2 rw] eqn:Ew.
  destruct (propagate_watches_spec n L bin lit (s_watch s1 lit) [] s1 s2 rw K1 S1 Hlit1 Hlv1) as (K2 & S2 & X2 & H2 & W2 & R2).
  { eapply watch_ok_iff; [reflexivity|reflexivity| |exact Wok1]. intros l. unfold eff. cbn [app].
    destruct (N.eq_dec l lit) as [->|]; [apply upd_eq|apply upd_ne; assumption]. }
  { rewrite W1. change (s_watch s0) with (s_watch s). exact R. }
  { exact Ew. }
  assert (X02 : extends s s2) by (eapply extends_trans; [exact X0|]; eapply extends_trans; eauto).
  destruct rw as [|c| |].
  - apply IH in E; auto.
    + destruct E as (A & B & C & D & F). split; [exact A|]. split; [exact B|].
      split; [eapply extends_trans; eauto|]. split; [exact D|exact F].
    + rewrite H2, H1. cbn [s0 with_head s_head]. lia.
  - injection E as <- <-. split; [exact K2|]. split; [exact S2|]. split; [exact X02|]. split; [exact W2|].
    destruct R2 as (P2 & C2). split; [|exact C2].
    eapply prop_ok_weaken; [| |exact P2]; unfold at_level.
    + intros x d _ ->. rewrite (ex_level _ _ X2) by (apply istrue_assigned; apply (tk_true _ _ K1); exact Hlit1).
      unfold clevel. rewrite (ex_decs _ _ X2). exact Hlv1.
    + intros x o _ [].
  - destruct R2.
  - destruct R2.
Qed.

Theorem propagate_spec n L bin s s' r :
  trail_ok n s -> store_ok n L bin s -> (s_wen s = true -> watch_ok L s (s_watch s)) ->
  prop_ok L bin s none2 none2 -> propagate n L bin s = (s', r) ->
  trail_ok n s' /\ store_ok n L bin s' /\ watch_ok L s' (s_watch s') /\ s_wen s' = true /\
  (exists w b, extends (with_wen (with_watch s w) b) s') /\
  match r with
  | POk => s_head s' = length (s_trail s') /\ prop_ok L bin s' none2 none2
  | PConflict c => prop_ok L bin s' (at_level s') (at_level s') /\ conflict_at L bin s' c
  | _ => False
  end.
Proof.
  intros K S W P E. unfold propagate in E.
  destruct (enable_watchlists_spec n L bin s K S W) as (W0 & En & w & b & E0).
  revert W0 En E. rewrite E0. intros W0 En E.
  apply propagate_loop_spec with (n := n) (L := L) in E.
  - destruct E as (A & B & C & D & F). split; [exact A|]. split; [exact B|]. split; [exact D|].
    split; [rewrite (ex_wen _ _ C); exact En|]. split; [exists w, b; exact C|exact F].
  - constructor; apply K.
  - constructor; apply S.
  - exact W0.
  - constructor; apply P.
  - lia.
Qed.

(** * Decisions and backtracking keep the other invariants *)
Lemma decide_store n L bin s l : trail_ok n s -> store_ok n L bin s -> s_val s (lit_var l) = None ->
  store_ok n L bin (decide s l).
Proof.
  intros K S U. unfold decide.
  assert (S1 : store_ok n L bin (new_decision_level s)) by (constructor; apply S).
  assert (NI : ~ In (lit_var l) (map lit_var (s_trail s))) by (eapply unk_not_in; eauto).
  constructor; try apply S1.
  - intros c x Hc Hx. cbn [enqueue s_val s_lits new_decision_level with_decs] in *. unfold upd, on_trail.
    cbn [enqueue s_trail new_decision_level with_decs].
    rewrite map_app, in_app_iff. destruct (N.eqb_spec (lit_var x) (lit_var l)) as [->|].
    + intros _. right. left. reflexivity.
    + intros H. left. exact (so_on_long _ _ _ _ S c x Hc Hx H).
  - intros a o Ho. cbn [enqueue s_val new_decision_level with_decs]. unfold upd, on_trail.
    cbn [enqueue s_trail new_decision_level with_decs].
    rewrite map_app, in_app_iff. destruct (N.eqb_spec (lit_var o) (lit_var l)) as [->|].
    + intros _. right. left. reflexivity.
    + intros H. left. exact (so_on_bin _ _ _ _ S a o Ho H).
  - intros x c. cbn [enqueue s_trail s_reason new_decision_level with_decs]. rewrite in_app_iff. unfold upd.
    destruct (N.eqb_spec (lit_var x) (lit_var l)) as [E|NE]; [discriminate|].
    intros [I|[->|[]]]; [|congruence]. apply (so_rlong _ _ _ _ S x c I).
  - intros x b. cbn [enqueue s_trail s_reason new_decision_level with_decs]. rewrite in_app_iff. unfold upd.
    destruct (N.eqb_spec (lit_var x) (lit_var l)) as [E|NE]; [discriminate|].
    intros [I|[->|[]]]; [|congruence]. apply (so_rbin _ _ _ _ S x b I).
Qed.

(** [prop_ok] when the assignment grows without the head moving *)
Lemma prop_ok_grow n L bin s s' : trail_ok n s -> s_head s' = s_head s -> s_lits s' = s_lits s ->
  (exists t, s_trail s' = s_trail s ++ t) ->
  (forall v, s_val s v <> None -> s_val s' v = s_val s v /\ s_level s' v = s_level s v) ->
  forall exL exB, prop_ok L bin s exL exB -> prop_ok L bin s' exL exB.
Proof.
  intros K H El (t & Et) V exL exB P. pose proof (tk_head _ _ K) as Hl.
  assert (Pr : forall l, processed s' l -> processed s l).
  { intros l (p & A & B). rewrite H in A. exists p. split; [exact A|]. rewrite Et, nth_error_app1 in B by lia. exact B. }
  assert (T : forall x, istrue s x -> istrue s' x /\ s_level s' (lit_var x) = s_level s (lit_var x)).
  { intros x Tx. destruct (V (lit_var x)) as [A B]; [apply istrue_assigned; exact Tx|].
    split; [unfold istrue in *; rewrite A; exact Tx|exact B]. }
  constructor.
  - intros c c0 c1 r w Hc Ec Hw Hp. rewrite El in *. apply Pr in Hp.
    destruct (po_long _ _ _ _ _ P c c0 c1 r w Hc Ec Hw Hp) as [X|(x & Ix & Tx & Lx)]; [left; exact X|right].
    pose proof (processed_true _ _ _ K Hp) as Tw. apply T in Tw. rewrite lnot_var in Tw. destruct Tw as [_ ->].
    destruct (T x Tx) as [A B]. exists x. rewrite B. auto.
  - intros l o Ho Hp. apply Pr in Hp. destruct (po_bin _ _ _ _ _ P l o Ho Hp) as [X|[X Y]]; [left; exact X|right].
    destruct (T o X) as [A ->]. destruct (T l (processed_true _ _ _ K Hp)) as [_ ->]. auto.
Qed.

Lemma enqueue_prop n L bin s l r exL exB : trail_ok n s -> s_val s (lit_var l) = None ->
  prop_ok L bin s exL exB -> prop_ok L bin (enqueue s l r) exL exB.
Proof.
  intros K U P. eapply prop_ok_grow; [exact K|reflexivity|reflexivity|exists [l]; reflexivity| |exact P].
  intros v Hv. cbn [enqueue s_val s_level]. rewrite !upd_ne by congruence. auto.
Qed.
Lemma decide_prop n L bin s l exL exB : trail_ok n s -> s_val s (lit_var l) = None ->
  prop_ok L bin s exL exB -> prop_ok L bin (decide s l) exL exB.
Proof.
  intros K U P. eapply prop_ok_grow; [exact K|reflexivity|reflexivity|exists [l]; reflexivity| |exact P].
  intros v Hv. cbn [decide new_decision_level with_decs enqueue s_val s_level]. rewrite !upd_ne by congruence. auto.
Qed.

Lemma undone_assigned n s k s' v : trail_ok n s -> undone s k s' -> s_val s' v <> None ->
  In v (map lit_var (s_trail s)) -> In v (map lit_var (s_trail s')).
Proof.
  intros K U H I. rewrite (ud_val _ _ _ U) in H. rewrite (ud_trail _ _ _ U).
  set (len := nth k (s_decs s) 0) in *.
  rewrite <- (firstn_skipn len (s_trail s)), map_app in I. apply in_app_or in I. destruct I as [I|I]; [exact I|].
  apply memb_in in I. rewrite I in H. congruence.
Qed.

Lemma in_firstn {A} (x : A) k l : In x (firstn k l) -> In x l.
Proof. intros H. rewrite <- (firstn_skipn k l). apply in_or_app. auto. Qed.

Lemma undone_store n L bin s k s' : trail_ok n s -> store_ok n L bin s -> undone s k s' -> store_ok n L bin s'.
Proof.
  intros K S U.
  assert (V : forall v, s_val s' v <> None -> s_val s v <> None).
  { intros v. rewrite (ud_val _ _ _ U). destruct (existsb _ _); congruence. }
  assert (T : forall x, In x (s_trail s') -> In x (s_trail s)).
  { intros x. rewrite (ud_trail _ _ _ U). apply in_firstn. }
  constructor.
  - apply S.
  - intros c Hc. rewrite (ud_lits _ _ _ U). apply S. exact Hc.
  - apply S.
  - intros c x Hc. rewrite (ud_lits _ _ _ U). intros Hx Hv. eapply undone_assigned; eauto.
    apply (so_on_long _ _ _ _ S c x Hc Hx). apply V. exact Hv.
  - intros l o Ho Hv. eapply undone_assigned; eauto. apply (so_on_bin _ _ _ _ S l o Ho). apply V. exact Hv.
  - intros x c Hx. rewrite (ud_reason _ _ _ U). apply (so_rlong _ _ _ _ S). apply T. exact Hx.
  - intros x c Hx. rewrite (ud_reason _ _ _ U). apply (so_rbin _ _ _ _ S). apply T. exact Hx.
Qed.

Lemma undone_watch L s k s' : undone s k s' -> watch_ok L s (s_watch s) -> watch_ok L s' (s_watch s').
Proof.
  intros U W. eapply watch_ok_iff; [reflexivity| | |exact W].
  - intros c _. rewrite (ud_lits _ _ _ U). reflexivity.
  - intros l. rewrite (ud_watch _ _ _ U). reflexivity.
Qed.

Lemma undone_processed n s k s' l : trail_ok n s -> undone s k s' -> k < length (s_decs s) -> processed s' l ->
  processed s l /\ s_level s (lit_var l) <= k.
Proof.
  intros K U Lk (p & A & B). rewrite (ud_head _ _ _ U) in A. rewrite (ud_trail _ _ _ U) in B.
  apply nth_error_firstn_some in B. destruct B as [_ B].
  destruct (tk_decs _ _ K (nth k (s_decs s) 0)) as [_ C]; [apply nth_In; exact Lk|].
  split; [exists p; split; [lia|exact B]|]. rewrite (tk_level _ _ K p l B).
  apply (lvl_cut _ _ p (tk_sorted _ _ K) Lk). exact A.
Qed.

Lemma undone_prop n L bin s k s' : trail_ok n s -> undone s k s' -> k < length (s_decs s) ->
  prop_ok L bin s (at_level s) (at_level s) -> prop_ok L bin s' none2 none2.
Proof.
  intros K U Lk P.
  assert (T : forall x, istrue s x -> s_level s (lit_var x) <= k -> istrue s' x).
  { intros x A B. apply (undone_istrue n s k s' x K U Lk). auto. }
  constructor.
  - intros c c0 c1 r w Hc Ec Hw Hp. rewrite (ud_lits _ _ _ U) in *.
    destruct (undone_processed _ _ _ _ _ K U Lk Hp) as [A B].
    destruct (po_long _ _ _ _ _ P c c0 c1 r w Hc Ec Hw A) as [X|(t & It & Tt & Lt)].
    + exfalso. unfold at_level, clevel in X. lia.
    + right. rewrite lnot_var in B. exists t. rewrite !(ud_level _ _ _ U). split; [exact It|]. split; [apply T; [exact Tt|lia]|exact Lt].
  - intros l o Ho Hp. destruct (undone_processed _ _ _ _ _ K U Lk Hp) as [A B].
    destruct (po_bin _ _ _ _ _ P l o Ho A) as [X|[X Y]].
    + exfalso. unfold at_level, clevel in X. lia.
    + right. rewrite !(ud_level _ _ _ U). split; [apply T; [exact X|lia]|exact Y].
Qed.

(** * Meaning *)
(** [a] satisfies the stored clauses *)
Definition sat_store (L : list N) (bin : N -> list N) (lits : N -> list N) (a : N -> bool) : Prop :=
  (forall c, In c L -> clause_holds a (lits c) = true) /\
  (forall l o, In o (bin l) -> clause_holds a [lnot l; o] = true).
Definition agrees_with (s : search) (a : N -> bool) : Prop := forall v b, s_val s v = Some b -> a v = b.

Lemma sat_store_perm L bin f g a : (forall c, Permutation (f c) (g c)) -> sat_store L bin f a -> sat_store L bin g a.
Proof.
  intros P [A B]. split; [|exact B]. intros c Hc. specialize (A c Hc). apply ch_in in A. destruct A as (x & I & H).
  apply ch_in. exists x. split; [|exact H]. eapply Permutation_in; eauto.
Qed.

Lemma agrees_true s a l : agrees_with s a -> istrue s l -> lit_holds a l = true.
Proof. intros A T. apply lh_true. apply A. exact T. Qed.
Lemma agrees_false s a l : agrees_with s a -> isfalse s l -> lit_holds a l = false.
Proof. intros A T. apply lh_false. apply agrees_true with (s := s) (l := lnot l) in A; auto. Qed.

Lemma trail_holds n L bin s a k : trail_ok n s -> store_ok n L bin s -> sat_store L bin (s_lits s) a ->
  (forall p l, p < k -> nth_error (s_trail s) p = Some l -> lit_holds a l = true \/ s_reason s (lit_var l) <> RUnit) ->
  forall p l, p < k -> nth_error (s_trail s) p = Some l -> lit_holds a l = true.
Proof.
  intros K S [SL SB] U. induction p as [p IH] using lt_wf_ind. intros l Hk Hp.
  destruct (U p l Hk Hp) as [H|NU]; [exact H|].
  pose proof (tk_reason _ _ K p l Hp) as R. unfold reason_ok in R.
  assert (Bf : forall x, before s p (lnot x) -> lit_holds a x = false).
  { intros x Q. apply lh_false. destruct Q as (q & A & B). apply (IH q A (lnot x)); [lia|exact B]. }
  assert (Il : In l (s_trail s)) by (eapply nth_error_In; exact Hp).
  destruct (s_reason s (lit_var l)) as [|b|c] eqn:Er; [congruence| |].
  - destruct R as (_ & R). pose proof (SB _ _ (so_rbin _ _ _ _ S l b Il Er)) as C. rewrite lnot_invol in C.
    apply ch_in in C. destruct C as (x & [<-|[<-|[]]] & Hx); [|exact Hx]. rewrite (Bf b R) in Hx. discriminate.
  - destruct R as (_ & rest & E & R). pose proof (SL _ (so_rlong _ _ _ _ S l c Il Er)) as C. rewrite E in C.
    apply ch_in in C. destruct C as (x & [<-|Hx] & Hh); [exact Hh|]. rewrite (Bf x (R x Hx)) in Hh. discriminate.
Qed.

Lemma extends_sound n L bin s s' a : trail_ok n s' -> store_ok n L bin s' -> extends s s' ->
  sat_store L bin (s_lits s) a -> agrees_with s a -> agrees_with s' a.
Proof.
  intros K S X Sa Ag v b Hv.
  destruct (s_val s v) as [b'|] eqn:E.
  { rewrite (ex_val _ _ X) in Hv by congruence. apply Ag. congruence. }
  pose proof (ex_new _ _ X v E) as I. rewrite Hv in I. specialize (I ltac:(discriminate)).
  apply in_map_iff in I. destruct I as (l & El & Il).
  assert (H : lit_holds a l = true).
  { apply In_nth_error in Il. destruct Il as (p & Hp).
    assert (Lp : p < length (s_trail s')) by (apply nth_error_Some; congruence).
    eapply trail_holds with (k := length (s_trail s')); [exact K|exact S|eapply sat_store_perm; [|exact Sa]; apply X| |exact Lp|exact Hp].
    intros q x _ Hq. destruct (s_val s (lit_var x)) as [bx|] eqn:Ex.
    - left. eapply agrees_true; [exact Ag|]. unfold istrue. rewrite <- (ex_val _ _ X) by congruence.
      apply (tk_true _ _ K). eapply nth_error_In; exact Hq.
    - right. apply (ex_unit _ _ X); [exact Ex|]. apply istrue_assigned. apply (tk_true _ _ K).
      eapply nth_error_In; exact Hq. }
  apply lh_true in H. pose proof (tk_true _ _ K l Il) as T. unfold istrue in T. rewrite El in *. congruence.
Qed.

(** A conflict refutes the assignment. *)
Lemma conflict_refutes L bin s c a : conflict_at L bin s c -> sat_store L bin (s_lits s) a -> agrees_with s a -> False.
Proof.
  intros (A & B & _) [SL SB] Ag.
  assert (C : clause_holds a (conflict_lits s c) = true).
  { destruct c as [x y|c]; cbn [conflict_lits] in *; [|exact (SL c A)].
    pose proof (SB _ _ A) as Q. rewrite lnot_invol in Q. eapply ch_incl; [|exact Q]. cbn. tauto. }
  apply ch_in in C. destruct C as (x & Ix & Hx). rewrite (agrees_false s a x Ag (B x Ix)) in Hx. discriminate.
Qed.

(** Nothing is missed. *)
Lemma complete_long n L bin s c : trail_ok n s -> store_ok n L bin s -> prop_ok L bin s none2 none2 ->
  s_head s = length (s_trail s) -> In c L ->
  (exists x, In x (s_lits s c) /\ istrue s x) \/
  (exists x y, In x (s_lits s c) /\ In y (s_lits s c) /\ lit_var x <> lit_var y /\ s_val s (lit_var x) = None /\ s_val s (lit_var y) = None).
Proof.
  intros K S P H Hc. destruct (so_clause _ _ _ _ S c Hc) as (A & ND & _).
  destruct (s_lits s c) as [|c0 [|c1 r]] eqn:E; [cbn in A; lia|cbn in A; lia|].
  assert (W : forall w, w = c0 \/ w = c1 -> (exists x, In x (c0 :: c1 :: r) /\ istrue s x) \/ s_val s (lit_var w) = None).
  { intros w Hw. destruct (value_cases s w) as [T|[F|U]]; [|left|right; exact U].
    - left. exists w. split; [|exact T]. destruct Hw as [->| ->]; cbn; auto.
    - assert (Ot : In (lnot w) (s_trail s)).
      { eapply on_trail_true; [exact K|exact F|]. unfold on_trail. rewrite lnot_var.
        apply (so_on_long _ _ _ _ S c w Hc); [rewrite E; destruct Hw as [->| ->]; cbn; auto|].
        apply isfalse_assigned. exact F. }
      apply In_nth_error in Ot. destruct Ot as (p & Hp).
      assert (Pw : processed s (lnot w)).
      { exists p. split; [rewrite H; apply nth_error_Some; congruence|exact Hp]. }
      destruct (po_long _ _ _ _ _ P c c0 c1 r w Hc E Hw Pw) as [[]|(t & It & Tt & _)]. rewrite E in It. eauto. }
  destruct (W c0 (or_introl eq_refl)) as [?|U0]; [auto|]. destruct (W c1 (or_intror eq_refl)) as [?|U1]; [auto|].
  right. exists c0, c1. split; [left; reflexivity|]. split; [right; left; reflexivity|]. split; [|auto].
  cbn [map] in ND. inversion ND as [|? ? Q _]; subst. intros Ev. apply Q. left. auto.
Qed.

Lemma complete_bin n L bin s l o : trail_ok n s -> store_ok n L bin s -> prop_ok L bin s none2 none2 ->
  s_head s = length (s_trail s) -> In o (bin l) -> istrue s l -> istrue s o.
Proof.
  intros K S P H Ho T.
  assert (Ot : In l (s_trail s)).
  { eapply on_trail_true; [exact K|exact T|]. destruct (so_bin _ _ _ _ S l o Ho) as (_ & _ & _ & B).
    unfold on_trail. rewrite <- (lnot_var l). apply (so_on_bin _ _ _ _ S _ _ B). rewrite lnot_var.
    apply istrue_assigned. exact T. }
  apply In_nth_error in Ot. destruct Ot as (p & Hp).
  assert (Pw : processed s l) by (exists p; split; [rewrite H; apply nth_error_Some; congruence|exact Hp]).
  destruct (po_bin _ _ _ _ _ P l o Ho Pw) as [[]|[X _]]. exact X.
Qed.
