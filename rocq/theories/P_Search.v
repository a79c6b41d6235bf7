(** C24 and C26: unit propagation and backtracking. *)
From Coq Require Import Lia Arith PeanoNat Permutation.
From Verif Require Import Spec Lit LitProofs F32 Vsids VsidsProofs VsidsWf Search SearchBase Propagate.
Local Open Scope nat_scope.

(** * The states of a search over a fixed set of clauses *)
(** Nothing is assigned, and the clauses have distinct variables below [n]. *)
Definition start (n : N) (L : list N) (bin : N -> list N) (s : search) : Prop :=
  s_trail s = [] /\ s_head s = 0 /\ s_decs s = [] /\ (forall v, s_val s v = None) /\ s_wen s = false /\
  NoDup L /\
  (forall c, In c L -> 3 <= length (s_lits s c) /\ NoDup (map lit_var (s_lits s c)) /\
                       forall x, In x (s_lits s c) -> (lit_var x < n)%N) /\
  (forall l o, In o (bin l) -> (lit_var l < n)%N /\ (lit_var o < n)%N /\ lit_var o <> lit_var l /\
                               In (lnot l) (bin (lnot o))).

(** From there: units at level 0, decisions once everything is propagated, propagation, and
    backtracking, which is all that can follow a conflict (the flag). *)
Inductive sreach (n : N) (L : list N) (bin : N -> list N) : bool -> search -> Prop :=
| sr_start s : start n L bin s -> sreach n L bin false s
| sr_unit s l : sreach n L bin false s -> s_decs s = [] -> s_val s (lit_var l) = None -> (lit_var l < n)%N ->
    sreach n L bin false (enqueue s l RUnit)
| sr_decide s l : sreach n L bin false s -> s_head s = length (s_trail s) -> s_val s (lit_var l) = None ->
    (lit_var l < n)%N -> sreach n L bin false (enqueue (new_decision_level s) l RUnit)
| sr_propagate s s' : sreach n L bin false s -> propagate n L bin s = (s', POk) -> sreach n L bin false s'
| sr_conflict s s' c : sreach n L bin false s -> propagate n L bin s = (s', PConflict c) -> sreach n L bin true s'
| sr_backtrack f s vs k s' vs' : sreach n L bin f s -> k < clevel s -> backtrack s vs k = (s', vs') ->
    sreach n L bin false s'.

Record search_inv (n : N) (L : list N) (bin : N -> list N) (f : bool) (s : search) : Prop := {
  in_trail : trail_ok n s;
  in_store : store_ok n L bin s;
  in_watch : s_wen s = true -> watch_ok L s (s_watch s);
  in_prop : if f then prop_ok L bin s (at_level s) (at_level s) else prop_ok L bin s none2 none2 }.

Lemma start_inv n L bin s : start n L bin s -> search_inv n L bin false s.
Proof.
  intros (Et & Eh & Ed & Ev & Ew & ND & HL & HB).
  assert (Np : forall l, ~ processed s l) by (intros l (p & A & _); lia).
  constructor.
  - constructor; rewrite ?Et, ?Ed, ?Eh; cbn.
    + constructor.
    + intros l [].
    + intros v H. exfalso. apply H. apply Ev.
    + intros [|p] l H; discriminate.
    + intros [|p] l H; discriminate.
    + constructor.
    + intros d [].
    + lia.
    + intros [|p] l H; discriminate.
    + intros v H. exfalso. apply H. apply Ev.
  - constructor; auto.
    + intros c x _ _ H. exfalso. apply H. apply Ev.
    + intros l o _ H. exfalso. apply H. apply Ev.
    + intros l c H. rewrite Et in H. destruct H.
    + intros l c H. rewrite Et in H. destruct H.
  - congruence.
  - constructor.
    + intros c c0 c1 r w _ _ _ H. exfalso. exact (Np _ H).
    + intros l o _ H. exfalso. exact (Np _ H).
Qed.

Lemma sreach_inv n L bin f s : sreach n L bin f s -> search_inv n L bin f s.
Proof.
  induction 1 as [s St|s l _ I D U B|s l _ I D U B|s s' _ I E|s s' c _ I E|f s vs k s' vs' _ I Lk E].
  - apply start_inv. exact St.
  - destruct I as [K S W P]. constructor.
    + apply enqueue_ok; auto.
    + apply enqueue_store; auto; discriminate.
    + intros Ew. constructor; apply (W Ew).
    + eapply enqueue_prop; eauto.
  - destruct I as [K S W P]. constructor.
    + apply decide_ok; auto.
    + apply decide_store; auto.
    + intros Ew. constructor; apply (W Ew).
    + eapply decide_prop; eauto.
  - destruct I as [K S W P]. destruct (propagate_spec _ _ _ _ _ _ K S W P E) as (K' & S' & W' & _ & _ & _ & P').
    constructor; auto.
  - destruct I as [K S W P]. destruct (propagate_spec _ _ _ _ _ _ K S W P E) as (K' & S' & W' & _ & _ & P' & _).
    constructor; auto.
  - destruct I as [K S W P]. destruct (backtrack_undone _ _ _ _ _ _ K E Lk) as (Ud & _ & _).
    constructor.
    + eapply undone_ok; eauto.
    + eapply undone_store; eauto.
    + rewrite (ud_wen _ _ _ Ud). intros Ew. eapply undone_watch; eauto.
    + eapply undone_prop; eauto. destruct f; [exact P|].
      eapply prop_ok_weaken; [| |exact P]; intros ? ? _ [].
Qed.

(** * C24 *)
(** [a] satisfies the stored clauses and the assignment of [s]. *)
Definition respects (L : list N) (bin : N -> list N) (s : search) (a : N -> bool) : Prop :=
  (forall c, In c L -> clause_holds a (s_lits s c) = true) /\
  (forall l o, In o (bin l) -> clause_holds a [lnot l; o] = true) /\
  (forall v b, s_val s v = Some b -> a v = b).

(** A clause is neither false nor a unit that still has to be propagated. *)
Definition settled (s : search) (c : list N) : Prop :=
  (exists x, In x c /\ s_val s (lit_var x) = Some (is_positive x)) \/
  (exists x y, In x c /\ In y c /\ lit_var x <> lit_var y /\
               s_val s (lit_var x) = None /\ s_val s (lit_var y) = None).

(** In every state of the search, propagation
    - keeps the earlier assignments and only permutes the literals of a clause,
    - assigns only what follows from the clauses and the earlier assignments,
    - misses nothing if it returns normally, and otherwise returns a stored clause with all
      literals false, and then the clauses contradict the earlier assignments;
    - it does not panic, and its loop ends. *)
Theorem C24_propagate : forall n L bin s s' r,
  sreach n L bin false s -> propagate n L bin s = (s', r) ->
  (forall v, s_val s v <> None -> s_val s' v = s_val s v) /\
  (forall c, Permutation (s_lits s c) (s_lits s' c)) /\
  (exists t, s_trail s' = s_trail s ++ t) /\ s_decs s' = s_decs s /\
  (forall a, respects L bin s a -> forall v b, s_val s' v = Some b -> a v = b) /\
  match r with
  | POk => (forall c, In c L -> settled s' (s_lits s' c)) /\ (forall l o, In o (bin l) -> settled s' [lnot l; o])
  | PConflict (CLong c) => In c L /\ (forall x, In x (s_lits s' c) -> s_val s' (lit_var x) = Some (is_negative x))
      /\ forall a, ~ respects L bin s a
  | PConflict (CBinary x y) => In x (bin (lnot y)) /\ s_val s' (lit_var x) = Some (is_negative x)
      /\ s_val s' (lit_var y) = Some (is_negative y) /\ forall a, ~ respects L bin s a
  | PPanic | PFuel => False
  end.
Proof.
  intros n L bin s s' r R E. pose proof (sreach_inv _ _ _ _ _ R) as [K S W P].
  destruct (propagate_spec _ _ _ _ _ _ K S W P E) as (K' & S' & _ & _ & (w & b & X) & Rr).
  assert (Sound : forall a, respects L bin s a -> agrees_with s' a).
  { intros a (A & B & C). eapply extends_sound; [exact K'|exact S'|exact X| |].
    - split; [exact A|exact B].
    - exact C. }
  assert (Refute : forall c, conflict_at L bin s' c -> forall a, ~ respects L bin s a).
  { intros c Ca a Ra. pose proof (Sound a Ra) as Ag. destruct Ra as (A & B & _).
    eapply conflict_refutes; [exact Ca| |exact Ag]. eapply sat_store_perm; [apply X|]. split; [exact A|exact B]. }
  split; [exact (ex_val _ _ X)|]. split; [exact (ex_lits _ _ X)|]. split; [exact (ex_trail _ _ X)|].
  split; [exact (ex_decs _ _ X)|]. split; [exact Sound|].
  destruct r as [|[x y|c]| |]; try exact Rr.
  - destruct Rr as (Hh & P'). split.
    + intros c Hc. exact (complete_long _ _ _ _ c K' S' P' Hh Hc).
    + intros l o Ho. destruct (so_bin _ _ _ _ S' l o Ho) as (_ & _ & Nv & Ho').
      destruct (value_cases s' l) as [T|[F|U]].
      * left. exists o. split; [right; left; reflexivity|]. exact (complete_bin _ _ _ _ _ _ K' S' P' Hh Ho T).
      * left. exists (lnot l). split; [left; reflexivity|]. exact F.
      * destruct (value_cases s' o) as [T|[F|U']].
        -- left. exists o. split; [right; left; reflexivity|exact T].
        -- left. exists (lnot l). split; [left; reflexivity|]. exact (complete_bin _ _ _ _ _ _ K' S' P' Hh Ho' F).
        -- right. exists (lnot l), o. split; [left; reflexivity|]. split; [right; left; reflexivity|].
           rewrite lnot_var. auto.
  - destruct Rr as (_ & Ca). pose proof (Refute _ Ca) as Rf. destruct Ca as (A & B & _). split; [exact A|].
    split; [apply isfalse_iff, B; left; reflexivity|]. split; [apply isfalse_iff, B; right; left; reflexivity|exact Rf].
  - destruct Rr as (_ & Ca). pose proof (Refute _ Ca) as Rf. destruct Ca as (A & B & _). split; [exact A|].
    split; [|exact Rf]. intros x Hx. apply isfalse_iff, B. exact Hx.
Qed.
Print Assumptions C24_propagate.

(** * C26 *)
Lemma nth_error_skipn {A} (l : list A) k p : nth_error (skipn k l) p = nth_error l (k + p).
Proof. revert l. induction k as [|k IH]; intros [|x l]; cbn; auto. destruct p; reflexivity. Qed.

(** In every state of the search, backtracking to a lower level takes back exactly the
    literals from the decision of the next level on, keeps everything else, remembers the values
    it takes back, and makes the variables available to the decision heuristic. *)
Theorem C26_backtrack : forall n L bin f s vs k s' vs',
  sreach n L bin f s -> wf vs -> backtrack s vs k = (s', vs') ->
  (clevel s <= k -> s' = s /\ vs' = vs) /\
  (k < clevel s -> exists keep undone,
     s_trail s = keep ++ undone /\ s_trail s' = keep /\ s_decs s' = firstn k (s_decs s) /\
     (forall l, In l keep -> s_level s (lit_var l) <= k) /\
     (forall l, In l undone -> k < s_level s (lit_var l)) /\
     (forall l, In l undone -> s_val s' (lit_var l) = None /\
                               s_val s (lit_var l) = Some (is_positive l) /\
                               s_last s' (lit_var l) = is_positive l) /\
     (forall v, ~ In v (map lit_var undone) -> s_val s' v = s_val s v /\ s_last s' v = s_last s v) /\
     s_reason s' = s_reason s /\ s_level s' = s_level s /\ s_lits s' = s_lits s /\ s_watch s' = s_watch s /\
     (forall v, In v (vs_heap vs') <-> In v (map lit_var undone) \/ In v (vs_heap vs)) /\
     (* what is left is still propagated *)
     s_head s' = length keep).
Proof.
  intros n L bin f s vs k s' vs' R Wv E. pose proof (sreach_inv _ _ _ _ _ R) as [K S W P]. split.
  - intros Lk. unfold backtrack in E. apply Nat.leb_le in Lk. unfold clevel in Lk. rewrite Lk in E.
    injection E as <- <-. auto.
  - intros Lk. destruct (backtrack_undone _ _ _ _ _ _ K E Lk) as (U & Hh & Hl).
    set (len := nth k (s_decs s) 0) in *.
    assert (Lt : len < length (s_trail s)) by (apply (tk_decs _ _ K); apply nth_In; exact Lk).
    exists (firstn len (s_trail s)), (skipn len (s_trail s)).
    split; [symmetry; apply firstn_skipn|]. split; [apply (ud_trail _ _ _ U)|]. split; [apply (ud_decs _ _ _ U)|].
    split. { intros l Hl'. apply In_nth_error in Hl'. destruct Hl' as (p & Hp). apply nth_error_firstn_some in Hp.
             destruct Hp as [A B]. rewrite (tk_level _ _ K p l B). apply (lvl_cut _ _ p (tk_sorted _ _ K) Lk). exact A. }
    split. { intros l Hl'. apply In_nth_error in Hl'. destruct Hl' as (p & Hp).
             rewrite nth_error_skipn in Hp. rewrite (tk_level _ _ K _ l Hp).
             destruct (lvl_cut _ _ (len + p) (tk_sorted _ _ K) Lk) as [C _].
             destruct (Nat.le_gt_cases (lvl (s_decs s) (len + p)) k) as [D|D]; [|exact D].
             apply C in D. unfold len in D. lia. }
    split.
    { intros l Hl'. assert (M : existsb (N.eqb (lit_var l)) (map lit_var (skipn len (s_trail s))) = true).
      { apply memb_in. apply in_map. exact Hl'. }
      assert (T : istrue s l).
      { apply (tk_true _ _ K). rewrite <- (firstn_skipn len (s_trail s)). apply in_or_app. auto. }
      split; [rewrite (ud_val _ _ _ U); fold len; rewrite M; reflexivity|]. split; [exact T|].
      rewrite Hl, M, T. reflexivity. }
    split.
    { intros v Hv. assert (M : existsb (N.eqb v) (map lit_var (skipn len (s_trail s))) = false).
      { apply not_true_is_false. intros Q. apply memb_in in Q. contradiction. }
      split; [rewrite (ud_val _ _ _ U); fold len; rewrite M; reflexivity|]. rewrite Hl, M. reflexivity. }
    split; [apply (ud_reason _ _ _ U)|]. split; [apply (ud_level _ _ _ U)|]. split; [apply (ud_lits _ _ _ U)|].
    split; [apply (ud_watch _ _ _ U)|]. split; [apply (Hh Wv)|].
    rewrite (ud_head _ _ _ U). fold len. rewrite firstn_length. lia.
Qed.
Print Assumptions C26_backtrack.

(** A case: x0 decided; the clauses (-x0 v x1), (-x0 v -x1 v x2), (-x1 v -x2 v x3) and
    (-x0 v -x2 v -x3) then propagate to a conflict at level 2 over an earlier decision x4. *)
Definition ex_lits (c : N) : list N :=
  match c with
  | 10%N => [1; 3; 4]%N | 20%N => [3; 5; 6]%N | 30%N => [1; 5; 7]%N
  | _ => []
  end.
Definition ex_bin (l : N) : list N :=
  match l with 0%N => [2%N] | 3%N => [1%N] | _ => [] end.
Definition ex_search : search :=
  Search (fun _ => None) (fun _ => false) [] 0 [] 0 (fun _ => RUnit) (fun _ => 0) (fun _ => Some 0)
         ex_lits (fun _ => []) false.
Definition ex_L : list N := [10; 20; 30]%N.
Definition ex_s1 : search := fst (propagate 5 ex_L ex_bin (enqueue (new_decision_level ex_search) 8 RUnit)).
Definition ex_s2 : search := fst (propagate 5 ex_L ex_bin (enqueue (new_decision_level ex_s1) 0 RUnit)).

Example ex_start : start 5 ex_L ex_bin ex_search.
Proof.
  unfold start, ex_search, ex_L. cbn [s_trail s_head s_decs s_val s_wen s_lits].
  split; [reflexivity|]. split; [reflexivity|]. split; [reflexivity|]. split; [reflexivity|]. split; [reflexivity|].
  split. { repeat constructor; cbn [In]; intros H; intuition discriminate. }
  split.
  - intros c [<-|[<-|[<-|[]]]]; cbn [ex_lits length map]; (split; [lia|]);
      (split; [vm_compute; repeat constructor; cbn [In]; intros H; intuition discriminate|]);
      intros x [<-|[<-|[<-|[]]]]; reflexivity.
  - intros l o H.
    destruct l as [|[[q|q|]|q|]]; cbn [ex_bin In] in H; try (destruct H; fail); destruct H as [<-|[]];
      vm_compute; (split; [reflexivity|]); (split; [reflexivity|]); (split; [discriminate|]); left; reflexivity.
Qed.

Example ex_sreach : sreach 5 ex_L ex_bin true ex_s2 /\ clevel ex_s2 = 2 /\
  s_trail ex_s2 = [8; 0; 2; 4; 6]%N /\
  snd (propagate 5 ex_L ex_bin (enqueue (new_decision_level ex_s1) 0 RUnit)) = PConflict (CLong 30) /\
  s_trail (fst (backtrack ex_s2 vsids_default 1)) = [8]%N.
Proof.
  assert (R0 : sreach 5 ex_L ex_bin false ex_search) by (apply sr_start; exact ex_start).
  assert (R1 : sreach 5 ex_L ex_bin false ex_s1).
  { eapply sr_propagate; [apply sr_decide with (l := 8%N); [exact R0|reflexivity|reflexivity|reflexivity]|].
    unfold ex_s1. destruct (propagate 5 ex_L ex_bin (enqueue (new_decision_level ex_search) 8 RUnit)) as [s r] eqn:E.
    assert (Er : snd (propagate 5 ex_L ex_bin (enqueue (new_decision_level ex_search) 8 RUnit)) = POk) by (vm_compute; reflexivity).
    rewrite E in Er. cbn [snd fst] in *. rewrite Er. reflexivity. }
  assert (Er : snd (propagate 5 ex_L ex_bin (enqueue (new_decision_level ex_s1) 0 RUnit)) = PConflict (CLong 30))
    by (vm_compute; reflexivity).
  split.
  - eapply sr_conflict with (c := CLong 30); [apply sr_decide with (l := 0%N); [exact R1|vm_compute; reflexivity|vm_compute; reflexivity|reflexivity]|].
    unfold ex_s2. destruct (propagate 5 ex_L ex_bin (enqueue (new_decision_level ex_s1) 0 RUnit)) as [s r] eqn:E.
    cbn [snd fst] in *. rewrite Er. reflexivity.
  - split; [vm_compute; reflexivity|]. split; [vm_compute; reflexivity|]. split; [exact Er|vm_compute; reflexivity].
Qed.
