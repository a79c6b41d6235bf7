(** The hashes recorded during conflict analysis are those of clauses that derive the learned
    clause by unit propagation, in the order in which they are needed. *)
From Coq Require Import Lia Arith PeanoNat Permutation Sorted.
From Verif Require Import Spec Lit LitProofs Hash HashProofs F32 Vsids Search SearchBase Propagate Analyze AnalyzeProofs Rup.
Local Open Scope nat_scope.

Lemma rup_sound K cs a : rup K cs -> (forall x, In x K -> lit_holds a x = true) -> (forall D, In D cs -> clause_holds a D = true) -> False.
Proof.
  induction 1 as [K D rest H|K D l rest Il H R IH]; intros HK HC.
  - pose proof (HC D (or_introl eq_refl)) as Q. apply ch_in in Q. destruct Q as (x & Hx & Hh). specialize (HK _ (H x Hx)).
    rewrite lit_holds_lnot, Hh in HK. discriminate.
  - apply IH; [|intros; apply HC; right; assumption]. intros x [<-|Hx]; [|auto].
    pose proof (HC D (or_introl eq_refl)) as Q. apply ch_in in Q. destruct Q as (x & Hx & Hh). destruct (H x Hx) as [->|Hn]; [exact Hh|].
    specialize (HK _ Hn). rewrite lit_holds_lnot, Hh in HK. discriminate.
Qed.

(** The clause that made a literal true *)
Definition reason_clause (s : search) (l : N) : list N :=
  match s_reason s (lit_var l) with RUnit => [l] | RBinary b => [l; b] | RLong c => s_lits s c end.
Lemma reason_clause_lits n s l : trail_ok n s -> In l (s_trail s) -> s_reason s (lit_var l) <> RUnit ->
  reason_clause s l = l :: reason_lits s (s_reason s (lit_var l)).
Proof.
  intros K I Nu. destruct (In_nth_error _ _ I) as (p & Hp). pose proof (tk_reason _ _ K p l Hp) as R. unfold reason_ok, reason_clause in *.
  destruct (s_reason s (lit_var l)) as [|b|c]; [contradiction|reflexivity|]. destruct R as (_ & rest & E & _). cbn [reason_lits]. rewrite E. reflexivity.
Qed.
Lemma rhash_clause n s l : trail_ok n s -> In l (s_trail s) -> s_reason s (lit_var l) <> RUnit ->
  rhash s l = clause_hash (reason_clause s l).
Proof.
  intros K I Nu. rewrite (reason_clause_lits n s l K I Nu). unfold rhash. rewrite !clause_hash_xor. cbn [xor_all fold_right]. apply N.lxor_comm.
Qed.

Lemma earlier_before n s p x q : trail_ok n s -> nth_error (s_trail s) p = Some x -> earlier s x q \/ x = q -> forall l, before s p l -> ~ (l = q).
Proof.
  intros K Hp H l (i & Hi & Hl) ->. assert (Same : forall i j y, nth_error (s_trail s) i = Some y -> nth_error (s_trail s) j = Some y -> i = j).
  { intros i' j' y A B. pose proof (tk_depth _ _ K i' y A). pose proof (tk_depth _ _ K j' y B). congruence. }
  destruct H as [(i' & j' & Hij & A & B)| ->].
  - pose proof (Same _ _ _ A Hp). pose proof (Same _ _ _ B Hl). lia.
  - pose proof (Same _ _ _ Hp Hl). lia.
Qed.
Lemma chain n s D : trail_ok n s -> forall V K0 K, ordered s V ->
  (forall v, In v V -> In v (s_trail s) /\ s_reason s (lit_var v) <> RUnit) ->
  (forall x, In x D -> In (lnot x) K0 \/ In (lnot x) V) ->
  (forall v x, In v V -> In x (reason_lits s (s_reason s (lit_var v))) -> In (lnot x) K0 \/ In (lnot x) V) ->
  incl K0 K -> rup K (map (reason_clause s) V ++ [D]).
Proof.
  intros T. induction V as [|v V IH]; intros K0 K O Ht HD HR I; cbn [map app].
  - apply rup_conflict. intros x Hx. destruct (HD x Hx) as [Q|[]]. auto.
  - unfold ordered in O. apply StronglySorted_inv in O. destruct O as [O FA]. rewrite Forall_forall in FA.
    destruct (Ht v (or_introl eq_refl)) as [Iv Nu]. rewrite (reason_clause_lits n s v T Iv Nu). apply (rup_unit K _ v).
    + left. reflexivity.
    + intros x [<-|Hx]; [left; reflexivity|right]. destruct (HR v x (or_introl eq_refl) Hx) as [Q|Q]; [auto|exfalso].
      destruct (In_nth_error _ _ Iv) as (p & Hp). destruct (reason_falselit _ _ _ _ _ T Hp Hx) as [_ B].
      apply (earlier_before n s p v (lnot x) T Hp) with (l := lnot x); [|exact B|reflexivity]. destruct Q as [<-|Q]; [right; reflexivity|left; auto].
    + apply (IH (v :: K0)).
      * exact O.
      * intros y Hy. apply Ht. right. exact Hy.
      * intros x Hx. destruct (HD x Hx) as [Q|[Q|Q]]; [left; right; exact Q|left; left; exact Q|right; exact Q].
      * intros y x Hy Hx. destruct (HR y x (or_intror Hy) Hx) as [Q|[Q|Q]]; [left; right; exact Q|left; left; exact Q|right; exact Q].
      * intros x [<-|Hx]; [left; reflexivity|right; auto].
Qed.

(** The literals the checker starts with: the clause is assumed false and the units are known. *)
Definition start_lits (s : search) (cl : list N) : list N :=
  map lnot cl ++ filter (fun l => Nat.eqb (s_level s (lit_var l)) 0) (s_trail s).

(** A clause the solver has stored, as it occurs in reasons and conflicts *)
Definition is_stored (L : list N) (bin : N -> list N) (s : search) (D : list N) : Prop :=
  (exists c, In c L /\ D = s_lits s c) \/ (exists l o, In o (bin l) /\ (D = [lnot l; o] \/ D = [o; lnot l])).
Lemma reason_stored n L bin s l : trail_ok n s -> store_ok n L bin s -> In l (s_trail s) -> s_reason s (lit_var l) <> RUnit ->
  is_stored L bin s (reason_clause s l).
Proof.
  intros T S I Nu. unfold reason_clause. destruct (s_reason s (lit_var l)) as [|b|c] eqn:E; [contradiction| |].
  - right. exists (lnot b), l. split; [exact (so_rbin _ _ _ _ S l b I E)|]. right. rewrite lnot_invol. reflexivity.
  - left. exists c. split; [exact (so_rlong _ _ _ _ S l c I E)|reflexivity].
Qed.
Lemma conflict_stored L bin s c : conflict_at L bin s c -> is_stored L bin s (conflict_lits s c).
Proof.
  intros [H _]. destruct c as [a b|c]; cbn [conflict_lits].
  - right. exists (lnot b), a. split; [exact H|]. right. rewrite lnot_invol. reflexivity.
  - left. eauto.
Qed.

Lemma hinted_rup n L bin s D cl hashes V : trail_ok n s -> store_ok n L bin s -> is_stored L bin s D ->
  (forall x, In x D -> falselit s x) -> hinted s D cl hashes V ->
  exists cs, hashes = map clause_hash cs /\ (forall d, In d cs -> is_stored L bin s d) /\ rup (start_lits s cl) cs.
Proof.
  intros T S SD FD H. exists (map (reason_clause s) V ++ [D]). split; [|split].
  - rewrite (ht_hashes _ _ _ _ _ H), map_app, map_map. f_equal. apply map_ext_in. intros v Hv. destruct (ht_in _ _ _ _ _ H v Hv) as [A B].
    apply (rhash_clause n s v T A B).
  - intros d Hd. apply in_app_or in Hd. destruct Hd as [Hd|[<-|[]]]; [|exact SD]. apply in_map_iff in Hd. destruct Hd as (v & <- & Hv).
    destruct (ht_in _ _ _ _ _ H v Hv) as [A B]. apply (reason_stored n L bin s v T S A B).
  - assert (Z : forall x, falselit s x -> s_level s (lit_var x) = 0 \/ In x cl \/ In (lnot x) V -> In (lnot x) (start_lits s cl) \/ In (lnot x) V).
    { intros x [_ Fx] [Q|[Q|Q]]; [left|left|right; exact Q]; unfold start_lits; apply in_or_app.
      - right. apply filter_In. split; [exact Fx|]. rewrite lnot_var. apply Nat.eqb_eq. exact Q.
      - left. apply in_map. exact Q. }
    apply (chain n s D T V (start_lits s cl)); [apply H|apply H| | |apply incl_refl].
    + intros x Hx. apply Z; [auto|]. apply (ht_closed _ _ _ _ _ H). auto.
    + intros v x Hv Hx. destruct (ht_in _ _ _ _ _ H v Hv) as [A B]. destruct (In_nth_error _ _ A) as (p & Hp). apply Z.
      * exact (proj1 (reason_falselit _ _ _ _ _ T Hp Hx)).
      * apply (ht_closed _ _ _ _ _ H). right. eauto.
Qed.

(** * The three kinds of hints *)
Lemma conflict_falselit n L bin s c : trail_ok n s -> store_ok n L bin s -> conflict_at L bin s c -> forall x, In x (conflict_lits s c) -> falselit s x.
Proof.
  intros K S (Cs & Cf & _) x Hx. split; [exact (Cf x Hx)|]. eapply on_trail_true; [exact K|exact (Cf x Hx)|]. unfold on_trail. rewrite lnot_var.
  destruct c as [p q|cr]; cbn [conflict_lits] in Hx, Cf.
  - destruct (so_bin _ _ _ _ S _ _ Cs) as (_ & _ & _ & Cs'). destruct Hx as [<-|[<-|[]]].
    + apply (so_on_bin _ _ _ _ S _ _ Cs). apply isfalse_assigned. apply (Cf p). left. reflexivity.
    + rewrite lnot_invol in Cs'. apply (so_on_bin _ _ _ _ S _ _ Cs'). apply isfalse_assigned. apply (Cf q). right. left. reflexivity.
  - apply (so_on_long _ _ _ _ S cr x Cs Hx). apply isfalse_assigned. apply (Cf x Hx).
Qed.

(** Hints of a learned clause *)
Lemma analyze_hints n L bin s vs a c vs' a' bt :
  trail_ok n s -> store_ok n L bin s -> conflict_at L bin s c ->
  (forall v, a_flags a v = false) -> a_clean a = [] ->
  analyze_conflict n true s vs a c = (vs', a', bt) ->
  exists cs, a_hashes a' = map clause_hash cs /\ (forall d, In d cs -> is_stored L bin s d) /\ rup (start_lits s (a_clause a')) cs.
Proof.
  intros K S C Fl Cl E. pose proof (conflict_falselit n L bin s c K S C) as Fx. pose proof (conflict_stored L bin s c C) as Cs. destruct (Nat.eq_dec (clevel s) 0) as [Z|NZ].
  - unfold analyze_conflict in E. rewrite Z in E. cbn [Nat.eqb] in E. injection E as _ <- _. cbn [with_hashes a_clause a_hashes].
    exists [conflict_lits s c]. split; [reflexivity|]. split; [intros d [<-|[]]; exact Cs|]. apply rup_conflict. intros x Hx. destruct (Fx x Hx) as [_ T].
    apply filter_In. split; [exact T|]. apply Nat.eqb_eq. pose proof (trail_level _ _ _ K T). lia.
  - destruct (analyze_conflict_full n L bin true s vs a c vs' a' bt K S ltac:(lia) C Fl Cl E) as [_ H]. destruct (H eq_refl) as (V & HV).
    exact (hinted_rup n L bin s _ _ _ V K S Cs Fx HV).
Qed.

Lemma nth_error_firstn_lt {A} (l : list A) p q : q < p -> nth_error (firstn p l) q = nth_error l q.
Proof. revert p q. induction l as [|x l IH]; intros [|p] [|q] H; cbn; try reflexivity; try lia. apply IH. lia. Qed.

(** Hints of a unit: the clause that made it true *)
Lemma unit_hints n s p l : trail_ok n s -> clevel s = 0 -> nth_error (s_trail s) p = Some l -> s_reason s (lit_var l) <> RUnit ->
  rup (lnot l :: firstn p (s_trail s)) [reason_clause s l].
Proof.
  intros K Z Hp Nu. apply rup_conflict. rewrite (reason_clause_lits n s l K (nth_error_In _ _ Hp) Nu). intros x [<-|Hx]; [left; reflexivity|right].
  destruct (reason_falselit _ _ _ _ _ K Hp Hx) as [_ (q & Lq & Hq)]. exact (nth_error_In _ q (eq_trans (nth_error_firstn_lt _ _ _ Lq) Hq)).
Qed.
