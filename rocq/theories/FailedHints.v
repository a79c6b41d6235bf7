(** The hashes recorded with a failed core are those of clauses that contradict the core by unit
    propagation, in the order in which they are needed. *)
From Coq Require Import Lia Arith PeanoNat Permutation Sorted.
From Verif Require Import Spec Lit LitProofs Hash HashProofs F32 Vsids VsidsProofs VsidsWf Search SearchBase Propagate P_Search
  ClauseDb Analyze AnalyzeProofs Rup AnalyzeHints SolverFailed.
Local Open Scope nat_scope.

Lemma chain_core n s a : trail_ok n s -> forall V K0 K, ordered s V ->
  (forall v, In v V -> In v (s_trail s) /\ s_reason s (lit_var v) <> RUnit) ->
  (forall v x, In v V -> In x (reason_lits s (s_reason s (lit_var v))) -> In (lnot x) K0 \/ In (lnot x) V) ->
  In (lnot a) V -> In a K0 -> incl K0 K -> rup K (map (reason_clause s) V).
Proof.
  intros T. induction V as [|v V IH]; intros K0 K O Ht HR Ia Ka I; [destruct Ia|]. cbn [map].
  unfold ordered in O. apply StronglySorted_inv in O. destruct O as [O FA]. rewrite Forall_forall in FA.
  destruct (Ht v (or_introl eq_refl)) as [Iv Nu]. rewrite (reason_clause_lits n s v T Iv Nu).
  assert (Hv : forall x, In x (reason_lits s (s_reason s (lit_var v))) -> In (lnot x) K).
  { intros x Hx. destruct (HR v x (or_introl eq_refl) Hx) as [Q|Q]; [auto|exfalso].
    destruct (In_nth_error _ _ Iv) as (p & Hp). destruct (reason_falselit _ _ _ _ _ T Hp Hx) as [_ B].
    apply (earlier_before n s p v (lnot x) T Hp) with (l := lnot x); [|exact B|reflexivity]. destruct Q as [<-|Q]; [right; reflexivity|left; auto]. }
  destruct Ia as [->|Ia].
  - apply rup_conflict. intros x [<-|Hx]; [rewrite lnot_invol; auto|auto].
  - apply (rup_unit K _ v); [left; reflexivity|intros x [<-|Hx]; [left; reflexivity|right; auto]|]. apply (IH (v :: K0)).
    + exact O.
    + intros y Hy. apply Ht. right. exact Hy.
    + intros y x Hy Hx. destruct (HR y x (or_intror Hy) Hx) as [Q|[Q|Q]]; [left; right; exact Q|left; left; exact Q|right; exact Q].
    + exact Ia.
    + right. exact Ka.
    + intros x [<-|Hx]; [left; reflexivity|right; auto].
Qed.

(** What has become of a literal that is needed *)
Definition settled (s : search) (core R : list N) (y : N) : Prop :=
  In y R \/ In y core \/ (In y (s_trail s) /\ s_level s (lit_var y) = 0).
Record fhints (s : search) (as_ : N) (core R : list N) (pending : N -> Prop) : Prop := {
  fh_ordered : ordered s (rev R);
  fh_in : forall v, In v R -> In v (s_trail s) /\ s_reason s (lit_var v) <> RUnit;
  fh_closed : forall v x, In v R -> In x (reason_lits s (s_reason s (lit_var v))) -> settled s core R (lnot x) \/ pending (lnot x);
  fh_start : settled s core R (lnot as_) \/ pending (lnot as_) }.

Lemma settled_mono s core core' R R' y : incl core core' -> incl R R' -> settled s core R y -> settled s core' R' y.
Proof. intros A B [H|[H|H]]; [left|right; left|right; right]; auto. Qed.
Lemma ordered_snoc s R v : ordered s (rev R) -> (forall x, In x R -> earlier s v x) -> ordered s (rev (R ++ [v])).
Proof.
  intros O H. rewrite rev_app_distr. cbn [rev app]. constructor; [exact O|]. apply Forall_forall. intros x Hx. apply H. apply in_rev. exact Hx.
Qed.

Lemma failed_loop_hints n s as_ : trail_ok n s -> forall tr post flags count core hashes R f' c' h', s_trail s = rev tr ++ post ->
  (forall v, flags v = true -> In v (map lit_var tr)) -> count = cnt flags tr ->
  hashes = map (rhash s) R -> (forall x, In x R -> In x post) ->
  fhints s as_ core R (fun y => In y tr /\ flags (lit_var y) = true) ->
  failed_loop true s flags count core hashes tr = (f', c', h') ->
  (forall v, f' v = false) /\ exists R', h' = map (rhash s) R' /\ fhints s as_ c' R' (fun _ => False).
Proof.
  intros K. induction tr as [|l tr IH]; intros post flags count core hashes R f' c' h' Et Hf Hc Hh Rp FH E; cbn [failed_loop] in E.
  - injection E as <- <- <-. split; [intros v; destruct (flags v) eqn:Fv; [destruct (Hf v Fv)|reflexivity]|]. exists R. split; [exact Hh|].
    destruct FH as [A B C D]. split; [exact A|exact B| |]; [intros v x Hv Hx; destruct (C v x Hv Hx) as [Q|[[] _]]|destruct D as [Q|[[] _]]]; left; exact Q.
  - cbn [rev] in Et. rewrite <- app_assoc in Et. cbn [app] in Et.
    assert (Nd : NoDup (map lit_var tr) /\ ~ In (lit_var l) (map lit_var tr)).
    { pose proof (tk_nodup _ _ K) as Q. rewrite Et, map_app in Q. cbn [map] in Q. rewrite map_rev in Q. apply NoDup_remove in Q as [Q1 Q2]. split.
      - apply NoDup_app_l in Q1. apply NoDup_rev in Q1. rewrite rev_involutive in Q1. exact Q1.
      - intros I. apply Q2. apply in_or_app. left. apply -> in_rev. exact I. }
    destruct Nd as [Nd Nl].
    assert (Hp : nth_error (s_trail s) (length (rev tr)) = Some l) by (rewrite Et, nth_error_app2, Nat.sub_diag by lia; reflexivity).
    assert (Il : In l (s_trail s)) by (eapply nth_error_In; exact Hp).
    assert (Pc : forall x, In x R -> In x (l :: post)) by (intros x Hx; right; auto).
    destruct (flags (lit_var l)) eqn:Fl.
    + assert (Hc' : pred count = cnt (upd flags (lit_var l) false) tr).
      { rewrite Hc. unfold cnt. cbn [filter]. rewrite Fl. cbn [length pred]. apply cnt_ext. intros y I. rewrite upd_ne; [reflexivity|]. intros Q. apply Nl. rewrite <- Q. apply in_map. exact I. }
      assert (Hf' : forall v, upd flags (lit_var l) false v = true -> In v (map lit_var tr)).
      { intros v. unfold upd. destruct (N.eqb_spec v (lit_var l)); [discriminate|]. intros Q. destruct (Hf v Q) as [Z|Z]; [congruence|exact Z]. }
      assert (Fin : forall f nn co R0, (forall v, f v = true -> In v (map lit_var tr)) -> nn = cnt f tr ->
          (forall x, In x R0 -> In x (l :: post)) -> fhints s as_ co R0 (fun y => In y tr /\ f (lit_var y) = true) ->
          (if Nat.eqb nn 0 then (f, co, map (rhash s) R0) else failed_loop true s f nn co (map (rhash s) R0) tr) = (f', c', h') ->
          (forall v, f' v = false) /\ exists R', h' = map (rhash s) R' /\ fhints s as_ c' R' (fun _ => False)).
      { intros f nn co R0 G1 G2 G3 G4 G5. destruct (Nat.eqb_spec nn 0) as [Z|Z].
        - injection G5 as <- <- <-. rewrite Z in G2. symmetry in G2. pose proof (cnt_zero _ _ G2) as Q.
          split; [intros v; destruct (f v) eqn:Fv; [|reflexivity]; apply G1 in Fv as Iv; apply in_map_iff in Iv as (y & <- & Iy); rewrite (Q y Iy) in Fv; discriminate|].
          exists R0. split; [reflexivity|]. destruct G4 as [A B C D]. split; [exact A|exact B| |].
          + intros v x Hv Hx. destruct (C v x Hv Hx) as [Y|[Y1 Y2]]; [left; exact Y|]. rewrite (Q _ Y1) in Y2. discriminate.
          + destruct D as [Y|[Y1 Y2]]; [left; exact Y|]. rewrite (Q _ Y1) in Y2. discriminate.
        - exact (IH (l :: post) f nn co _ R0 f' c' h' Et G1 G2 eq_refl G3 G4 G5). }
      assert (Rs : s_reason s (lit_var l) <> RUnit -> forall f nn, fold_left (fun (fn : (N -> bool) * nat) l => if fst fn (lit_var l) then fn else (upd (fst fn) (lit_var l) true, Datatypes.S (snd fn)))
                   (reason_lits s (s_reason s (lit_var l))) (upd flags (lit_var l) false, pred count) = (f, nn) ->
          (forall v, f v = true -> In v (map lit_var tr)) /\ nn = cnt f tr /\ (forall x, In x (R ++ [l]) -> In x (l :: post)) /\
          fhints s as_ core (R ++ [l]) (fun y => In y tr /\ f (lit_var y) = true)).
      { intros NU f nn Ef.
        assert (Be : forall x, In x (reason_lits s (s_reason s (lit_var l))) -> In (lnot x) tr).
        { intros x Ix. destruct (reason_falselit _ _ _ _ _ K Hp Ix) as (_ & q & Lq & Eq). rewrite Et, nth_error_app1 in Eq by exact Lq.
          apply nth_error_In in Eq. apply in_rev. exact Eq. }
        destruct (mark_lits tr Nd _ _ _ _ _ (fun x Ix => eq_ind _ (fun v => In v (map lit_var tr)) (in_map lit_var _ _ (Be x Ix)) _ (lnot_var x)) Hc' Ef) as [R1 R2].
        assert (Up : forall y, settled s core R y \/ In y (l :: tr) /\ flags (lit_var y) = true -> settled s core (R ++ [l]) y \/ In y tr /\ f (lit_var y) = true).
        { intros y [Q|[[<-|Iy] Q]].
          - left. eapply settled_mono; [apply incl_refl|apply incl_appl, incl_refl|exact Q].
          - left. left. apply in_or_app. right. left. reflexivity.
          - right. split; [exact Iy|]. apply R2. left. rewrite upd_ne; [exact Q|]. intros Z. apply Nl. rewrite <- Z. apply in_map. exact Iy. }
        split; [|split; [exact R1|split]].
        - intros v Fv. apply R2 in Fv as [Fv|Iv]; [apply Hf'; exact Fv|]. apply in_map_iff in Iv as (x & <- & Ix). rewrite <- (lnot_var x). apply in_map. apply Be. exact Ix.
        - intros x Hx. apply in_app_or in Hx as [Hx|[<-|[]]]; [right; auto|left; reflexivity].
        - destruct FH as [A B C D]. split.
          + apply ordered_snoc; [exact A|]. intros x Hx. apply Rp in Hx. apply In_nth_error in Hx as (q & Hq). exists (length (rev tr)), (length (rev tr) + Datatypes.S q).
            split; [lia|]. split; [exact Hp|]. rewrite Et, nth_error_app2 by lia. replace (length (rev tr) + Datatypes.S q - length (rev tr)) with (Datatypes.S q) by lia. exact Hq.
          + intros v Hv. apply in_app_or in Hv as [Hv|[<-|[]]]; [auto|split; assumption].
          + intros v x Hv Hx. apply in_app_or in Hv as [Hv|[<-|[]]].
            * apply Up. apply (C v x Hv Hx).
            * right. split; [apply Be; exact Hx|]. apply R2. right. rewrite lnot_var. apply in_map. exact Hx.
          + apply Up. exact D. }
      destruct (s_reason s (lit_var l)) as [|b|x] eqn:Er; cbv zeta in E.
      * subst hashes. eapply Fin; [exact Hf'|exact Hc'|exact Pc| |exact E].
        set (co := if Nat.ltb 0 (s_level s (lit_var l)) then core ++ [l] else core).
        assert (Up : forall y, settled s core R y \/ In y (l :: tr) /\ flags (lit_var y) = true -> settled s co R y \/ In y tr /\ upd flags (lit_var l) false (lit_var y) = true).
        { intros y [Q|[[<-|Iy] Q]].
          - left. eapply settled_mono; [|apply incl_refl|exact Q]. unfold co. destruct (Nat.ltb 0 _); [apply incl_appl|]; apply incl_refl.
          - left. unfold co. destruct (Nat.ltb_spec 0 (s_level s (lit_var l))); [right; left; apply in_or_app; right; left; reflexivity|right; right; split; [exact Il|lia]].
          - right. split; [exact Iy|]. rewrite upd_ne; [exact Q|]. intros Z. apply Nl. rewrite <- Z. apply in_map. exact Iy. }
        destruct FH as [A B C D]. split; [exact A|exact B| |].
        -- intros v x Hv Hx. apply Up. apply (C v x Hv Hx).
        -- apply Up. exact D.
      * destruct (fold_left _ _ _) as [f nn] eqn:Ef. destruct (Rs ltac:(discriminate) _ _ eq_refl) as (G1 & G2 & G3 & G4). eapply Fin; [exact G1|exact G2|exact G3|exact G4|].
        rewrite map_app, <- Hh. cbn [map]. unfold rhash at 1 2. rewrite Er. exact E.
      * destruct (fold_left _ _ _) as [f nn] eqn:Ef. destruct (Rs ltac:(discriminate) _ _ eq_refl) as (G1 & G2 & G3 & G4). eapply Fin; [exact G1|exact G2|exact G3|exact G4|].
        rewrite map_app, <- Hh. cbn [map]. unfold rhash at 1 2. rewrite Er. exact E.
    + refine (IH (l :: post) _ _ _ _ R _ _ _ Et _ _ Hh Pc _ E).
      * intros v Fv. destruct (Hf v Fv) as [Z|Z]; [|exact Z]. congruence.
      * rewrite Hc. unfold cnt. cbn [filter]. rewrite Fl. reflexivity.
      * assert (Up : forall y, settled s core R y \/ In y (l :: tr) /\ flags (lit_var y) = true -> settled s core R y \/ In y tr /\ flags (lit_var y) = true).
        { intros y [Q|[[<-|Iy] Q]]; [auto|congruence|auto]. }
        destruct FH as [A B C D]. split; [exact A|exact B| |]; [intros v x Hv Hx; apply Up; apply (C v x Hv Hx)|apply Up; exact D].
Qed.

(** The core is contradictory by itself, or the assumption is false by a unit, or the clauses of the
    hashes contradict the core. *)
Lemma failed_hints n L bin s flags as_ f' core h : trail_ok n s -> store_ok n L bin s ->
  isfalse s as_ -> In (lit_var as_) (map lit_var (s_trail s)) -> (forall v, flags v = false) ->
  failed_core_of true s flags as_ = (f', core, h) ->
  (forall v, f' v = false) /\
  exists cs, h = map clause_hash cs /\ (forall d, In d cs -> is_stored L bin s d) /\
    (In (lnot as_) core \/ (In (lnot as_) (s_trail s) /\ s_level s (lit_var as_) = 0) \/
     rup (core ++ filter (fun l => Nat.eqb (s_level s (lit_var l)) 0) (s_trail s)) cs).
Proof.
  intros K S Fa I Cl E. unfold failed_core_of in E. destruct (failed_loop _ _ _ _ _ _ _) as [[f co] h'] eqn:El. injection E as <- <- <-.
  assert (Tr : s_trail s = rev (rev (s_trail s)) ++ []) by (rewrite rev_involutive, app_nil_r; reflexivity).
  assert (Nd : NoDup (map lit_var (rev (s_trail s)))) by (rewrite map_rev; apply NoDup_rev; apply (tk_nodup _ _ K)).
  assert (I' : In (lit_var as_) (map lit_var (rev (s_trail s)))) by (rewrite map_rev; apply -> in_rev; exact I).
  assert (Ka : In as_ co) by (eapply failed_loop_keep; [exact El|left; reflexivity]).
  destruct (failed_loop_hints n s as_ K (rev (s_trail s)) [] (upd flags (lit_var as_) true) 1 [as_] [] [] f co h' Tr) as (F' & R & Hh & FH).
  - intros v. unfold upd. destruct (N.eqb_spec v (lit_var as_)) as [->|NE]; [intros _; exact I'|rewrite Cl; discriminate].
  - rewrite (cnt_set _ _ _ Nd I' (Cl _)). f_equal. unfold cnt. symmetry. rewrite length_zero_iff_nil.
    destruct (filter _ _) as [|y r] eqn:Ef; [reflexivity|]. exfalso. assert (J : In y (filter (fun x => flags (lit_var x)) (rev (s_trail s)))) by (rewrite Ef; left; reflexivity).
    apply filter_In in J as [_ J]. rewrite Cl in J. discriminate.
  - reflexivity.
  - intros x [].
  - split; [constructor|intros v []|intros v x []|]. right. rewrite lnot_var, upd_eq. split; [|reflexivity]. apply -> in_rev. apply in_vars in I as [I|I]; [|exact I].
    exfalso. exact (true_not_false _ _ (tk_true _ _ K _ I) Fa).
  - exact El.
  - split; [exact F'|]. exists (map (reason_clause s) (rev R)). destruct FH as [A B C D]. split; [|split].
    + rewrite Hh, <- map_rev, map_map. apply map_ext_in. intros v Hv. destruct (B v (proj2 (in_rev _ _) Hv)) as [B1 B2]. apply (rhash_clause n s v K B1 B2).
    + intros d Hd. apply in_map_iff in Hd as (v & <- & Hv). destruct (B v (proj2 (in_rev _ _) Hv)) as [B1 B2]. apply (reason_stored n L bin s v K S B1 B2).
    + destruct D as [[D|[D|[D1 D2]]]|[]]; [|left; exact D|right; left; split; [exact D1|rewrite lnot_var in D2; exact D2]].
      right. right. eapply (chain_core n s as_ K (rev R)); [exact A| | |apply -> in_rev; exact D| |apply incl_refl].
      * intros v Hv. apply B. apply in_rev. exact Hv.
      * intros v x Hv Hx. apply in_rev in Hv. destruct (C v x Hv Hx) as [[Q|[Q|[Q1 Q2]]]|[]].
        -- right. apply -> in_rev. exact Q.
        -- left. apply in_or_app. left. exact Q.
        -- left. apply in_or_app. right. apply filter_In. split; [exact Q1|]. apply Nat.eqb_eq. exact Q2.
      * apply in_or_app. left. exact Ka.
Qed.

(** * The flags that are left over *)
Lemma failed_loop_hr s hr hr' : forall tr flags count core hashes hashes',
  fst (failed_loop hr s flags count core hashes tr) = fst (failed_loop hr' s flags count core hashes' tr).
Proof.
  induction tr as [|l tr IH]; intros flags count core hashes hashes'; cbn [failed_loop]; [reflexivity|].
  destruct (flags (lit_var l)); [|apply IH]. destruct (s_reason s (lit_var l)); cbv zeta.
  - destruct (Nat.eqb _ 0); [reflexivity|apply IH].
  - destruct (fold_left _ _ _) as [f k]. destruct (Nat.eqb k 0); [reflexivity|apply IH].
  - destruct (fold_left _ _ _) as [f k]. destruct (Nat.eqb k 0); [reflexivity|apply IH].
Qed.
Lemma failed_loop_off hr s : forall tr flags count core hashes, (forall l, In l tr -> flags (lit_var l) = false) ->
  failed_loop hr s flags count core hashes tr = (flags, core, hashes).
Proof.
  induction tr as [|l tr IH]; intros flags count core hashes H; cbn [failed_loop]; [reflexivity|].
  rewrite (H l (or_introl eq_refl)). apply IH. intros x I. apply H. right. exact I.
Qed.
(** All flags are cleared unless the assumption contradicts a value that was proved. *)
Lemma failed_flags n L bin s flags a hr f' core h : trail_ok n s -> store_ok n L bin s -> isfalse s a -> (forall v, flags v = false) ->
  failed_core_of hr s flags a = (f', core, h) -> (forall v, f' v = false) \/ core = [a].
Proof.
  intros T S Fa Cl Ec. destruct (in_dec N.eq_dec (lit_var a) (map lit_var (s_trail s))) as [I|NI].
  - left. destruct (failed_core_of true s flags a) as [[f2 co2] h2] eqn:E2.
    destruct (failed_hints _ _ _ _ _ _ _ _ _ T S Fa I Cl E2) as [Q _].
    assert (E3 : f2 = f').
    { unfold failed_core_of in E2, Ec. pose proof (failed_loop_hr s hr true (rev (s_trail s)) (upd flags (lit_var a) true) 1 [a] [] []) as Q3.
      destruct (failed_loop true _ _ _ _ _ _) as [[q1 q2] q3]. destruct (failed_loop hr _ _ _ _ _ _) as [[p1 p2] p3]. cbn [fst] in Q3. congruence. }
    rewrite <- E3. exact Q.
  - right. unfold failed_core_of in Ec. rewrite failed_loop_off in Ec; [injection Ec as <- <- <-; reflexivity|].
    intros l Il. apply in_rev in Il. unfold upd. destruct (N.eqb_spec (lit_var l) (lit_var a)) as [E|NE]; [|apply Cl]. exfalso. apply NI. rewrite <- E. apply in_map. exact Il.
Qed.
