(** The effect of each proof step on the checker. *)
From Coq Require Import Arith ZArith ZifyBool ZifyNat ZifyN Permutation Sorted.
From Verif Require Import Spec Lit LitProofs Vec SortedLits SortedLitsProofs Hash HashProofs Vli BinFormat Checker CheckerStore CheckerInv CheckerOps CheckerRup.

Record Inv (c : ctx) : Prop := {
  inv_wf : wf (c_hasher c) (c_clauses c) (c_vars c);
  inv_trail : r_trail (c_rup c) = [];
  inv_shuffle : shuffles (c_hasher c);
  inv_assumptions : ssorted (s_assumptions (c_state c));
  inv_prev : ssorted (s_prev_lits (c_state c));
}.

Record same_db (cl cl' : clauses) : Prop := {
  sd_clauses : Permutation (aclauses cl') (aclauses cl);
  sd_units : forall v, unit_of cl' v = unit_of cl v;
  sd_next : next_clause_id cl' = next_clause_id cl;
  sd_conflict : unit_conflict cl' = unit_conflict cl;
}.

Lemma same_db_refl cl : same_db cl cl.
Proof. constructor; auto. Qed.
Lemma same_db_trans a b c : same_db a b -> same_db b c -> same_db a c.
Proof.
  intros [a1 a2 a3 a4] [b1 b2 b3 b4]. constructor; try congruence. rewrite b1. exact a1.
Qed.
Lemma ext_same_db cl vs cl' vs' : ext cl vs cl' vs' -> same_db cl cl'.
Proof. intros E. constructor; try apply E. rewrite (ext_aclauses _ _ _ _ E). reflexivity. Qed.

Lemma sat_same a cl cl' : same_db cl cl' -> sat_store a cl <-> sat_store a cl'.
Proof.
  intros [s1 s2 _ _]. unfold sat_store. split; intros [H1 H2]; split.
  - intros x Hx. apply H1. apply (Permutation_in _ s1). exact Hx.
  - intros v u Hv. apply H2. rewrite <- s2. exact Hv.
  - intros x Hx. apply H1. apply (Permutation_in _ (Permutation_sym s1)). exact Hx.
  - intros v u Hv. apply H2. rewrite s2. exact Hv.
Qed.

Lemma stored_same cl cl' id lits : same_db cl cl' -> stored cl' id lits -> stored cl id lits.
Proof.
  intros [s1 s2 _ _] [(a&A&B)|(v&b&A&B)].
  - left. exists a. split; [apply (Permutation_in _ s1); exact A|exact B].
  - right. exists v, b. rewrite <- s2. auto.
Qed.

Lemma sat_agree a cl : sat_store a cl -> agree a (unit_clauses cl).
Proof. intros [_ H] v u Hv. apply H. unfold unit_of. rewrite Hv. reflexivity. Qed.

Lemma wf_globals h cl vs : wf h cl vs -> globals_in cl (unit_clauses cl) /\ knows (unit_clauses cl) [].
Proof.
  intros W. split.
  - intros v u Hv _. unfold unit_of. rewrite Hv. reflexivity.
  - intros l. split; [intros []|]. intros (u&Hu&L&_). destruct (wf_units _ _ _ W (lit_var l) u) as (_&id&E&_).
    + unfold unit_of. rewrite Hu. reflexivity.
    + unfold is_local in L. rewrite E in L. discriminate.
Qed.

Lemma rup_undo_len us tr us' : rup_undo us tr = Some us' -> vlen us' = vlen us.
Proof.
  revert us. induction tr as [|[l o] tr IH]; intros us H; cbn [rup_undo] in H; [inversion H; reflexivity|].
  destruct (vget us (lit_var l)); [|discriminate]. rewrite (IH _ H). apply vset_len.
Qed.

Record rup_ok (c : ctx) (lits : list N) (c' : ctx) : Prop := {
  ro_db : same_db (c_clauses c) (c_clauses c');
  ro_state : c_state c' = c_state c;
  ro_proc : c_proc c' = c_proc c;
  ro_vars : vext (c_vars c) (c_vars c');
  ro_names : forall v, apply_names (solver_names (c_hasher c')) (buffered_names (c_hasher c')) v =
                       apply_names (solver_names (c_hasher c)) (buffered_names (c_hasher c)) v;
}.

Lemma check_clause_spec c lits hashes : Inv c ->
  match check_clause_with_hashes c lits hashes with
  | ROk _ c' => Inv c' /\ rup_ok c lits c' /\
      (forall a, sat_store a (c_clauses c) -> clause_holds a lits = true) /\
      (forall db, db_ok db (c_clauses c) -> (forall l, In l lits -> ~ In (lnot l) lits) ->
         has_processors (c_proc c) = true -> hint_check db lits (r_trace_ids (c_rup c')) = true)
  | RErr (ECheckFailed _ MATFailed) c' => Inv c' /\ rup_ok c lits c'
  | _ => True
  end.
Proof.
  intros [W TR SH AS PV]. unfold check_clause_with_hashes.
  assert (RH : forall h cl, (if rename_flag (c_hasher c) then rehash (c_hasher c) (c_clauses c) else Some (c_hasher c, c_clauses c)) = Some (h, cl) ->
     wf h cl (c_vars c) /\ same_db (c_clauses c) cl /\ shuffles h /\
     forall v, apply_names (solver_names h) (buffered_names h) v = apply_names (solver_names (c_hasher c)) (buffered_names (c_hasher c)) v).
  { intros h cl H. destruct (rename_flag (c_hasher c)).
    - destruct (rehash_spec _ _ _ _ _ _ W SH H) as (A&B&C&D&E1&E2&E3&E4). split; [exact A|]. split.
      + destruct C as [C1 C2 C3]. constructor; auto. intros v. unfold unit_of. rewrite C1. reflexivity.
      + split; [exact D|]. intros v. rewrite E3, E4. reflexivity.
    - inversion H; subst. split; [exact W|]. split; [apply same_db_refl|]. split; [exact SH|reflexivity]. }
  destruct (if rename_flag (c_hasher c) then _ else _) as [[h cl]|]; [|exact I].
  destruct (RH h cl eq_refl) as (W1&SD1&SH1&NM1). clear RH. cbn [obind].
  cbn [with_clauses with_hasher c_rup]. rewrite TR. cbn [with_clauses with_hasher c_clauses c_vars].
  pose proof (ensure_vars_spec h lits cl (c_vars c) W1) as EV. destruct (ensure_vars cl (c_vars c) lits) as [cl2 vs2].
  destruct EV as (W2&E2&V2).
  assert (SD2 : same_db (c_clauses c) cl2) by (eapply same_db_trans; [exact SD1|eapply ext_same_db; exact E2]).
  assert (VX : vext (c_vars c) vs2) by (eapply ext_vext; exact E2).
  cbn [with_vars with_clauses with_rup c_state c_hasher c_clauses c_proc c_rup c_vars r_trace_ids].
  destruct (rup_true_lit (unit_clauses cl2) lits) as [[id|]|] eqn:TL; [| |exact I]; cbn [obind].
  - apply true_lit_spec in TL. destruct TL as (l&b&Hl&V&->).
    assert (U : unit_of cl2 (lit_var l) = Some (UC (Global id) (is_positive l))) by (unfold unit_of; rewrite V; reflexivity).
    split; [constructor; auto|]. split; [constructor; auto|]. split.
    + intros a Ha. apply (sat_same a _ _ SD2) in Ha. apply clause_holds_in. exists l. split; [exact Hl|].
      apply lit_holds_eq. apply (proj2 Ha _ _ U).
    + intros db DB NT _. cbn [r_trace_ids c_rup with_rup].
      assert (ST : stored (c_clauses c) id [l]).
      { apply (stored_same _ _ _ _ SD2). right. exists (lit_var l), (is_positive l). split; [exact U|]. f_equal.
        rewrite is_positive_even. change (lit_var l) with (N.div2 l).
        pose proof (div2_odd_eq l) as D. destruct (N.odd l); exact D. }
      cbn [hint_check]. rewrite (DB _ _ ST). cbn [filter]. apply memb_iff in Hl. rewrite Hl. reflexivity.
  - destruct (rup_falsify (RS (unit_clauses cl2) [] []) lits) as [r1|] eqn:F; [|exact I]. cbn [obind].
    destruct (rup_hashes (cmap cl2) (literal_buffer cl2) r1 hashes) as [[r2 res]|] eqn:RH; [|exact I]. cbn [obind].
    pose proof (undo_hashes _ _ _ _ _ _ RH) as U1. pose proof (undo_falsify _ _ _ F) as U2. rewrite U2 in U1. clear U2.
    change (rup_undo (rs_units (RS (unit_clauses cl2) [] [])) (rs_trail (RS (unit_clauses cl2) [] []))) with (Some (unit_clauses cl2)) in U1.
    assert (CU : with_units cl2 (unit_clauses cl2) = cl2) by (destruct cl2; reflexivity).
    destruct res; [| |exact I]; rewrite U1; cbn [obind]; rewrite CU; cbn [with_units failed].
    + split; [constructor; auto|]. split; [constructor; auto|]. split.
      * intros a Ha. apply (sat_same a _ _ SD2) in Ha. destruct (clause_holds a lits) eqn:CH; [reflexivity|]. exfalso.
        rewrite clause_holds_false in CH.
        eapply (rup_hashes_agree a (cmap cl2) (literal_buffer cl2) hashes r1 r2 RupConflict); [| |exact RH|reflexivity].
        -- intros k d Hd. apply bucket_in_allc in Hd. split; [eapply wf_slice; eassumption|].
           apply (proj1 Ha (abs_c (literal_buffer cl2) d)). apply in_map. exact Hd.
        -- eapply falsify_agree; [exact CH| |exact F]. cbn [rs_units]. apply sat_agree. exact Ha.
      * intros db DB NT HP. cbn [r_trace_ids c_rup with_rup with_clauses with_hasher with_vars c_proc]. rewrite HP.
        assert (DB2 : db_ok db cl2) by (intros i ls Hs; apply DB; eapply stored_same; eassumption).
        destruct (wf_globals _ _ _ W2) as [G0 K0].
        rewrite (hint_check_ext db _ lits (rev lits ++ [])) by (intros x; rewrite app_nil_r; apply in_rev).
        eapply (trace_hashes db cl2 DB2 (rev lits ++ []) h vs2 hashes W2 r1 r2); [| | |exact RH].
        -- eapply (knows_falsify lits (RS (unit_clauses cl2) [] []) r1 []); [exact NT| |exact K0|exact F]. intros l _ [].
        -- eapply (globals_falsify cl2 lits (RS (unit_clauses cl2) [] []) r1); [exact G0|exact F].
        -- rewrite (trace_falsify _ _ _ F). intros rest. reflexivity.
    + split; [constructor; auto|]. constructor; auto.
Qed.

(** * What is reported to processors *)

Record emits (c c' : ctx) (ks : list checked_step) : Prop := {
  em_log : proc_log (c_proc c') = proc_log (c_proc c) ++ ks;
  em_has : has_processors (c_proc c') = has_processors (c_proc c);
  em_trans : has_transcripts (c_proc c') = has_transcripts (c_proc c);
  em_items : exists ts, trans_log (c_proc c') = trans_log (c_proc c) ++ ts /\
      forall t, In t ts -> exists vs k, In k ks /\ transcript_step vs k = Some (Some t);
  em_told : has_transcripts (c_proc c) = true -> forall k, In k ks -> exists vs o, transcript_step vs k = Some o /\
      forall t, o = Some t -> In t (trans_log (c_proc c'));
}.

Lemma emits_nil c c' : c_proc c' = c_proc c -> emits c c' [].
Proof.
  intros E. constructor; rewrite E; auto; [symmetry; apply app_nil_r| |intros _ k []]. exists []. split; [symmetry; apply app_nil_r|intros t []].
Qed.
Lemma emits_trans a b c x y : emits a b x -> emits b c y -> emits a c (x ++ y).
Proof.
  intros [a1 a2 a3 (ts1&a4&a5) a6] [b1 b2 b3 (ts2&b4&b5) b6]. constructor; try congruence; [rewrite b1, a1, app_assoc; reflexivity| |].
  - exists (ts1 ++ ts2). split; [rewrite b4, a4, app_assoc; reflexivity|]. intros t Ht. apply in_app_or in Ht as [Ht|Ht].
    + destruct (a5 t Ht) as (vs&k&H1&H2). exists vs, k. split; [apply in_or_app; auto|exact H2].
    + destruct (b5 t Ht) as (vs&k&H1&H2). exists vs, k. split; [apply in_or_app; auto|exact H2].
  - intros HT k Hk. apply in_app_or in Hk as [Hk|Hk]; [|apply b6; [congruence|exact Hk]]. destruct (a6 HT k Hk) as (vs&o&H1&H2). exists vs, o. split; [exact H1|].
    intros t Ht. rewrite b4. apply in_or_app. left. apply H2. exact Ht.
Qed.

Lemma emits_proc a b a' b' ks : emits a b ks -> c_proc a' = c_proc a -> c_proc b' = c_proc b -> emits a' b' ks.
Proof. intros [e1 e2 e3 e4 e5] Ea Eb. constructor; rewrite ?Ea, ?Eb; assumption. Qed.

Lemma process_step_spec c k c' u : process_step c k = ROk u c' ->
  c' = with_proc c (c_proc c') /\ emits c c' [k].
Proof.
  unfold process_step. intros H.
  destruct (has_processors (c_proc c) && _); [discriminate|].
  destruct (has_transcripts (c_proc c)) eqn:HT.
  - destruct (transcript_step (c_vars c) k) as [[t|]|] eqn:TS; [| |discriminate].
    + destruct (trans_fail _ _); [discriminate|]. inversion H; subst. split; [reflexivity|].
      constructor; cbn [with_proc c_proc proc_log has_processors has_transcripts trans_log]; auto.
      * exists [t]. split; [reflexivity|]. intros t' [<-|[]]. exists (c_vars c), k. split; [left; reflexivity|exact TS].
      * intros _ k' [<-|[]]. exists (c_vars c), (Some t). split; [exact TS|]. intros t' Ht. injection Ht as <-. apply in_or_app. right. left. reflexivity.
    + inversion H; subst. split; [reflexivity|]. constructor; cbn [with_proc c_proc proc_log has_processors has_transcripts trans_log]; auto.
      * exists []. split; [symmetry; apply app_nil_r|intros t []].
      * intros _ k' [<-|[]]. exists (c_vars c), None. split; [exact TS|discriminate].
  - inversion H; subst. split; [reflexivity|]. constructor; cbn [with_proc c_proc proc_log has_processors has_transcripts trans_log]; auto.
    + exists []. split; [symmetry; apply app_nil_r|intros t []].
    + intros X. congruence.
Qed.

Lemma inv_with_proc c p : Inv c -> Inv (with_proc c p).
Proof. intros [a b d e f]. constructor; assumption. Qed.

(** * Small effects *)

Lemma inv_state c st : Inv c -> ssorted (s_assumptions st) -> ssorted (s_prev_lits st) -> Inv (with_state c st).
Proof. intros [a b d e f] H1 H2. constructor; assumption. Qed.

Lemma ctx_ensure_var_spec c v : Inv c ->
  let c' := ctx_ensure_var c v in
  Inv c' /\ same_db (c_clauses c) (c_clauses c') /\ vext (c_vars c) (c_vars c') /\ v < nvars (c_vars c') /\
  c_state c' = c_state c /\ c_proc c' = c_proc c /\ c_rup c' = c_rup c /\ c_hasher c' = c_hasher c.
Proof.
  intros [W b d e f]. unfold ctx_ensure_var. pose proof (ensure_var_spec _ _ _ v W) as E.
  destruct (ensure_var (c_clauses c) (c_vars c) v) as [cl vs]. destruct E as (A&B&C).
  split; [constructor; auto|]. split; [eapply ext_same_db; exact B|]. split; [eapply ext_vext; exact B|]. auto.
Qed.

(** contexts that differ only in variables, unit table size and processor logs *)
Record quiet (c c' : ctx) : Prop := {
  q_db : same_db (c_clauses c) (c_clauses c');
  q_state : c_state c' = c_state c;
  q_hasher : c_hasher c' = c_hasher c;
  q_rup : c_rup c' = c_rup c;
}.
Lemma quiet_refl c : quiet c c.
Proof. constructor; auto using same_db_refl. Qed.
Lemma quiet_trans a b c : quiet a b -> quiet b c -> quiet a c.
Proof. intros [a1 a2 a3 a4] [b1 b2 b3 b4]. constructor; try congruence. eapply same_db_trans; eassumption. Qed.

Lemma quiet_proc c p : quiet c (with_proc c p).
Proof. constructor; auto using same_db_refl. Qed.

Lemma wf_vars h cl vs vs' : wf h cl vs -> lit_count vs' = lit_count vs -> nvars vs' = nvars vs -> wf h cl vs'.
Proof.
  intros [w1 w2 w3 w4 w5 w6 w7 w8 w9 w10 w11] A B. constructor; auto; rewrite ?A, ?B; auto.
Qed.

Lemma ensure_sampling_vars_spec lits : forall c c' u, Inv c -> ensure_sampling_vars c lits = ROk u c' ->
  Inv c' /\ quiet c c' /\ vext (c_vars c) (c_vars c') /\ c_proc c' = c_proc c /\
  Forall (fun l => exists d, vget (var_datas (c_vars c')) (lit_var l) = Some d /\ vd_mode d = Sample) lits.
Proof.
  induction lits as [|l lits IH]; intros c c' u I H; cbn [ensure_sampling_vars] in H.
  - inversion H; subst. split; [exact I|]. split; [apply quiet_refl|]. split; [apply vext_refl|]. auto.
  - unfold ensure_sampling_var in H. destruct (ctx_ensure_var_spec c (lit_var l) I) as (A1&A2&A3&A4&A5&A6&A7&A8).
    set (c1 := ctx_ensure_var c (lit_var l)) in *. clearbody c1.
    destruct (vget (var_datas (c_vars c1)) (lit_var l)) as [d|] eqn:V; [|discriminate].
    destruct (mode_eqb (vd_mode d) Sample) eqn:M; [|discriminate]. cbn [bind] in H.
    destruct (IH _ _ _ A1 H) as (B1&B2&B3&B4&B5).
    split; [exact B1|]. split; [eapply quiet_trans; [|exact B2]; constructor; auto|]. split; [eapply vext_trans; eassumption|].
    split; [congruence|]. constructor; [|exact B5]. exists d. rewrite (vx_old _ _ B3) by exact A4. split; [exact V|].
    destruct (vd_mode d); [reflexivity|discriminate|discriminate].
Qed.

(** * Effects of the steps *)

Definition canon (l : list N) : list N := fst (copy_canonical l).
Definition taut (l : list N) : bool := snd (copy_canonical l).

Inductive add_eff (c : ctx) (clause : list N) (c' : ctx) : Prop :=
| AE_unsat : s_unsat (c_state c) = true -> c' = c -> add_eff c clause c'
| AE_taut : s_unsat (c_state c) = false -> taut clause = true ->
    c_state c' = c_state c -> c_vars c' = c_vars c ->
    c_clauses c' = with_next_id (c_clauses c) (next_clause_id (c_clauses c) + 1) ->
    emits c c' [KTautologicalClause (next_clause_id (c_clauses c)) (canon clause)] -> add_eff c clause c'
| AE_stored cl1 id r : s_unsat (c_state c) = false -> taut clause = false ->
    store_eff (c_state c) (c_clauses c) (canon clause) false (c_state c') cl1 id r ->
    (match r with
     | SNew => c_clauses c' = cl1 /\ emits c c' [KAddClause id (canon clause)]
     | _ => c_clauses c' = with_next_id cl1 (next_clause_id cl1 + 1) /\
            emits c c' ((match r with SNewlyIrredundant => [KMakeIrredundant id (canon clause)] | _ => [] end) ++
                        [KDuplicatedClause (next_clause_id cl1) id (canon clause)])
     end) -> add_eff c clause c'.

Inductive at_eff (c : ctx) (red : bool) (clause : list N) (c' : ctx) : Prop :=
| AT st1 id r hints :
    taut clause = false ->
    (forall a, sat_store a (c_clauses c) -> clause_holds a (canon clause) = true) ->
    (forall db, db_ok db (c_clauses c) -> has_processors (c_proc c) = true -> hint_check db (canon clause) hints = true) ->
    store_eff (c_state c) (c_clauses c) (canon clause) red st1 (c_clauses c') id r ->
    c_state c' = (if red then st1 else with_prev st1 (Some id) (canon clause)) ->
    emits c c' (match r with
                | SNew => [KAtClause id red (canon clause) hints]
                | SNewlyIrredundant => [KMakeIrredundant id (canon clause)]
                | SDuplicate => []
                end) -> at_eff c red clause c'.

Inductive unit_chain : ctx -> list (N * N) -> ctx -> Prop :=
| UCH_nil c c' : quiet c c' -> c_proc c' = c_proc c -> unit_chain c [] c'
| UCH_cons c l hash rest c1 c' id r hints :
    (forall a, sat_store a (c_clauses c) -> lit_holds a l = true) ->
    (forall db, db_ok db (c_clauses c) -> has_processors (c_proc c) = true -> hint_check db [l] hints = true) ->
    store_eff (c_state c) (c_clauses c) [l] false (c_state c1) (c_clauses c1) id r ->
    emits c c1 (match r with SNew => [KAtClause id false [l] hints] | _ => [] end) ->
    unit_chain c1 rest c' -> unit_chain c ((l, hash) :: rest) c'.

(** justification of the removal of an irredundant clause: the identifier of the subsuming clause *)
Definition removal_ok (c : ctx) (proof : del_proof) (lits : list N) (s : N) : Prop :=
  match proof with
  | DRedundant => False
  | DSatisfied => exists l, In l lits /\ unit_of (c_clauses c) (lit_var l) = Some (UC (Global s) (is_positive l))
  | DSimplified => s_prev_id (c_state c) = Some s /\ s_prev_lits (c_state c) <> lits /\
                   forall l, In l (s_prev_lits (c_state c)) -> In l lits
  end.
Definition is_red (p : del_proof) : bool := match p with DRedundant => true | _ => false end.

Inductive del_eff (c : ctx) (clause : list N) (proof : del_proof) (c' : ctx) : Prop :=
| DEL id r :
    taut clause = false ->
    delete_eff (c_clauses c) (canon clause) (is_red proof) (c_clauses c') (inl (id, r)) ->
    (forall v, unit_of (c_clauses c') v = unit_of (c_clauses c) v) ->
    unit_conflict (c_clauses c') = unit_conflict (c_clauses c) ->
    next_clause_id (c_clauses c') = next_clause_id (c_clauses c) ->
    c_state c' = with_prev (c_state c) None [] ->
    (if is_red proof then
       emits c c' (match r with DRemoved => [KDeleteClause id (canon clause)] | _ => [] end)
     else exists s, removal_ok c proof (canon clause) s /\
       emits c c' (match r with
                   | DUnchanged => []
                   | DRemoved => [KDeleteAtClause id false (canon clause) [s]]
                   | DNewlyRedundant => [KDeleteAtClause id true (canon clause) [s]]
                   end)) -> del_eff c clause proof c'.

Inductive delvar_eff (c : ctx) (v : N) (c' : ctx) : Prop :=
| DV :
    (v < 2^31 -> forall a, In a (aclauses (c_clauses c)) -> forall l, In l (a_lits a) -> lit_var l <> v) ->
    Permutation (aclauses (c_clauses c')) (aclauses (c_clauses c)) ->
    (forall w, unit_of (c_clauses c') w = if v =? w then None else unit_of (c_clauses c) w) ->
    unit_conflict (c_clauses c') = unit_conflict (c_clauses c) ->
    next_clause_id (c_clauses c') = next_clause_id (c_clauses c) ->
    c_state c' = c_state c ->
    emits c c' (match unit_of (c_clauses c) v with
                | Some (UC (Global id) b) => [KDeleteRatClause id false [2 * v + if b then 0 else 1] (2 * v + if b then 0 else 1)]
                | _ => []
                end) -> delvar_eff c v c'.

Definition uservar_step (k : checked_step) : Prop := match k with KUserVar _ _ => True | _ => False end.

(** a model: assigned literals *)
Definition model_ok (c : ctx) (m : list N) : Prop :=
  (forall l, In l m -> ~ In (lnot l) m) /\
  (forall l, In l m -> forall u, unit_of (c_clauses c) (lit_var l) = Some u -> uc_value u = is_positive l) /\
  (forall l, In l (s_assumptions (c_state c)) -> In l m) /\
  (forall a, In a (aclauses (c_clauses c)) -> exists l, In l (a_lits a) /\ In l m).

Definition step_eff (c : ctx) (s : proof_step) (c' : ctx) : Prop :=
  match s with
  | SolverVarName _ _ | UserVarName _ _ | ChangeSamplingMode _ _ | ChangeHashBits _ =>
      same_db (c_clauses c) (c_clauses c') /\ c_state c' = c_state c /\ exists ks, emits c c' ks /\ Forall uservar_step ks
  | End => same_db (c_clauses c) (c_clauses c') /\ c_state c' = with_ended (c_state c) /\ emits c c' []
  | Model m => same_db (c_clauses c) (c_clauses c') /\ c_state c' = c_state c /\ emits c c' [KModel m] /\ model_ok c m
  | Assumptions l => same_db (c_clauses c) (c_clauses c') /\ c_state c' = with_assumptions (c_state c) (canon l) /\
      emits c c' [KAssumptions (canon l)]
  | FailedAssumptions core hashes => same_db (c_clauses c) (c_clauses c') /\ c_state c' = c_state c /\
      (forall l, In l core -> In l (s_assumptions (c_state c))) /\
      (forall a, sat_store a (c_clauses c) -> cube_holds a core = false) /\
      exists hints, emits c c' [KFailedAssumptions (canon core) hints] /\
        if taut core then hints = []
        else forall db, db_ok db (c_clauses c) -> has_processors (c_proc c) = true -> hint_check db (map lnot (canon core)) hints = true
  | DeleteVar v => delvar_eff c v c'
  | AddClause clause => add_eff c clause c'
  | AtClause red clause _ => at_eff c red clause c'
  | DeleteClause clause proof => del_eff c clause proof c'
  | UnitClauses units => unit_chain c units c'
  end.

Definition lits_u32 (l : list N) : Prop := Forall (fun x => x < 2^32) l.
(** type-level facts about a step: literals are u32 *)
Definition step_u32 (s : proof_step) : Prop :=
  match s with
  | AddClause l | AtClause _ l _ | DeleteClause l _ | Model l | Assumptions l | FailedAssumptions l _ => lits_u32 l
  | UnitClauses us => lits_u32 (map fst us)
  | _ => True
  end.

Lemma store_eff_same st cl cl1 lits red st' cl' id r : same_db cl cl1 ->
  store_eff st cl1 lits red st' cl' id r -> store_eff st cl lits red st' cl' id r.
Proof.
  intros [s1 s2 s3 s4] H. destruct H; rewrite ?s3, ?s4 in *.
  - apply SE_empty; auto; [rewrite <- s1; assumption|intros v; rewrite <- s2; auto].
  - eapply SE_unit_dup; eauto; [rewrite <- s1; assumption|intros v; rewrite <- s2; auto|rewrite <- s2; assumption].
  - eapply SE_unit_conflict; eauto; [rewrite <- s1; assumption|intros v; rewrite <- s2; auto|rewrite <- s2; assumption].
  - eapply SE_unit_new; eauto; [rewrite <- s1; assumption|rewrite <- s2; assumption|intros v; rewrite <- s2; auto].
  - eapply SE_found; eauto; [rewrite <- s1; assumption|intros v; rewrite <- s2; auto].
  - eapply SE_new; eauto; [|rewrite <- s1; assumption|intros v; rewrite <- s2; auto].
    intros X. apply H1. apply (Permutation_in _ (Permutation_map a_lits (Permutation_sym s1))). exact X.
Qed.

Lemma store_eff_state st cl lits red st' cl' id r : store_eff st cl lits red st' cl' id r -> st' = st \/ st' = with_unsat st.
Proof. intros H. destruct H; auto. Qed.

Lemma ctx_store_spec c lits red c' id r : Inv c -> good_lits lits -> ctx_store_clause c lits red = ROk (id, r) c' ->
  Inv c' /\ store_eff (c_state c) (c_clauses c) lits red (c_state c') (c_clauses c') id r /\
  c_proc c' = c_proc c /\ c_rup c' = c_rup c /\ c_hasher c' = c_hasher c /\ vext (c_vars c) (c_vars c').
Proof.
  intros [W b d e f] G H. unfold ctx_store_clause in H.
  destruct (store_clause _ _ _ _ _ _) as [[[[st cl] vs] [id' r']]|] eqn:S; [|discriminate]. cbn [obind] in H. inversion H; subst; clear H.
  destruct (store_clause_spec _ _ _ _ _ _ _ _ _ _ _ W G S) as (A&B&C&D).
  split; [|split; [exact B|split; [reflexivity|split; [reflexivity|split; [reflexivity|exact C]]]]].
  constructor; cbn [with_vars with_clauses with_state c_hasher c_clauses c_vars c_rup c_state]; auto;
    destruct (store_eff_state _ _ _ _ _ _ _ _ B) as [-> | ->]; cbn [with_unsat s_assumptions s_prev_lits]; auto.
Qed.

Lemma wf_skip h cl vs : wf h cl vs -> wf h (with_next_id cl (next_clause_id cl + 1)) vs.
Proof.
  intros W. apply (wf_same_clauses h cl vs); auto; cbn [with_next_id next_clause_id unit_clauses]; [lia|apply (wf_ids _ _ _ W)|].
  intros v u Hu. change (unit_of cl v = Some u) in Hu. destruct (wf_units _ _ _ W v u Hu) as (?&j&?&?).
  split; [assumption|]. exists j. split; [assumption|lia].
Qed.

Lemma inv_skip c : Inv c -> Inv (skip_id c).
Proof. intros [a b d e f]. constructor; auto. apply wf_skip. exact a. Qed.

Lemma canon_good l : lits_u32 l -> taut l = false -> good_lits (canon l).
Proof. apply canonical_good. Qed.

Lemma canon_eq l : copy_canonical l = (canon l, taut l).
Proof. unfold canon, taut. destruct (copy_canonical l); reflexivity. Qed.

Lemma add_clause_spec c clause c' u : Inv c -> lits_u32 clause -> add_clause c clause = ROk u c' ->
  Inv c' /\ add_eff c clause c'.
Proof.
  intros I L H. unfold add_clause in H. destruct (s_unsat (c_state c)) eqn:US.
  - inversion H; subst. split; [exact I|]. apply AE_unsat; auto.
  - rewrite canon_eq in H. destruct (taut clause) eqn:T.
    + destruct (process_step c _) as [[] c1| |] eqn:P; try discriminate. cbn [bind] in H. inversion H; subst; clear H.
      destruct (process_step_spec _ _ _ _ P) as [E EM]. rewrite E. split; [apply inv_skip, inv_with_proc, I|].
      rewrite E in EM. apply AE_taut; auto. destruct EM. constructor; assumption.
    + destruct (ensure_sampling_vars c (canon clause)) as [[] c1| |] eqn:ES; try discriminate. cbn [bind] in H.
      destruct (ensure_sampling_vars_spec _ _ _ _ I ES) as (I1&Q1&V1&P1&S1).
      destruct (ctx_store_clause c1 (canon clause) false) as [[id r] c2| |] eqn:CS; try discriminate. cbn [bind] in H.
      destruct (ctx_store_spec _ _ _ _ _ _ I1 (canon_good _ L T) CS) as (I2&SE&P2&R2&H2&V2).
      assert (SE' : store_eff (c_state c) (c_clauses c) (canon clause) false (c_state c2) (c_clauses c2) id r).
      { rewrite <- (q_state _ _ Q1). eapply store_eff_same; [apply (q_db _ _ Q1)|exact SE]. }
      assert (EM0 : emits c c2 []) by (apply emits_nil; congruence).
      destruct r.
      * destruct (process_step_spec _ _ _ _ H) as [E EM]. rewrite E. split; [apply inv_with_proc, I2|].
        eapply AE_stored with (r := SNew); eauto. split; [reflexivity|]. rewrite <- E. exact (emits_trans _ _ _ _ _ EM0 EM).
      * cbn [bind] in H. destruct (process_step c2 _) as [[] c3| |] eqn:P3; try discriminate. cbn [bind] in H. inversion H; subst; clear H.
        destruct (process_step_spec _ _ _ _ P3) as [E EM]. split; [rewrite E; apply inv_skip, inv_with_proc, I2|].
        eapply AE_stored with (r := SDuplicate) (cl1 := c_clauses c2); eauto; [rewrite E; exact SE'|]. split; [rewrite E; reflexivity|].
        pose proof (emits_trans _ _ _ _ _ EM0 EM) as X. destruct X. constructor; assumption.
      * destruct (process_step c2 _) as [[] c3| |] eqn:P3; try discriminate. cbn [bind] in H.
        destruct (process_step c3 _) as [[] c4| |] eqn:P4; try discriminate. cbn [bind] in H. inversion H; subst; clear H.
        destruct (process_step_spec _ _ _ _ P3) as [E EM]. destruct (process_step_spec _ _ _ _ P4) as [E4 EM4].
        split; [rewrite E4, E; apply inv_skip, inv_with_proc, inv_with_proc, I2|].
        eapply AE_stored with (r := SNewlyIrredundant) (cl1 := c_clauses c2); eauto; [rewrite E4, E; exact SE'|].
        split; [rewrite E4, E; reflexivity|].
        pose proof (emits_trans _ _ _ _ _ EM0 (emits_trans _ _ _ _ _ EM EM4)) as X. rewrite E in X at 1. destruct X. constructor; assumption.
Qed.

Lemma good_nt l : good_lits l -> forall x, In x l -> ~ In (lnot x) l.
Proof. intros (_&H&_). exact H. Qed.

Lemma at_clause_spec c red clause hashes c' u : Inv c -> lits_u32 clause -> check_at_clause_step c red clause hashes = ROk u c' ->
  Inv c' /\ at_eff c red clause c'.
Proof.
  intros I L H. unfold check_at_clause_step in H. rewrite canon_eq in H. destruct (taut clause) eqn:T; [discriminate|].
  pose proof (check_clause_spec c (canon clause) hashes I) as CC.
  destruct (check_clause_with_hashes c (canon clause) hashes) as [[] c1| |]; try discriminate. cbn [bind] in H.
  destruct CC as (I1&[r1 r2 r3 r4 r5]&SND&HNT).
  destruct (ctx_store_clause c1 (canon clause) red) as [[id r] c2| |] eqn:CS; try discriminate. cbn [bind] in H.
  pose proof (canon_good _ L T) as GL.
  destruct (ctx_store_spec _ _ _ _ _ _ I1 GL CS) as (I2&SE&P2&R2&H2&V2).
  set (c3 := if red then c2 else with_state c2 (with_prev (c_state c2) (Some id) (canon clause))) in *.
  assert (I3 : Inv c3).
  { unfold c3. destruct red; [exact I2|]. apply inv_state; [exact I2|apply (inv_assumptions _ I2)|apply canonical_sorted]. }
  assert (E3 : c_clauses c3 = c_clauses c2 /\ c_proc c3 = c_proc c2 /\ c_rup c3 = c_rup c2 /\
     c_state c3 = (if red then c_state c2 else with_prev (c_state c2) (Some id) (canon clause))) by (unfold c3; destruct red; auto).
  destruct E3 as (E31&E32&E33&E34). clearbody c3.
  assert (EM0 : emits c c3 []) by (apply emits_nil; congruence).
  assert (SE' : store_eff (c_state c) (c_clauses c) (canon clause) red (c_state c2) (c_clauses c3) id r).
  { rewrite E31, <- r2. eapply store_eff_same; [exact r1|exact SE]. }
  assert (HN : forall db, db_ok db (c_clauses c) -> has_processors (c_proc c) = true -> hint_check db (canon clause) (r_trace_ids (c_rup c3)) = true).
  { intros db DB HP. rewrite E33, R2. apply HNT; auto. apply good_nt. exact GL. }
  destruct r.
  - destruct (process_step_spec _ _ _ _ H) as [E EM]. split; [rewrite E; apply inv_with_proc, I3|].
    apply AT with (st1 := c_state c2) (id := id) (r := SNew) (hints := r_trace_ids (c_rup c3)); auto; try (rewrite E; assumption).
    exact (emits_trans _ _ _ _ _ EM0 EM).
  - inversion H; subst. split; [exact I3|].
    apply AT with (st1 := c_state c2) (id := id) (r := SDuplicate) (hints := r_trace_ids (c_rup c')); auto.
  - destruct (process_step_spec _ _ _ _ H) as [E EM]. split; [rewrite E; apply inv_with_proc, I3|].
    apply AT with (st1 := c_state c2) (id := id) (r := SNewlyIrredundant) (hints := r_trace_ids (c_rup c3)); auto; try (rewrite E; assumption).
    exact (emits_trans _ _ _ _ _ EM0 EM).
Qed.

Lemma unit_clauses_spec units : forall c c' u, Inv c -> lits_u32 (map fst units) -> check_unit_clauses_step c units = ROk u c' ->
  Inv c' /\ unit_chain c units c'.
Proof.
  induction units as [|[l hash] units IH]; intros c c' u I L H; cbn [check_unit_clauses_step] in H.
  - inversion H; subst. split; [exact I|]. apply UCH_nil; [apply quiet_refl|reflexivity].
  - cbn [map fst] in L. inversion L as [|? ? L1 L2]; subst.
    destruct (ctx_ensure_var_spec c (lit_var l) I) as (A1&A2&A3&A4&A5&A6&A7&A8).
    set (c1 := ctx_ensure_var c (lit_var l)) in *. clearbody c1.
    pose proof (check_clause_spec c1 [l] [hash] A1) as CC.
    destruct (check_clause_with_hashes c1 [l] [hash]) as [[] c2| |]; try discriminate. cbn [bind] in H.
    destruct CC as (I2&[r1 r2 r3 r4 r5]&SND&HNT).
    destruct (store_unit_clause (c_state c2) (c_clauses c2) l) as [[[st cl] [id r]]|] eqn:SU; [|discriminate]. cbn [obind] in H.
    destruct I2 as [W2 T2 S2 AS2 PV2].
    assert (LV : lit_var l < nvars (c_vars c2)) by (pose proof (vx_nv _ _ r4); lia).
    destruct (store_unit_spec _ _ _ _ _ _ _ _ _ W2 LV L1 SU) as (W3&SE&_).
    set (c3 := with_clauses (with_state c2 st) cl) in *.
    assert (I3 : Inv c3).
    { constructor; auto; cbn [c3 with_clauses with_state c_state]; destruct (store_eff_state _ _ _ _ _ _ _ _ SE) as [-> | ->]; assumption. }
    assert (SE' : store_eff (c_state c) (c_clauses c) [l] false (c_state c3) (c_clauses c3) id r).
    { rewrite <- A5, <- r2. eapply store_eff_same; [eapply same_db_trans; [exact A2|exact r1]|exact SE]. }
    assert (EM0 : emits c c3 []) by (apply emits_nil; cbn [c3 with_clauses with_state c_proc]; congruence).
    assert (SND' : forall a, sat_store a (c_clauses c) -> lit_holds a l = true).
    { intros a Ha. apply (sat_same a _ _ A2) in Ha. specialize (SND a Ha). unfold clause_holds in SND. cbn [existsb] in SND.
      rewrite orb_false_r in SND. exact SND. }
    assert (HN : forall db, db_ok db (c_clauses c) -> has_processors (c_proc c) = true -> hint_check db [l] (r_trace_ids (c_rup c3)) = true).
    { intros db DB HP. cbn [c3 with_clauses with_state c_rup]. apply HNT.
      - intros i ls Hs. apply DB. eapply stored_same; eassumption.
      - intros x [<-|[]] [E|[]]. symmetry in E. exact (lnot_neq _ E).
      - congruence. }
    destruct r; [| |discriminate].
    + destruct (process_step c3 _) as [[] c4| |] eqn:P; try discriminate. cbn [bind] in H.
      destruct (process_step_spec _ _ _ _ P) as [E EM].
      destruct (IH c4 c' u) as [I' CH]; [rewrite E; apply inv_with_proc, I3|exact L2|exact H|].
      split; [exact I'|]. eapply UCH_cons with (r := SNew) (c1 := c4) (id := id); [exact SND'|exact HN| | |exact CH].
      * rewrite E. exact SE'.
      * exact (emits_trans _ _ _ _ _ EM0 EM).
    + cbn [bind] in H. destruct (IH c3 c' u I3 L2 H) as [I' CH]. split; [exact I'|].
      eapply UCH_cons with (r := SDuplicate) (c1 := c3) (id := id); [exact SND'|exact HN|exact SE'|exact EM0|exact CH].
Qed.

Lemma satisfied_by_spec lits : forall us s, satisfied_by us lits = Some (Some s) ->
  exists l, In l lits /\ vget us (lit_var l) = Some (Some (UC (Global s) (is_positive l))).
Proof.
  induction lits as [|l lits IH]; intros us s H; cbn [satisfied_by] in H; [discriminate|].
  rewrite lit_value_get in H. destruct (vget us (lit_var l)) as [[[i b]|]|] eqn:V; [| |discriminate].
  - destruct (xorb (uc_value (UC i b)) (is_negative l)) eqn:X.
    + destruct i as [id| |].
      * inversion H; subst. exists l. split; [left; reflexivity|]. rewrite V. do 4 f_equal. rewrite is_pos_neg.
        cbn [uc_value] in X. destruct b, (is_negative l); cbn in X |- *; congruence.
      * destruct (IH _ _ H) as (x&A&B). exists x. split; [right; exact A|exact B].
      * destruct (IH _ _ H) as (x&A&B). exists x. split; [right; exact A|exact B].
    + destruct (IH _ _ H) as (x&A&B). exists x. split; [right; exact A|exact B].
  - destruct (IH _ _ H) as (x&A&B). exists x. split; [right; exact A|exact B].
Qed.

Lemma delete_step_spec c clause proof c' u : Inv c -> check_delete_clause_step c clause proof = ROk u c' ->
  Inv c' /\ del_eff c clause proof c'.
Proof.
  intros I H. unfold check_delete_clause_step in H. rewrite canon_eq in H. destruct (taut clause) eqn:T; [discriminate|].
  set (pre := match proof with DRedundant => ROk None c | _ => _ end) in H.
  assert (PRE : exists sb, pre = ROk sb c /\ (if is_red proof then sb = None else exists s, sb = Some s /\ removal_ok c proof (canon clause) s)).
  { destruct pre as [sb c1|e c1|] eqn:E; cbn [bind] in H; try discriminate. exists sb. unfold pre in E. destruct proof; cbn [is_red].
    - inversion E; subst. auto.
    - destruct (subsumed_by_previous_irred_clause (c_state c) (canon clause)) eqn:S; [|discriminate].
      inversion E; subst. split; [reflexivity|]. unfold subsumed_by_previous_irred_clause in S.
      destruct (s_prev_id (c_state c1)) as [s|] eqn:P; [|discriminate]. exists s. split; [reflexivity|].
      split; [exact P|]. apply is_subset_spec in S; [|apply (inv_prev _ I)|apply canonical_sorted].
      destruct S as [S1 S2]. destruct (S2 eq_refl) as (y&Y1&Y2). split; [congruence|exact S1].
    - destruct (satisfied_by _ _) as [[s|]|] eqn:S; cbn [obind] in E; try discriminate. inversion E; subst.
      split; [reflexivity|]. exists s. split; [reflexivity|]. apply satisfied_by_spec in S. destruct S as (l&A&B).
      exists l. split; [exact A|]. unfold unit_of. rewrite B. reflexivity. }
  destruct PRE as (sb&E&RO). rewrite E in H. clear E pre. cbn [bind] in H.
  change (match proof with DRedundant => true | _ => false end) with (is_red proof) in H.
  set (c1 := with_state c (with_prev (c_state c) None [])) in *.
  assert (I1 : Inv c1) by (apply inv_state; [exact I|apply (inv_assumptions _ I)|constructor]).
  destruct (delete_clause _ _ _ _ _) as [[[cl vs] [[id r]|m]]|] eqn:D; cbn [obind] in H; try discriminate.
  destruct (delete_clause_spec _ _ _ _ _ _ _ _ (inv_wf _ I1) D) as (W2&DE&SU&VD&UU).
  set (c2 := with_vars (with_clauses c1 cl) vs) in *.
  assert (I2 : Inv c2) by (destruct I1; constructor; assumption).
  assert (EM0 : emits c c2 []) by (apply emits_nil; reflexivity).
  assert (UN : forall v, unit_of cl v = unit_of (c_clauses c) v) by (intros v; unfold unit_of; rewrite (su_units _ _ SU); reflexivity).
  destruct (is_red proof) eqn:RP.
  - destruct r; [| discriminate |].
    + inversion H; subst. split; [exact I2|]. apply DEL with (id := id) (r := DUnchanged); auto; try apply SU; rewrite RP; auto.
    + destruct (process_step_spec _ _ _ _ H) as [E EM]. split; [rewrite E; apply inv_with_proc, I2|].
      apply DEL with (id := id) (r := DRemoved); auto; try (rewrite E; first [exact UN|apply SU|reflexivity]); rewrite ?RP; try (rewrite E; exact DE).
      exact (emits_trans _ _ _ _ _ EM0 EM).
  - destruct RO as (s&->&RO). destruct r.
    + inversion H; subst. split; [exact I2|]. apply DEL with (id := id) (r := DUnchanged); auto; try apply SU; rewrite RP; eauto.
    + destruct (process_step_spec _ _ _ _ H) as [E EM]. split; [rewrite E; apply inv_with_proc, I2|].
      apply DEL with (id := id) (r := DNewlyRedundant); auto; try (rewrite E; first [exact UN|apply SU|reflexivity]); rewrite ?RP; try (rewrite E; exact DE).
      exists s. split; [exact RO|]. exact (emits_trans _ _ _ _ _ EM0 EM).
    + destruct (process_step_spec _ _ _ _ H) as [E EM]. split; [rewrite E; apply inv_with_proc, I2|].
      apply DEL with (id := id) (r := DRemoved); auto; try (rewrite E; first [exact UN|apply SU|reflexivity]); rewrite ?RP; try (rewrite E; exact DE).
      exists s. split; [exact RO|]. exact (emits_trans _ _ _ _ _ EM0 EM).
Qed.

Lemma lit_from_var_31 v b : v < 2^31 -> lit_from_var v b = 2 * v + (if b then 0 else 1).
Proof.
  intros H. unfold lit_from_var. rewrite N.shiftl_mul_pow2. change (2^1) with 2. rewrite u32_small.
  - rewrite (N.mul_comm v 2). destruct b; [rewrite N.lor_0_r; lia|apply lor_even_1].
  - change (2^31) with 2147483648 in H. change (2^32) with 4294967296. lia.
Qed.

Lemma inv_vars c vs : Inv c -> lit_count vs = lit_count (c_vars c) -> nvars vs = nvars (c_vars c) -> Inv (with_vars c vs).
Proof. intros [a b d e f] H1 H2. constructor; auto. eapply wf_vars; [exact a|exact H1|exact H2]. Qed.

Lemma delete_var_spec c v c' u : Inv c -> check_delete_var_step c v = ROk u c' -> Inv c' /\ delvar_eff c v c'.
Proof.
  intros I H. unfold check_delete_var_step in H.
  destruct (ctx_ensure_var_spec c v I) as (A1&A2&A3&A4&A5&A6&A7&A8).
  set (c1 := ctx_ensure_var c v) in *. clearbody c1.
  destruct (vget (var_datas (c_vars c1)) v) as [d|] eqn:VD; [|discriminate]. cbn [obind] in H.
  destruct (vd_user d); [discriminate|].
  destruct (vget (lit_count (c_vars c1)) (lit_from_var v false)) as [n0|] eqn:N0; [|discriminate]. cbn [obind] in H.
  destruct (N.ltb_spec 0 n0) as [|Z0]; [discriminate|].
  destruct (vget (lit_count (c_vars c1)) (lit_from_var v true)) as [n1|] eqn:N1; [|discriminate]. cbn [obind] in H.
  destruct (N.ltb_spec 0 n1) as [|Z1]; [discriminate|].
  destruct (vget (unit_clauses (c_clauses c1)) v) as [uo|] eqn:U; [|discriminate]. cbn [obind] in H.
  pose proof (inv_wf _ A1) as W.
  assert (NV : v < 2^31 -> forall a, In a (aclauses (c_clauses c)) -> forall l, In l (a_lits a) -> lit_var l <> v).
  { intros V31 a Ha l Hl E.
    apply (Permutation_in _ (Permutation_sym (sd_clauses _ _ A2))) in Ha.
    rewrite (lit_from_var_31 v false V31) in N0. rewrite (lit_from_var_31 v true V31) in N1.
    assert (n0 = 0) by lia. assert (n1 = 0) by lia. subst n0 n1.
    pose proof (wf_counts _ _ _ W _ _ N0) as C0. pose proof (wf_counts _ _ _ W _ _ N1) as C1.
    change (lit_var l) with (N.div2 l) in E. pose proof (div2_odd_eq l) as D. rewrite E in D. destruct (N.odd l).
    - apply (count_lit_zero _ _ (eq_sym C0) a Ha). rewrite <- D. exact Hl.
    - apply (count_lit_zero _ _ (eq_sym C1) a Ha). rewrite <- D. exact Hl. }
  assert (EM0 : emits c c1 []) by (apply emits_nil; exact A6).
  assert (UO : unit_of (c_clauses c) v = uo) by (rewrite <- (sd_units _ _ A2); unfold unit_of; rewrite U; destruct uo; reflexivity).
  assert (LU : v < vlen (unit_clauses (c_clauses c1))) by (rewrite (wf_len_units _ _ _ W); exact A4).
  destruct uo as [[i b]|].
  - destruct (wf_units _ _ _ W v (UC i b)) as (V31&id&Ei&IDL).
    { unfold unit_of. rewrite U. reflexivity. }
    cbn [uc_id] in Ei. subst i. cbn [uc_id uc_value] in H.
    rewrite (lit_from_var_31 v b V31) in H.
    destruct (process_step c1 _) as [[] c2| |] eqn:P; try discriminate. cbn [bind] in H. inversion H; subst; clear H.
    destruct (process_step_spec _ _ _ _ P) as [E EM].
    set (cl' := with_units (c_clauses c1) (vset (unit_clauses (c_clauses c1)) v None)).
    assert (W' : wf (c_hasher c1) cl' (c_vars c1)).
    { pose proof (unit_ids_remove _ _ _ _ U) as UR.
      apply (wf_same_clauses (c_hasher c1) (c_clauses c1) (c_vars c1)); auto; cbn [cl' with_units next_clause_id unit_clauses].
      - lia.
      - apply vset_len.
      - pose proof (wf_ids _ _ _ W) as ND. apply (Permutation_NoDup (Permutation_app_head _ (Permutation_sym UR))) in ND.
        apply NoDup_remove_1 in ND. exact ND.
      - intros w x Hw. fold cl' in Hw. unfold cl' in Hw. rewrite (unit_of_set (c_clauses c1) v None w LU) in Hw.
        destruct (v =? w); [discriminate|]. apply (wf_units _ _ _ W w x Hw). }
    split.
    + rewrite E. cbn [with_vars with_clauses with_proc c_vars c_clauses lit_count used_user_vars var_datas].
      destruct A1 as [a1 a2 a3 a4 a5]. constructor; auto. cbn [with_vars with_clauses with_proc c_hasher c_clauses c_vars].
      eapply wf_vars; [exact W'|reflexivity|]. unfold nvars. cbn [var_datas]. apply vset_len.
    + apply DV; auto; try rewrite E; cbn [with_vars with_clauses with_proc c_vars c_clauses c_state].
      * apply (sd_clauses _ _ A2).
      * intros w. rewrite (unit_of_set (c_clauses c1) v None w LU). destruct (v =? w); [reflexivity|]. apply (sd_units _ _ A2).
      * apply (sd_conflict _ _ A2).
      * apply (sd_next _ _ A2).
      * exact A5.
      * rewrite UO. pose proof (emits_trans _ _ _ _ _ EM0 EM) as X. rewrite E in X. destruct X. constructor; assumption.
  - cbn [bind] in H. inversion H; subst; clear H. split.
    + apply inv_vars; [exact A1|reflexivity|]. unfold nvars. cbn [var_datas]. apply vset_len.
    + apply DV; auto; cbn [with_vars c_clauses].
      * apply (sd_clauses _ _ A2).
      * intros w. destruct (N.eqb_spec v w) as [<-|]; [|apply (sd_units _ _ A2)]. rewrite (sd_units _ _ A2). exact UO.
      * apply (sd_conflict _ _ A2).
      * apply (sd_next _ _ A2).
      * rewrite UO. destruct EM0. constructor; assumption.
Qed.

Lemma add_user_spec c g n c' u : Inv c -> add_user_mapping c g n = ROk u c' ->
  Inv c' /\ step_eff c (UserVarName g (Some n)) c'.
Proof.
  intros I H. unfold add_user_mapping in H.
  destruct (ctx_ensure_var_spec c g I) as (A1&A2&A3&A4&A5&A6&A7&A8).
  set (c1 := ctx_ensure_var c g) in *. clearbody c1.
  destruct (_ || _); [discriminate|]. destruct (vget (var_datas (c_vars c1)) g) as [d|]; [|discriminate].
  destruct (mode_eqb (vd_mode d) Hide); [discriminate|]. destruct (vd_user d); [discriminate|].
  destruct (process_step_spec _ _ _ _ H) as [E EM]. rewrite E. split.
  - apply inv_with_proc, inv_vars; auto. unfold nvars. cbn [var_datas]. apply vset_len.
  - cbn [step_eff with_proc with_vars c_clauses c_state]. split; [exact A2|]. split; [exact A5|].
    eexists. split; [|constructor; [|constructor]].
    + eapply emits_proc; [exact EM|symmetry; exact A6|reflexivity].
    + exact Logic.I.
Qed.

Lemma remove_user_spec c g c' u : Inv c -> remove_user_mapping c g = ROk u c' ->
  Inv c' /\ step_eff c (UserVarName g None) c'.
Proof.
  intros I H. unfold remove_user_mapping in H.
  destruct (ctx_ensure_var_spec c g I) as (A1&A2&A3&A4&A5&A6&A7&A8).
  set (c1 := ctx_ensure_var c g) in *. clearbody c1.
  destruct (vget (var_datas (c_vars c1)) g) as [d|]; [|discriminate].
  destruct (vd_user d) as [user|]; [|discriminate].
  destruct (process_step c1 _) as [[] c2| |] eqn:P; try discriminate. cbn [bind] in H. inversion H; subst; clear H.
  destruct (process_step_spec _ _ _ _ P) as [E EM]. rewrite E. split.
  - apply (inv_vars (with_proc c1 (c_proc c2))); [apply inv_with_proc; exact A1|reflexivity|]. unfold nvars. cbn [var_datas]. apply vset_len.
  - cbn [step_eff with_proc with_vars c_clauses c_state]. split; [exact A2|]. split; [exact A5|].
    eexists. split; [|constructor; [|constructor]].
    + eapply emits_proc; [exact EM|symmetry; exact A6|reflexivity].
    + exact Logic.I.
Qed.

Lemma sampling_spec c v sample c' u : Inv c -> check_change_sampling_mode c v sample = ROk u c' ->
  Inv c' /\ step_eff c (ChangeSamplingMode v sample) c'.
Proof.
  intros I H. unfold check_change_sampling_mode in H.
  destruct (ctx_ensure_var_spec c v I) as (A1&A2&A3&A4&A5&A6&A7&A8).
  set (c1 := ctx_ensure_var c v) in *. clearbody c1.
  destruct (vget (var_datas (c_vars c1)) v) as [d|]; [|discriminate]. cbn [obind] in H.
  destruct (mode_eqb (vd_mode d) (if sample then Sample else Witness)).
  - inversion H; subst. split; [exact A1|]. split; [exact A2|]. split; [exact A5|]. exists []. split; [apply emits_nil; exact A6|constructor].
  - set (c2 := with_vars c1 _) in H.
    assert (I2 : Inv c2) by (apply inv_vars; auto; unfold nvars; cbn [var_datas]; apply vset_len).
    destruct (vd_user d) as [user|].
    + destruct (process_step_spec _ _ _ _ H) as [E EM]. rewrite E. split; [apply inv_with_proc, I2|].
      split; [exact A2|]. split; [exact A5|]. eexists. split; [|constructor; [|constructor]].
      * eapply emits_proc; [exact EM|symmetry; exact A6|reflexivity].
      * exact Logic.I.
    + destruct sample; [discriminate|]. inversion H; subst. split; [exact I2|]. split; [exact A2|]. split; [exact A5|].
      exists []. split; [apply emits_nil; exact A6|constructor].
Qed.

Lemma model_lits_spec us model : forall assigned r, model_lits us assigned model = Some (inl r) ->
  (forall x, In x assigned -> ~ In (lnot x) assigned) ->
  (forall x, In x r <-> In x assigned \/ In x model) /\ (forall x, In x r -> ~ In (lnot x) r) /\
  (forall l u, In l model -> vget us (lit_var l) = Some (Some u) -> uc_value u = is_positive l).
Proof.
  induction model as [|l model IH]; intros assigned r H C; cbn [model_lits] in H.
  - inversion H; subst. split; [intros x; cbn; tauto|]. split; [exact C|]. intros l u [].
  - rewrite lit_value_get in H. destruct (vget us (lit_var l)) as [uo|] eqn:V; [|discriminate].
    assert (UV : forall u, uo = Some u -> uc_value u = is_positive l).
    { intros u ->. destruct (xorb (uc_value u) (is_negative l)) eqn:X; [|discriminate].
      rewrite is_pos_neg. destruct (uc_value u), (is_negative l); cbn in *; congruence. }
    assert (H' : (if existsb (N.eqb (lnot l)) assigned then Some (inr MModelConflict) else model_lits us (l :: assigned) model) = Some (inl r)).
    { destruct uo as [u|]; [|exact H]. destruct (xorb (uc_value u) (is_negative l)); [exact H|discriminate]. }
    clear H. destruct (existsb (N.eqb (lnot l)) assigned) eqn:EX; [discriminate|]. apply memb_false in EX.
    destruct (IH _ _ H') as (B1&B2&B3).
    + intros x [<-|Hx] [E|Hn].
      * exact (lnot_neq _ (eq_sym E)).
      * exact (EX Hn).
      * apply EX. rewrite E, lnot_invol. exact Hx.
      * exact (C x Hx Hn).
    + split; [|split; [exact B2|]].
      * intros x. rewrite B1. cbn [In]. tauto.
      * intros x u [<-|Hx] Hv; [|eapply B3; eassumption]. rewrite V in Hv. inversion Hv. apply UV. assumption.
Qed.

Lemma model_clauses_spec buf assigned cs : (forall c, In c cs -> slice_ok buf c) -> model_clauses buf assigned cs = Some true ->
  forall c, In c cs -> exists l, In l (lits_of buf c) /\ In l assigned.
Proof.
  induction cs as [|c cs IH]; intros OK H d Hd; [destruct Hd|]. cbn [model_clauses] in H.
  rewrite (proj1 (OK c (or_introl eq_refl))) in H. destruct (existsb _ _) eqn:E; [|discriminate].
  destruct Hd as [<-|Hd]; [|apply IH; auto; intros x Hx; apply OK; right; exact Hx].
  apply existsb_exists in E. destruct E as (l&L1&L2). apply memb_iff in L2. eauto.
Qed.

Lemma model_spec c m c' u : Inv c -> check_model_step c m = ROk u c' -> Inv c' /\ step_eff c (Model m) c'.
Proof.
  intros I H. unfold check_model_step in H.
  destruct (model_lits _ _ _) as [[assigned|]|] eqn:ML; cbn [obind] in H; try discriminate.
  destruct (forallb _ (s_assumptions (c_state c))) eqn:FA; cbn [negb] in H; [|discriminate].
  destruct (model_clauses _ _ _) as [[|]|] eqn:MC; cbn [obind] in H; try discriminate.
  destruct (process_step_spec _ _ _ _ H) as [E EM].
  split; [rewrite E; apply inv_with_proc, I|].
  cbn [step_eff]. split; [rewrite E; apply same_db_refl|]. split; [rewrite E; reflexivity|]. split; [exact EM|].
  destruct (model_lits_spec _ _ _ _ ML) as (B1&B2&B3); [intros x []|].
  assert (B1' : forall x, In x assigned <-> In x m) by (intros x; rewrite B1; cbn; tauto).
  split; [|split; [|split]].
  - intros l Hl Hn. apply (B2 l); apply B1'; assumption.
  - intros l Hl w Hw. apply (B3 l w Hl). unfold unit_of in Hw. destruct (vget _ (lit_var l)) as [[x|]|]; try discriminate. congruence.
  - intros l Hl. apply B1'. rewrite forallb_forall in FA. apply memb_iff. apply (FA l Hl).
  - intros a Ha. unfold aclauses in Ha. apply in_map_iff in Ha. destruct Ha as (d&<-&Hd).
    destruct (model_clauses_spec _ _ _ (wf_slice _ _ _ (inv_wf _ I)) MC d Hd) as (l&L1&L2).
    exists l. split; [exact L1|]. apply B1'. exact L2.
Qed.

Lemma cube_clause a l : cube_holds a l = negb (clause_holds a (map lnot l)).
Proof.
  unfold cube_holds, clause_holds. induction l as [|x l IH]; [reflexivity|]. cbn [forallb map existsb].
  rewrite IH, lit_holds_lnot, negb_orb, negb_involutive. reflexivity.
Qed.

Lemma cube_ext a l1 l2 : (forall x, In x l1 <-> In x l2) -> cube_holds a l1 = cube_holds a l2.
Proof.
  intros H. apply eq_iff_eq_true. unfold cube_holds. rewrite !forallb_forall. split; intros X x Hx; apply X, H; exact Hx.
Qed.

Lemma failed_spec c core hashes c' u : Inv c -> check_failed_assumptions_step c core hashes = ROk u c' ->
  Inv c' /\ step_eff c (FailedAssumptions core hashes) c'.
Proof.
  intros I H. unfold check_failed_assumptions_step in H. rewrite canon_eq in H.
  destruct (is_subset (canon core) (s_assumptions (c_state c)) false) eqn:SUB; cbn [negb] in H; [|discriminate].
  apply is_subset_spec in SUB; [|apply canonical_sorted|apply (inv_assumptions _ I)]. destruct SUB as [SUB _].
  assert (CI : forall x, In x (canon core) <-> In x core) by (intros x; apply canonical_in).
  assert (SUB' : forall l, In l core -> In l (s_assumptions (c_state c))) by (intros l Hl; apply SUB, CI, Hl).
  destruct (taut core) eqn:T.
  - cbn [bind] in H. destruct (process_step_spec _ _ _ _ H) as [E EM].
    assert (I1 : Inv (with_rup c (Rup (r_trail (c_rup c)) (r_trace (c_rup c)) []))) by (destruct I; constructor; assumption).
    split; [rewrite E; apply inv_with_proc, I1|]. cbn [step_eff].
    split; [rewrite E; apply same_db_refl|]. split; [rewrite E; reflexivity|]. split; [exact SUB'|]. split.
    + intros a _. destruct (cube_holds a core) eqn:CH; [|reflexivity]. unfold cube_holds in CH. rewrite forallb_forall in CH.
      apply canonical_taut in T. destruct T as (x&X1&X2). pose proof (CH _ X1) as Y1. pose proof (CH _ X2) as Y2.
      rewrite lit_holds_lnot, Y1 in Y2. discriminate.
    + exists []. rewrite T. split; [|reflexivity]. destruct EM. constructor; assumption.
  - pose proof (check_clause_spec c (map lnot (canon core)) hashes I) as CC.
    destruct (check_clause_with_hashes c _ hashes) as [[] c1| |]; try discriminate. cbn [bind] in H.
    destruct CC as (I1&[r1 r2 r3 r4 r5]&SND&HNT). destruct (process_step_spec _ _ _ _ H) as [E EM].
    split; [rewrite E; apply inv_with_proc, I1|]. cbn [step_eff].
    split; [rewrite E; exact r1|]. split; [rewrite E; exact r2|]. split; [exact SUB'|]. split.
    + intros a Ha. rewrite <- (cube_ext a _ _ CI), cube_clause, (SND a Ha). reflexivity.
    + exists (r_trace_ids (c_rup c1)). rewrite T. split.
      * exact (emits_trans _ _ _ _ _ (emits_nil _ _ r3) EM).
      * intros db DB HP. apply HNT; auto. intros l Hl Hn. apply in_map_iff in Hl, Hn.
        destruct Hl as (x&<-&Hx), Hn as (y&Ey&Hy). apply lnot_inj in Ey. subst y.
        assert (X : taut core = true); [|congruence]. apply canonical_taut. exists x. split; apply CI; assumption.
Qed.

Theorem check_step_spec c s c' u : Inv c -> step_u32 s -> check_step c s = ROk u c' -> Inv c' /\ step_eff c s c'.
Proof.
  intros I U H. destruct s as [g [n|]|g [n|]|v|v b|cl|red cl hs|us|cl p|bits|m|l|core hs|]; cbn [check_step] in H; cbn [step_u32] in U.
  - inversion H; subst. split.
    + destruct I as [a b d e f]. constructor; auto. destruct a as [w1 w2 w3 w4 w5 w6 w7 w8 w9 w10 w11]. constructor; auto.
    + split; [apply same_db_refl|]. split; [reflexivity|]. exists []. split; [apply emits_nil; reflexivity|constructor].
  - inversion H; subst. split.
    + destruct I as [a b d e f]. constructor; auto. destruct a as [w1 w2 w3 w4 w5 w6 w7 w8 w9 w10 w11]. constructor; auto.
    + split; [apply same_db_refl|]. split; [reflexivity|]. exists []. split; [apply emits_nil; reflexivity|constructor].
  - eapply add_user_spec; eassumption.
  - eapply remove_user_spec; eassumption.
  - eapply delete_var_spec; eassumption.
  - eapply sampling_spec; eassumption.
  - eapply add_clause_spec; eassumption.
  - eapply at_clause_spec; eassumption.
  - eapply unit_clauses_spec; eassumption.
  - eapply delete_step_spec; eassumption.
  - destruct (rehash _ (c_clauses c)) as [[h cl]|] eqn:R; [|discriminate]. cbn [obind] in H. inversion H; subst; clear H.
    destruct I as [a b d e f].
    assert (SH : shuffles (Hasher bits (buffered_names (c_hasher c)) (rename_flag (c_hasher c)) (solver_names (c_hasher c)) (shuffle (c_hasher c)) (rehashes (c_hasher c)))) by exact d.
    destruct (rehash_spec _ _ _ _ _ _ a SH R) as (A&B&C&D&_). split; [constructor; auto|].
    split; [|split; [reflexivity|exists []; split; [apply emits_nil; reflexivity|constructor]]].
    destruct C as [C1 C2 C3]. constructor; auto. intros v. unfold unit_of. cbn [with_clauses with_hasher c_clauses]. rewrite C1. reflexivity.
  - eapply model_spec; eassumption.
  - destruct (ensure_sampling_vars c l) as [[] c1| |] eqn:ES; try discriminate. cbn [bind] in H.
    destruct (ensure_sampling_vars_spec _ _ _ _ I ES) as (I1&Q1&V1&P1&S1).
    destruct (process_step_spec _ _ _ _ H) as [E EM]. split.
    + rewrite E. apply inv_with_proc, inv_state; [exact I1|apply canonical_sorted|apply (inv_prev _ I1)].
    + split; [rewrite E; apply (q_db _ _ Q1)|]. split; [rewrite E; cbn [with_proc with_state c_state]; rewrite (q_state _ _ Q1); reflexivity|].
      cbn [with_state c_state with_assumptions s_assumptions] in EM. unfold canon.
      eapply emits_proc; [exact EM|symmetry; exact P1|reflexivity].
  - eapply failed_spec; eassumption.
  - inversion H; subst. split; [apply inv_state; auto; apply I|]. split; [apply same_db_refl|]. split; [reflexivity|apply emits_nil; reflexivity].
Qed.
