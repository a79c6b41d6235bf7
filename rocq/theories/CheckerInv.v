(** Structural invariant of the checker's clause store and variable tables. *)
From Coq Require Import Arith ZArith ZifyBool ZifyNat ZifyN Permutation Sorted.
From Verif Require Import Spec Lit LitProofs Vec SortedLits SortedLitsProofs Hash HashProofs Vli BinFormat Checker CheckerStore.

Definition nvars (vs : variables) : N := vlen (var_datas vs).
Definition unit_of (cl : clauses) (v : N) : option unit_clause :=
  match vget (unit_clauses cl) v with Some (Some u) => Some u | _ => None end.
Definition unit_ids (us : list (option unit_clause)) : list N :=
  flat_map (fun o => match o with Some (UC (Global id) _) => [id] | _ => [] end) us.
Definition lit_in (l : N) (ls : list N) : bool := existsb (N.eqb l) ls.
Definition sumN (l : list N) : N := fold_right N.add 0 l.
Definition count_lit (A : list aclause) (l : N) : N :=
  sumN (map (fun a => if lit_in l (a_lits a) then 1 else 0) A).

(** canonical, not a tautology, literals are 32-bit words *)
Definition good_lits (ls : list N) : Prop :=
  ssorted ls /\ (forall l, In l ls -> ~ In (lnot l) ls) /\ Forall (fun l => l < 2^32) ls.

Record good_clause (next nv : N) (a : aclause) : Prop := {
  gc_lits : good_lits (a_lits a);
  gc_len : (2 <= length (a_lits a))%nat;
  gc_vars : Forall (fun l => lit_var l < nv) (a_lits a);
  gc_refs : a_irr a <> 0 \/ a_red a <> 0;
  gc_id : a_id a < next;
}.

Record wf (h : hasher) (cl : clauses) (vs : variables) : Prop := {
  wf_keys : NoDup (map fst (cmap cl));
  wf_slice : forall c, In c (allc cl) -> slice_ok (literal_buffer cl) c;
  wf_hash : forall k cs c, In (k, cs) (cmap cl) -> In c cs ->
      hasher_hash h (lits_of (literal_buffer cl) c) = Some k;
  wf_clause : forall a, In a (aclauses cl) -> good_clause (next_clause_id cl) (nvars vs) a;
  wf_lits : NoDup (map a_lits (aclauses cl));
  wf_ids : NoDup (map a_id (aclauses cl) ++ unit_ids (unit_clauses cl));
  wf_units : forall v u, unit_of cl v = Some u ->
      v < 2^31 /\ exists id, uc_id u = Global id /\ id < next_clause_id cl;
  wf_len_units : vlen (unit_clauses cl) = nvars vs;
  wf_len_counts : vlen (lit_count vs) = 2 * nvars vs;
  wf_counts : forall l n, vget (lit_count vs) l = Some n -> n = count_lit (aclauses cl) l;
  wf_garbage : garbage_size cl + sumN (map (fun c => buffer_used (cc_lits c)) (allc cl)) = vlen (literal_buffer cl);
}.

Lemma lit_in_iff l ls : lit_in l ls = true <-> In l ls.
Proof.
  unfold lit_in. rewrite existsb_exists. split; [intros (x&H&E); apply N.eqb_eq in E; subst; exact H|].
  intros H. exists l. split; [exact H|apply N.eqb_refl].
Qed.

Lemma lit_in_false l ls : lit_in l ls = false <-> ~ In l ls.
Proof. rewrite <- lit_in_iff. destruct (lit_in l ls); split; congruence. Qed.

Lemma sumN_perm a b : Permutation a b -> sumN a = sumN b.
Proof. apply fold_add_perm. Qed.

Lemma count_lit_perm A B l : Permutation A B -> count_lit A l = count_lit B l.
Proof. intros H. apply sumN_perm. apply Permutation_map. exact H. Qed.

Lemma count_lit_cons a A l : count_lit (a :: A) l = (if lit_in l (a_lits a) then 1 else 0) + count_lit A l.
Proof. reflexivity. Qed.

Lemma count_lit_pos A a l : In a A -> In l (a_lits a) -> 0 < count_lit A l.
Proof.
  intros H Hl. apply in_split in H. destruct H as (A1&A2&->).
  rewrite (count_lit_perm _ (a :: A1 ++ A2)) by (symmetry; apply Permutation_middle).
  rewrite count_lit_cons. apply lit_in_iff in Hl. rewrite Hl. lia.
Qed.

Lemma count_lit_zero A l : count_lit A l = 0 -> forall a, In a A -> ~ In l (a_lits a).
Proof. intros H a Ha Hl. pose proof (count_lit_pos A a l Ha Hl). lia. Qed.

(** * Length of good clauses *)

Lemma ssorted_length l : forall lo hi, ssorted l -> Forall (fun x => lo <= x /\ x < hi) l ->
  N.of_nat (length l) + lo <= N.max lo hi.
Proof.
  induction l as [|x l IH]; intros lo hi S F; cbn [length]; [lia|].
  apply ssorted_cons in S. destruct S as [S1 S2]. inversion F as [|? ? [F1 F2] F3]; subst.
  specialize (IH (x + 1) hi S1). lapply IH; [lia|]. rewrite Forall_forall in *. intros y Hy.
  specialize (S2 y Hy). specialize (F3 y Hy). lia.
Qed.

Lemma lit_var_le a b : a <= b -> lit_var a <= lit_var b.
Proof.
  intros Hab. rewrite (lit_var_div a), (lit_var_div b). pose proof (div2_odd_eq a) as A. pose proof (div2_odd_eq b) as B.
  generalize dependent (N.div2 a). generalize dependent (N.div2 b). intros. destruct (N.odd a), (N.odd b); lia.
Qed.

Lemma good_vars_sorted ls : ssorted ls -> (forall l, In l ls -> ~ In (lnot l) ls) -> ssorted (map lit_var ls).
Proof.
  induction ls as [|x ls IH]; intros S T; [constructor|]. apply ssorted_cons in S. destruct S as [S1 S2].
  cbn [map]. apply ssorted_cons. split.
  - apply IH; [exact S1|]. intros l Hl Hn. apply (T l); right; assumption.
  - apply Forall_forall. intros v Hv. apply in_map_iff in Hv. destruct Hv as (y&<-&Hy).
    rewrite Forall_forall in S2. specialize (S2 y Hy).
    assert (lit_var x <= lit_var y) by (apply lit_var_le; lia).
    assert (lit_var x <> lit_var y); [|lia]. intros E. destruct (same_var_cases x y E) as [-> | ->]; [lia|].
    apply (T y); [right; exact Hy|left; reflexivity].
Qed.

Lemma lit_var_bound l : l < 2^32 -> lit_var l < 2^31.
Proof.
  intros Hl. rewrite lit_var_div.
  pose proof (div2_odd_eq l) as D. change (2^32) with 4294967296 in Hl. change (2^31) with 2147483648.
  generalize dependent (N.div2 l). intros. destruct (N.odd l); lia.
Qed.

Lemma good_length ls : good_lits ls -> N.of_nat (length ls) < 2^32.
Proof.
  intros (S&T&F). pose proof (good_vars_sorted ls S T) as V.
  pose proof (ssorted_length (map lit_var ls) 0 (2^31) V) as L. rewrite map_length in L.
  lapply L; [change (2^31) with 2147483648; change (2^32) with 4294967296; lia|].
  apply Forall_map. eapply Forall_impl; [|exact F]. intros l Hl. pose proof (lit_var_bound l Hl).
  cbv beta. split; [apply N.le_0_l|assumption].
Qed.

Lemma canonical_good src : Forall (fun l => l < 2^32) src -> snd (copy_canonical src) = false ->
  good_lits (fst (copy_canonical src)).
Proof.
  intros F T. split; [apply canonical_sorted|]. split.
  - intros l Hl Hn. assert (snd (copy_canonical src) = true); [|congruence].
    apply canonical_taut. exists l. split; apply (proj1 (canonical_in src _)); assumption.
  - rewrite Forall_forall in *. intros l Hl. apply (proj1 (canonical_in src _)) in Hl. auto.
Qed.

(** * New variables *)

Record ext (cl : clauses) (vs : variables) (cl' : clauses) (vs' : variables) : Prop := {
  ext_cmap : cmap cl' = cmap cl;
  ext_buffer : literal_buffer cl' = literal_buffer cl;
  ext_next : next_clause_id cl' = next_clause_id cl;
  ext_garbage : garbage_size cl' = garbage_size cl;
  ext_conflict : unit_conflict cl' = unit_conflict cl;
  ext_unit : forall v, unit_of cl' v = unit_of cl v;
  ext_uids : unit_ids (unit_clauses cl') = unit_ids (unit_clauses cl);
  ext_used : used_user_vars vs' = used_user_vars vs;
  ext_nv : nvars vs <= nvars vs';
  ext_old : forall v, v < nvars vs -> vget (var_datas vs') v = vget (var_datas vs) v;
  ext_fresh : forall v, nvars vs <= v -> v < nvars vs' -> vget (var_datas vs') v = Some vd_default;
  ext_units_get : forall v, v < nvars vs -> vget (unit_clauses cl') v = vget (unit_clauses cl) v;
}.

Lemma ext_refl cl vs : ext cl vs cl vs.
Proof. constructor; auto; intros; lia. Qed.

Lemma ext_trans cl vs cl1 vs1 cl2 vs2 : ext cl vs cl1 vs1 -> ext cl1 vs1 cl2 vs2 -> ext cl vs cl2 vs2.
Proof.
  intros A B. destruct A as [a1 a2 a3 a4 a5 a6 a7 a8 a9 a10 a11 a12], B as [b1 b2 b3 b4 b5 b6 b7 b8 b9 b10 b11 b12].
  constructor; try congruence; try lia.
  - intros v H. rewrite b10, a10 by lia. reflexivity.
  - intros v H1 H2. destruct (N.ltb_spec v (nvars vs1)); [rewrite b10, a11 by lia; reflexivity|apply b11; assumption].
  - intros v H. rewrite b12, a12 by lia. reflexivity.
Qed.

Lemma unit_ids_app a b : unit_ids (a ++ b) = unit_ids a ++ unit_ids b.
Proof. apply flat_map_app. Qed.

Lemma unit_ids_repeat_none n : unit_ids (repeat None n) = [].
Proof. induction n; cbn; auto. Qed.

Lemma vresize_unit_ids us n : vlen us <= n -> unit_ids (vresize us n None) = unit_ids us.
Proof.
  intros H. unfold vresize, vlen in *. rewrite firstn_all2 by lia. rewrite unit_ids_app, unit_ids_repeat_none. apply app_nil_r.
Qed.

Lemma aclauses_eq cl cl' : cmap cl' = cmap cl -> literal_buffer cl' = literal_buffer cl -> aclauses cl' = aclauses cl /\ allc cl' = allc cl.
Proof. intros A B. unfold aclauses, allc. rewrite A, B. auto. Qed.

Lemma ext_aclauses cl vs cl' vs' : ext cl vs cl' vs' -> aclauses cl' = aclauses cl.
Proof. intros H. apply aclauses_eq; apply H. Qed.

Lemma ensure_var_spec h cl vs v : wf h cl vs ->
  let '(cl', vs') := ensure_var cl vs v in wf h cl' vs' /\ ext cl vs cl' vs' /\ v < nvars vs'.
Proof.
  intros W. unfold ensure_var. destruct (N.leb_spec (vlen (var_datas vs)) v) as [L|L].
  - fold (nvars vs) in L. pose proof (wf_len_units h cl vs W) as LU. pose proof (wf_len_counts h cl vs W) as LC.
    set (cl' := with_units cl (vresize (unit_clauses cl) (v + 1) None)).
    set (vs' := Variables (vresize (lit_count vs) ((v + 1) * 2) 0) (vresize (var_datas vs) (v + 1) vd_default) (used_user_vars vs)).
    assert (NV : nvars vs' = v + 1) by (unfold nvars; cbn; apply vresize_len).
    assert (U : forall w, unit_of cl' w = unit_of cl w).
    { intros w. unfold unit_of. cbn [cl' with_units unit_clauses]. rewrite vget_resize by lia.
      destruct (N.ltb_spec w (vlen (unit_clauses cl))); [reflexivity|].
      rewrite (proj2 (vget_none (unit_clauses cl) w)) by assumption. destruct (w <? v + 1); reflexivity. }
    assert (UI : unit_ids (unit_clauses cl') = unit_ids (unit_clauses cl)) by (apply vresize_unit_ids; lia).
    assert (E : ext cl vs cl' vs').
    { constructor; auto.
      - lia.
      - intros w Hw. cbn [vs' var_datas]. unfold nvars in *. rewrite vget_resize by lia.
        destruct (N.ltb_spec w (vlen (var_datas vs))); [reflexivity|lia].
      - intros w H1 H2. cbn [vs' var_datas]. unfold nvars in *. rewrite vget_resize by lia.
        destruct (N.ltb_spec w (vlen (var_datas vs))); [lia|]. destruct (N.ltb_spec w (v + 1)); [reflexivity|].
        cbn [vs' var_datas] in H2. rewrite vresize_len in H2. lia.
      - intros w Hw. cbn [cl' with_units unit_clauses]. rewrite vget_resize by lia.
        destruct (N.ltb_spec w (vlen (unit_clauses cl))); [reflexivity|lia]. }
    split; [|split; [exact E|lia]].
    destruct W as [w1 w2 w3 w4 w5 w6 w7 w8 w9 w10 w11].
    constructor; auto.
    + intros a Ha. destruct (w4 a Ha). constructor; auto. eapply Forall_impl; [|eassumption]. cbn. intros; lia.
    + rewrite UI. exact w6.
    + intros w u. rewrite U. apply w7.
    + cbn [cl' with_units unit_clauses]. rewrite vresize_len. lia.
    + cbn [vs' lit_count]. rewrite vresize_len. lia.
    + intros l n. cbn [vs' lit_count]. rewrite vget_resize by lia.
      destruct (N.ltb_spec l (vlen (lit_count vs))) as [G|G]; [apply w10|].
      destruct (l <? (v + 1) * 2); [|discriminate]. intros H. inversion H; subst n.
      change (aclauses cl') with (aclauses cl). symmetry.
      assert (forall a, In a (aclauses cl) -> lit_in l (a_lits a) = false).
      { intros a Ha. apply lit_in_false. intros Hl. pose proof (gc_vars _ _ _ (w4 a Ha)) as F.
        rewrite Forall_forall in F. specialize (F l Hl). rewrite lit_var_div in F.
        pose proof (div2_odd_eq l) as D. generalize dependent (N.div2 l). intros. destruct (N.odd l); lia. }
      clear - H0. unfold count_lit. induction (aclauses cl) as [|a A IH]; [reflexivity|].
      cbn [map sumN fold_right]. rewrite (H0 a (or_introl eq_refl)). fold (sumN (map (fun a => if lit_in l (a_lits a) then 1 else 0) A)).
      rewrite IH; [reflexivity|]. intros; apply H0; right; assumption.
  - split; [exact W|]. split; [apply ext_refl|]. exact L.
Qed.

Lemma ensure_vars_spec h lits : forall cl vs, wf h cl vs ->
  let '(cl', vs') := ensure_vars cl vs lits in wf h cl' vs' /\ ext cl vs cl' vs' /\ Forall (fun l => lit_var l < nvars vs') lits.
Proof.
  unfold ensure_vars. induction lits as [|l lits IH]; intros cl vs W; cbn [fold_left].
  - split; [exact W|]. split; [apply ext_refl|constructor].
  - cbn [fst snd]. pose proof (ensure_var_spec h cl vs (lit_var l) W) as E.
    destruct (ensure_var cl vs (lit_var l)) as [cl1 vs1]. destruct E as (W1&E1&L1).
    specialize (IH cl1 vs1 W1). destruct (fold_left _ lits (cl1, vs1)) as [cl2 vs2]. destruct IH as (W2&E2&L2).
    split; [exact W2|]. split; [eapply ext_trans; eassumption|]. constructor; [|exact L2].
    pose proof (ext_nv _ _ _ _ E2). lia.
Qed.

(** * Units *)

Lemma lit_value_spec cl l : lit_var l < vlen (unit_clauses cl) ->
  lit_value (unit_clauses cl) l = Some (match unit_of cl (lit_var l) with
                                       | None => None
                                       | Some u => Some (xorb (uc_value u) (is_negative l), u)
                                       end).
Proof.
  intros H. apply vget_lt in H. destruct H as [x H]. unfold lit_value, unit_of. rewrite H. destruct x; reflexivity.
Qed.

Lemma unit_ids_in us id : In id (unit_ids us) <-> exists v b, vget us v = Some (Some (UC (Global id) b)).
Proof.
  unfold unit_ids. rewrite in_flat_map. split.
  - intros (o&Ho&Hi). destruct o as [[[j| |] b]|]; cbn in Hi; try tauto. destruct Hi as [<-|[]].
    apply in_vget in Ho. destruct Ho as [v Hv]. eauto.
  - intros (v&b&H). apply vget_in in H. exists (Some (UC (Global id) b)). split; [exact H|left; reflexivity].
Qed.

Lemma unit_of_ids cl id : In id (unit_ids (unit_clauses cl)) <-> exists v b, unit_of cl v = Some (UC (Global id) b).
Proof.
  rewrite unit_ids_in. unfold unit_of. split; intros (v&b&H); exists v, b.
  - rewrite H. reflexivity.
  - destruct (vget (unit_clauses cl) v) as [[u|]|]; try discriminate. congruence.
Qed.

Lemma unit_ids_vset us : forall v id b, vget us v = Some None ->
  Permutation (unit_ids (vset us v (Some (UC (Global id) b)))) (id :: unit_ids us).
Proof.
  intros v id b H. unfold vget, vset in *. generalize dependent (N.to_nat v). clear v.
  induction us as [|o us IH]; intros [|n] H; try discriminate; cbn [upd].
  - cbn in H. inversion H; subst. reflexivity.
  - cbn in H. specialize (IH n H).
    rewrite (unit_ids_app [o] (upd us n (Some (UC (Global id) b))) : unit_ids (o :: upd us n (Some (UC (Global id) b))) = _), (unit_ids_app [o] us : unit_ids (o :: us) = _).
    rewrite IH. symmetry. apply Permutation_middle.
Qed.

Lemma unit_ids_remove us : forall v id b, vget us v = Some (Some (UC (Global id) b)) ->
  Permutation (id :: unit_ids (vset us v None)) (unit_ids us).
Proof.
  intros v id b H. unfold vget, vset in *. generalize dependent (N.to_nat v). clear v.
  induction us as [|o us IH]; intros [|n] H; try discriminate; cbn [upd].
  - cbn in H. inversion H; subst. reflexivity.
  - cbn in H. specialize (IH n H).
    rewrite (unit_ids_app [o] (upd us n None) : unit_ids (o :: upd us n None) = _), (unit_ids_app [o] us : unit_ids (o :: us) = _).
    rewrite <- IH. apply Permutation_middle.
Qed.

Lemma unit_of_set cl v x w : v < vlen (unit_clauses cl) ->
  unit_of (with_units cl (vset (unit_clauses cl) v x)) w = if v =? w then x else unit_of cl w.
Proof.
  intros H. unfold unit_of. cbn [with_units unit_clauses]. rewrite vget_vset.
  destruct (N.eqb_spec v w) as [->|E]; cbn [andb]; [|reflexivity].
  destruct (N.ltb_spec w (vlen (unit_clauses cl))); [|lia]. destruct x; reflexivity.
Qed.

(** Effect of storing a clause. *)
Definition abump (red : bool) (a : aclause) : aclause :=
  if red then AC (a_id a) (a_irr a) (a_red a + 1) (a_lits a) else AC (a_id a) (a_irr a + 1) (a_red a) (a_lits a).
Definition adrop (red : bool) (a : aclause) : aclause :=
  if red then AC (a_id a) (a_irr a) (a_red a - 1) (a_lits a) else AC (a_id a) (a_irr a - 1) (a_red a) (a_lits a).
Definition acopies (red : bool) (a : aclause) : N := if red then a_red a else a_irr a.

Inductive store_eff (st : checker_state) (cl : clauses) (lits : list N) (red : bool)
  (st' : checker_state) (cl' : clauses) (id : N) (r : store_result) : Prop :=
| SE_empty :
    lits = [] -> st' = with_unsat st -> Permutation (aclauses cl') (aclauses cl) ->
    (forall v, unit_of cl' v = unit_of cl v) -> unit_conflict cl' = unit_conflict cl ->
    id = next_clause_id cl -> next_clause_id cl' = id + 1 -> r = SNew -> store_eff st cl lits red st' cl' id r
| SE_unit_dup l :
    lits = [l] -> st' = st -> Permutation (aclauses cl') (aclauses cl) ->
    (forall v, unit_of cl' v = unit_of cl v) -> unit_conflict cl' = unit_conflict cl ->
    unit_of cl (lit_var l) = Some (UC (Global id) (is_positive l)) ->
    next_clause_id cl' = next_clause_id cl -> r = SDuplicate -> store_eff st cl lits red st' cl' id r
| SE_unit_conflict l cid :
    lits = [l] -> st' = with_unsat st -> Permutation (aclauses cl') (aclauses cl) ->
    (forall v, unit_of cl' v = unit_of cl v) -> unit_conflict cl' = Some (cid, id) ->
    unit_of cl (lit_var l) = Some (UC (Global cid) (is_negative l)) ->
    id = next_clause_id cl -> next_clause_id cl' = id + 1 -> r = SNew -> store_eff st cl lits red st' cl' id r
| SE_unit_new l :
    lits = [l] -> st' = st -> Permutation (aclauses cl') (aclauses cl) ->
    unit_of cl (lit_var l) = None ->
    (forall v, unit_of cl' v = if lit_var l =? v then Some (UC (Global id) (is_positive l)) else unit_of cl v) ->
    unit_conflict cl' = unit_conflict cl ->
    id = next_clause_id cl -> next_clause_id cl' = id + 1 -> r = SNew -> store_eff st cl lits red st' cl' id r
| SE_found a B :
    (2 <= length lits)%nat -> st' = st -> Permutation (aclauses cl) (a :: B) -> a_lits a = lits ->
    Permutation (aclauses cl') (abump red a :: B) ->
    (forall v, unit_of cl' v = unit_of cl v) -> unit_conflict cl' = unit_conflict cl ->
    id = a_id a -> next_clause_id cl' = next_clause_id cl ->
    r = (if negb red && (a_irr a =? 0) then SNewlyIrredundant else SDuplicate) -> store_eff st cl lits red st' cl' id r
| SE_new :
    (2 <= length lits)%nat -> st' = st -> ~ In lits (map a_lits (aclauses cl)) ->
    Permutation (aclauses cl') (AC id (if red then 0 else 1) (if red then 1 else 0) lits :: aclauses cl) ->
    (forall v, unit_of cl' v = unit_of cl v) -> unit_conflict cl' = unit_conflict cl ->
    id = next_clause_id cl -> next_clause_id cl' = id + 1 -> r = SNew -> store_eff st cl lits red st' cl' id r.

Lemma is_pos_neg l : is_positive l = negb (is_negative l).
Proof. reflexivity. Qed.

Lemma wf_same_clauses h cl vs cl' :
  cmap cl' = cmap cl -> literal_buffer cl' = literal_buffer cl -> garbage_size cl' = garbage_size cl ->
  next_clause_id cl <= next_clause_id cl' -> vlen (unit_clauses cl') = vlen (unit_clauses cl) ->
  NoDup (map a_id (aclauses cl) ++ unit_ids (unit_clauses cl')) ->
  (forall v u, unit_of cl' v = Some u -> v < 2^31 /\ exists id, uc_id u = Global id /\ id < next_clause_id cl') ->
  wf h cl vs -> wf h cl' vs.
Proof.
  intros A B C D E F G [w1 w2 w3 w4 w5 w6 w7 w8 w9 w10 w11].
  destruct (aclauses_eq cl cl' A B) as [AE AL].
  constructor; rewrite ?AE, ?AL, ?A, ?B, ?C, ?E; auto.
  intros a Ha. destruct (w4 a Ha). constructor; auto. lia.
Qed.

Lemma store_unit_spec h st cl vs l st' cl' id r : wf h cl vs -> lit_var l < nvars vs -> l < 2^32 ->
  store_unit_clause st cl l = Some (st', cl', (id, r)) ->
  wf h cl' vs /\ store_eff st cl [l] false st' cl' id r /\ literal_buffer cl' = literal_buffer cl.
Proof.
  intros W L L32 H. unfold store_unit_clause in H. rewrite <- (wf_len_units h cl vs W) in L.
  rewrite (lit_value_spec cl l L) in H. destruct (unit_of cl (lit_var l)) as [u|] eqn:U.
  - destruct (wf_units h cl vs W _ _ U) as (V31&i&Ui&Ii). destruct u as [ui ub]. cbn [uc_id uc_value] in *. subst ui.
    destruct (xorb ub (is_negative l)) eqn:X.
    + inversion H; subst. split; [exact W|]. split; [|reflexivity]. eapply SE_unit_dup with (l := l); try reflexivity.
      rewrite U. repeat f_equal. rewrite is_pos_neg. destruct ub, (is_negative l); cbn in *; congruence.
    + inversion H; subst. split; [|split; [|reflexivity]].
      * apply (wf_same_clauses h cl vs); try reflexivity; auto; cbn [with_next_id with_conflict next_clause_id unit_clauses].
        -- lia.
        -- apply (wf_ids h cl vs W).
        -- intros v u Hu. change (unit_of cl v = Some u) in Hu. destruct (wf_units h cl vs W v u Hu) as (?&j&?&?).
           split; [assumption|]. exists j. split; [assumption|lia].
      * eapply SE_unit_conflict with (l := l) (cid := i); try reflexivity. rewrite U. repeat f_equal.
        destruct ub, (is_negative l); cbn in *; congruence.
  - inversion H; subst. clear H.
    assert (V : vget (unit_clauses cl) (lit_var l) = Some None).
    { apply vget_lt in L. destruct L as [x Hx]. unfold unit_of in U. rewrite Hx in *. destruct x; [discriminate|reflexivity]. }
    assert (UO : forall v, unit_of (with_next_id (with_units cl (vset (unit_clauses cl) (lit_var l) (Some (UC (Global (next_clause_id cl)) (is_positive l))))) (next_clause_id cl + 1)) v
       = if lit_var l =? v then Some (UC (Global (next_clause_id cl)) (is_positive l)) else unit_of cl v).
    { intros v. rewrite <- unit_of_set by exact L. reflexivity. }
    split; [|split; [|reflexivity]].
    + apply (wf_same_clauses h cl vs); try reflexivity; auto; cbn [with_next_id with_units next_clause_id unit_clauses].
      * lia.
      * apply vset_len.
      * rewrite (unit_ids_vset _ _ _ _ V). apply (Permutation_NoDup (Permutation_middle _ _ _)).
        constructor; [|apply (wf_ids h cl vs W)]. intros I. apply in_app_or in I. destruct I as [I|I].
        -- apply in_map_iff in I. destruct I as (a&E&Ha). pose proof (gc_id _ _ _ (wf_clause h cl vs W a Ha)). lia.
        -- apply unit_of_ids in I. destruct I as (v&b&Hv). destruct (wf_units h cl vs W _ _ Hv) as (_&j&E&?).
           cbn in E. inversion E; subst. lia.
      * intros v u Hu. rewrite UO in Hu. destruct (N.eqb_spec (lit_var l) v) as [<-|E].
        -- inversion Hu; subst. split; [apply lit_var_bound; exact L32|]. exists (next_clause_id cl). split; [reflexivity|lia].
        -- destruct (wf_units h cl vs W v u Hu) as (?&j&?&?). split; [assumption|]. exists j. split; [assumption|lia].
    + eapply SE_unit_new with (l := l); try reflexivity; assumption.
Qed.

(** * Counting *)

Lemma count_up_spec lits : forall counts counts', NoDup lits -> count_up counts lits = Some counts' ->
  vlen counts' = vlen counts /\
  (forall l n, vget counts l = Some n -> vget counts' l = Some (n + if lit_in l lits then 1 else 0)).
Proof.
  induction lits as [|x lits IH]; intros counts counts' ND H; cbn [count_up] in H.
  - inversion H; subst. split; [reflexivity|]. intros l n Hn. rewrite Hn. f_equal. cbn. lia.
  - inversion ND as [|? ? N1 N2]; subst. destruct (vget counts x) as [m|] eqn:G; [|discriminate].
    destruct (IH _ _ N2 H) as [A B]. rewrite vset_len in A. split; [exact A|].
    intros l n Hn. cbn [lit_in existsb]. fold (lit_in l lits). destruct (N.eqb_spec l x) as [->|E].
    + rewrite G in Hn. inversion Hn; subst. rewrite (B x (n + 1)).
      * apply lit_in_false in N1. rewrite N1. cbn. f_equal. lia.
      * apply vget_vset_eq. eapply vget_some_lt. exact G.
    + rewrite (B l n); [reflexivity|]. rewrite vget_vset_ne by congruence. exact Hn.
Qed.

Lemma count_up_some lits : forall counts, Forall (fun l => l < vlen counts) lits -> exists c', count_up counts lits = Some c'.
Proof.
  induction lits as [|x lits IH]; intros counts F; cbn [count_up]; [eauto|].
  inversion F; subst. destruct (proj1 (vget_lt counts x) ltac:(assumption)) as [n Hn]. rewrite Hn. apply IH.
  rewrite vset_len. assumption.
Qed.

Lemma count_down_spec lits : forall counts counts', NoDup lits -> count_down counts lits = Some counts' ->
  vlen counts' = vlen counts /\
  (forall l n, vget counts l = Some n -> vget counts' l = Some (n - if lit_in l lits then 1 else 0)).
Proof.
  induction lits as [|x lits IH]; intros counts counts' ND H; cbn [count_down] in H.
  - inversion H; subst. split; [reflexivity|]. intros l n Hn. rewrite Hn. f_equal. cbn. lia.
  - inversion ND as [|? ? N1 N2]; subst. destruct (vget counts x) as [m|] eqn:G; [|discriminate].
    destruct (m =? 0); [discriminate|].
    destruct (IH _ _ N2 H) as [A B]. rewrite vset_len in A. split; [exact A|].
    intros l n Hn. cbn [lit_in existsb]. fold (lit_in l lits). destruct (N.eqb_spec l x) as [->|E].
    + rewrite G in Hn. inversion Hn; subst. rewrite (B x (n - 1)).
      * apply lit_in_false in N1. rewrite N1. cbn. f_equal. lia.
      * apply vget_vset_eq. eapply vget_some_lt. exact G.
    + rewrite (B l n); [reflexivity|]. rewrite vget_vset_ne by congruence. exact Hn.
Qed.

Lemma count_down_some lits : forall counts, NoDup lits ->
  (forall l, In l lits -> exists n, vget counts l = Some n /\ n <> 0) -> exists c', count_down counts lits = Some c'.
Proof.
  induction lits as [|x lits IH]; intros counts ND F; cbn [count_down]; [eauto|].
  inversion ND as [|? ? N1 N2]; subst.
  destruct (F x (or_introl eq_refl)) as (n&Hn&Z). rewrite Hn. destruct (N.eqb_spec n 0); [congruence|]. apply IH; [exact N2|].
  intros l Hl. destruct (F l (or_intror Hl)) as (m&Hm&Zm). exists m. split; [|exact Zm].
  rewrite vget_vset_ne; [exact Hm|]. intros ->. contradiction.
Qed.
