(** How many variables the solver keeps: the counts of the names of the user, of the proof and
    of the search are bounded by the largest variable in the calls and the number of calls
    that hide a variable or ask for a new one. *)
From Coq Require Import List NArith Bool Lia Arith ZArith ZifyBool ZifyNat ZifyN.
From Verif Require Import Spec Lit LitProofs BinFormat Hash F32 Vsids VsidsProofs Luby Config Search SearchBase ClauseDb
  Analyze SolverCtx CtxFrame VarsProofs Solver P_Vars.
Import ListNotations.
Local Open Scope N_scope.

(** Every variable in use has a name below [n] or is one of [h] others. *)
Record bnd (n h : N) (v : vars) : Prop := {
  bd_ok : vars_ok v;
  bd_free : forall g, g < v_glen v -> vd_deleted (v_data v g) = true -> In g (v_gfree v);
  bd_in : forall g, In g (v_gfree v) -> g < v_glen v;
  bd_u : v_ulen v <= v_glen v;
  bd_s : v_slen v <= v_glen v;
  bd_g : v_glen v <= n + h;
  bd_x : exists X : list N, N.of_nat (length X) <= h /\
           forall g, vd_deleted (v_data v g) = false -> In g X \/ exists u, u < n /\ v_gu v u = Some g }.

Lemma vb_codes_in n : forall i x, In x (codes n i) <-> i <= x < i + N.of_nat n.
Proof.
  induction n as [|n IH]; intros i x; cbn [codes In]; [split; [intros []|lia]|]. rewrite IH. lia.
Qed.
Lemma vb_codes_len n : forall i, length (codes n i) = n.
Proof. induction n as [|n IH]; intros i; cbn [codes length]; [reflexivity|rewrite IH; reflexivity]. Qed.
Lemma vb_codes_nodup n : forall i, NoDup (codes n i).
Proof. induction n as [|n IH]; intros i; cbn [codes]; constructor; auto. intros H. apply vb_codes_in in H. lia. Qed.

Lemma nodup_map {A B} (f : A -> B) l : (forall a b, In a l -> In b l -> f a = f b -> a = b) -> NoDup l -> NoDup (map f l).
Proof.
  intros H ND. induction ND as [|x l NI ND IH]; cbn [map]; constructor.
  - intros I. apply in_map_iff in I as (y&E&I). apply NI. rewrite (H x y) by (cbn; auto). exact I.
  - apply IH. intros a b Ia Ib. apply H; cbn; auto.
Qed.

(** Distinct values of a map of the first [k] numbers, and one more, among the first [m] *)
Lemma room (f : N -> option N) k m g : (forall x, x < k -> exists y, f x = Some y /\ y < m /\ y <> g) ->
  (forall x x' y, f x = Some y -> f x' = Some y -> x = x') -> g < m -> k < m.
Proof.
  intros A J G. set (h := fun x => match f x with Some y => y | None => 0 end).
  assert (ND : NoDup (g :: map h (codes (N.to_nat k) 0))).
  { constructor.
    - intros I. apply in_map_iff in I as (x&E&I). apply vb_codes_in in I. destruct (A x) as (y&Ey&_&Ny); [lia|]. unfold h in E. rewrite Ey in E. congruence.
    - apply nodup_map; [|apply vb_codes_nodup]. intros a b Ia Ib E. apply vb_codes_in in Ia, Ib.
      destruct (A a) as (y&Ey&_); [lia|]. destruct (A b) as (z&Ez&_); [lia|]. unfold h in E. rewrite Ey, Ez in E. subst z. eapply J; eassumption. }
  assert (IN : incl (g :: map h (codes (N.to_nat k) 0)) (codes (N.to_nat m) 0)).
  { intros x [<-|I]; apply vb_codes_in; [lia|]. apply in_map_iff in I as (a&E&I). apply vb_codes_in in I. destruct (A a) as (y&Ey&Ly&_); [lia|].
    unfold h in E. rewrite Ey in E. subst y. lia. }
  pose proof (NoDup_incl_length ND IN) as L. cbn [length] in L. rewrite map_length, !vb_codes_len in L. lia.
Qed.

Lemma bnd_use n h v g : bnd n h v -> v_sg v g = None -> vd_deleted (v_data v g) = false -> bnd n h (v_use v g (next_solver v)).
Proof.
  intros [K F I0 Lu Ls Lg X] S D. constructor; cbn [v_use v_data v_glen v_gfree v_ulen v_slen v_gu]; try assumption.
  - apply v_use_ok; assumption.
  - assert (next_solver v < v_glen v); [|lia]. unfold next_solver. destruct (pick v (v_sfree v)) as [x|] eqn:P.
    + apply pick_in in P. apply (vo_sfree _ K) in P. lia.
    + apply pick_none in P. apply (room (v_gs v) _ _ g).
      * intros x L. destruct (v_gs v x) as [y|] eqn:E.
        -- exists y. split; [reflexivity|]. apply (vo_sg _ K) in E. split; [exact (vo_g _ K _ (vo_used _ K _ _ E))|congruence].
        -- exfalso. assert (I : In x (v_sfree v)) by (apply (vo_sfree _ K); auto). rewrite P in I. destruct I.
      * intros x x' y E E'. apply (vo_sg _ K) in E, E'. congruence.
      * exact (vo_g _ K _ D).
Qed.

Lemma bnd_quiet1 n h v v' : bnd n h v -> quiet1 v v' -> bnd n h v'.
Proof.
  intros B Q. pose proof (quiet_ok _ _ (bd_ok _ _ _ B) (quiet_one _ _ Q)) as K'. destruct Q as [v g d E1 E2|v g S D|v x g E|v x g E Ug M Is].
  - destruct B as [K F I0 Lu Ls Lg (X&LX&HX)].
    assert (ED : forall y, vd_deleted (upd (v_data v) g d y) = vd_deleted (v_data v y)).
    { intros y. unfold upd. destruct (N.eqb_spec y g) as [->|]; [exact E1|reflexivity]. }
    constructor; cbn [v_put set_data v_data v_glen v_gfree v_ulen v_slen v_gu]; try assumption.
    + intros y. rewrite ED. apply F.
    + exists X. split; [exact LX|]. intros y. rewrite ED. apply HX.
  - apply bnd_use; assumption.
  - destruct B as [K F I0 Lu Ls Lg X]. constructor; cbn [v_unuse v_data v_glen v_gfree v_ulen v_slen v_gu]; assumption.
  - destruct B as [K F I0 Lu Ls Lg (X&LX&HX)]. constructor; cbn [v_drop v_unuse v_data v_glen v_gfree v_ulen v_slen v_gu]; try assumption.
    + intros y Ly. rewrite in_insert_n. unfold upd. destruct (N.eqb_spec y g) as [->|]; [auto|]. intros H. right. auto.
    + intros y. rewrite in_insert_n. intros [->|H]; [|auto]. apply (vo_sg _ K) in E. exact (vo_g _ K _ (vo_used _ K _ _ E)).
    + exists X. split; [exact LX|]. intros y. unfold upd. destruct (N.eqb_spec y g) as [->|]; [discriminate|apply HX].
Qed.
Lemma bnd_quiet n h v v' : bnd n h v -> quiet v v' -> bnd n h v'.
Proof. intros B Q. induction Q as [v|v v1 v' Q1 Q IH]; [exact B|]. apply IH. eapply bnd_quiet1; eassumption. Qed.
Lemma bnd_frame n h c c' : bnd n h (c_v c) -> frame c c' -> bnd n h (c_v c').
Proof. intros B F. eapply bnd_quiet; [exact B|apply frame_quiet; exact F]. Qed.
Lemma bnd_more n h h' v : bnd n h v -> h <= h' -> bnd n h' v.
Proof. intros [K F I0 Lu Ls Lg (X&LX&HX)] L. constructor; try assumption; [lia|]. exists X. split; [lia|exact HX]. Qed.

(** A new variable for the name [u] *)
Lemma fresh_le n h v u : bnd n h v -> u <= v_ulen v -> fresh_global v u <= v_glen v.
Proof.
  intros B L. pose proof (bd_u _ _ _ B). unfold fresh_global. destruct (N.ltb_spec u (v_glen v)); [|lia]. destruct (vd_deleted (v_data v u)); [lia|].
  unfold next_global. destruct (pick v (v_gfree v)) as [x|] eqn:P; [|lia]. apply pick_in in P. pose proof (bd_in _ _ _ B _ P). lia.
Qed.
Lemma bnd_add_any n h h' v u : bnd n h v -> v_gu v u = None -> u <= v_ulen v ->
  fresh_global v u < n + h' -> h <= h' -> (u < n \/ h < h') -> bnd n h' (v_add v u (fresh_global v u)).
Proof.
  intros B E L LG LH W. pose proof (fresh_global_deleted v u (bd_ok _ _ _ B)) as D. pose proof (fresh_le _ _ _ _ B L) as FL.
  destruct B as [K F I0 Lu Ls Lg (X&LX&HX)].
  constructor; cbn [v_add v_data v_glen v_gfree v_ulen v_slen v_gu].
  - apply v_add_ok; assumption.
  - intros g Lg'. rewrite in_remove_n. unfold upd. destruct (N.eqb_spec g (fresh_global v u)) as [->|NE]; [discriminate|]. intros H. split; [|exact NE].
    apply F; [lia|exact H].
  - intros g. rewrite in_remove_n. intros [H _]. apply I0 in H. lia.
  - unfold fresh_global in *. destruct (N.ltb_spec u (v_glen v)); [|lia]. destruct (vd_deleted (v_data v u)); lia.
  - lia.
  - lia.
  - destruct (N.ltb_spec u n) as [Lun|Gun].
    + exists X. split; [lia|]. intros g. unfold upd. destruct (N.eqb_spec g (fresh_global v u)) as [->|NE].
      * intros _. right. exists u. split; [exact Lun|]. rewrite N.eqb_refl. reflexivity.
      * intros H. destruct (HX g H) as [I|(w&Lw&Ew)]; [auto|]. right. exists w. split; [exact Lw|]. destruct (N.eqb_spec w u); [congruence|exact Ew].
    + exists (fresh_global v u :: X). split; [cbn [length]; lia|]. intros g. unfold upd. destruct (N.eqb_spec g (fresh_global v u)) as [->|NE]; [cbn; auto|].
      intros H. destruct (HX g H) as [I|(w&Lw&Ew)]; [cbn; auto|]. right. exists w. split; [exact Lw|]. destruct (N.eqb_spec w u); [congruence|exact Ew].
Qed.
(** If none can be recycled then all are in use, and fewer than [n + h] are as [u] names none. *)
Lemma bnd_add n h v u : bnd n h v -> v_gu v u = None -> u <= v_ulen v -> u < n -> bnd n h (v_add v u (fresh_global v u)).
Proof.
  intros B E L Lu. apply (bnd_add_any n h); auto; [|lia]. pose proof (bd_g _ _ _ B). unfold fresh_global.
  destruct (N.ltb_spec u (v_glen v)); [|lia]. destruct (vd_deleted (v_data v u)); [lia|].
  unfold next_global. destruct (pick v (v_gfree v)) as [x|] eqn:P; [apply pick_in in P; pose proof (bd_in _ _ _ B _ P); lia|].
  apply pick_none in P. destruct (bd_x _ _ _ B) as (X&LX&HX).
  set (f := fun w => match v_gu v w with Some g => g | None => 0 end).
  set (ws := codes (N.to_nat u) 0 ++ codes (N.to_nat (n - 1 - u)) (u + 1)).
  assert (IN : incl (codes (N.to_nat (v_glen v)) 0) (X ++ map f ws)).
  { intros g I. apply vb_codes_in in I. apply in_or_app. destruct (vd_deleted (v_data v g)) eqn:D.
    - apply (bd_free _ _ _ B) in D; [|lia]. rewrite P in D. destruct D.
    - destruct (HX g D) as [J|(w&Lw&Ew)]; [auto|]. right. apply in_map_iff. exists w. unfold f. rewrite Ew. split; [reflexivity|].
      apply in_or_app. rewrite !vb_codes_in. assert (w <> u) by congruence. lia. }
  pose proof (NoDup_incl_length (vb_codes_nodup _ _) IN) as Q. unfold ws in Q. rewrite app_length, map_length, app_length, !vb_codes_len in Q. lia.
Qed.
Lemma bnd_hide n h v u g : bnd n h v -> v_gu v u = Some g -> bnd n (h + 1) (v_hide v u g).
Proof.
  intros [K F I0 Lu Ls Lg (X&LX&HX)] E. pose proof (v_hide_ok _ _ _ K E) as K'.
  assert (ED : forall y, vd_deleted (upd (v_data v) g (vd_set_mode (v_data v g) Hide) y) = vd_deleted (v_data v y)).
  { intros y. unfold upd. destruct (N.eqb_spec y g) as [->|]; reflexivity. }
  constructor; cbn [v_hide v_data v_glen v_gfree v_ulen v_slen v_gu]; try assumption.
  - intros y. rewrite ED. apply F.
  - lia.
  - exists (g :: X). split; [cbn [length]; lia|]. intros y. rewrite ED. intros H. destruct (HX y H) as [I|(w&Lw&Ew)]; [cbn; auto|].
    unfold upd. destruct (N.eq_dec w u) as [->|NE]; [left; left; congruence|]. right. exists w. split; [exact Lw|]. destruct (N.eqb_spec w u); [congruence|exact Ew].
Qed.
Lemma bnd_drop n h v g : bnd n h v -> v_ug v g = None -> v_sg v g = None -> vd_deleted (v_data v g) = false -> bnd n h (v_drop v g).
Proof.
  intros [K F I0 Lu Ls Lg (X&LX&HX)] U S D. pose proof (v_drop_ok _ _ K U S) as K'.
  constructor; cbn [v_drop v_data v_glen v_gfree v_ulen v_slen v_gu]; try assumption.
  - intros y Ly. rewrite in_insert_n. unfold upd. destruct (N.eqb_spec y g) as [->|]; [auto|]. intros H. right. auto.
  - intros y. rewrite in_insert_n. intros [->|H]; [|auto]. exact (vo_g _ K _ D).
  - exists X. split; [exact LX|]. intros y. unfold upd. destruct (N.eqb_spec y g) as [->|]; [discriminate|apply HX].
Qed.
Lemma bnd_hidden n h v v' u g : bnd n h v -> v_gu v u = Some g -> hidden v v' u g -> bnd n (h + 1) v'.
Proof.
  intros B E [->|(S&I&->)]; [apply bnd_hide; assumption|]. pose proof (bd_ok _ _ _ B) as K. apply bnd_drop; [apply bnd_hide; assumption| | |].
  - cbn [v_hide v_ug]. unfold upd. rewrite N.eqb_refl. reflexivity.
  - exact S.
  - cbn [v_hide v_data]. unfold upd. rewrite N.eqb_refl. cbn [vd_set_mode vd_deleted]. apply (vo_ug _ K) in E. exact (vo_named _ K _ _ E).
Qed.
Lemma bnd_show n h v g m : bnd n h v -> m <> Hide -> vd_deleted (v_data v g) = false -> vd_mode (v_data v g) = Hide -> bnd n h (v_show v (next_user v) g m).
Proof.
  intros [K F I0 Lu Ls Lg (X&LX&HX)] M D O. pose proof (v_show_next_ok _ _ _ K M D O) as K'.
  assert (ED : forall y, vd_deleted (upd (v_data v) g (vd_set_mode (v_data v g) m) y) = vd_deleted (v_data v y)).
  { intros y. unfold upd. destruct (N.eqb_spec y g) as [->|]; reflexivity. }
  assert (R : next_user v < v_glen v).
  { unfold next_user. destruct (pick v (v_ufree v)) as [x|] eqn:P.
    - apply pick_in in P. apply (vo_ufree _ K) in P. lia.
    - apply pick_none in P. apply (room (v_gu v) _ _ g).
      + intros u L. destruct (v_gu v u) as [y|] eqn:E.
        * exists y. split; [reflexivity|]. apply (vo_ug _ K) in E. split; [exact (vo_g _ K _ (vo_named _ K _ _ E))|]. intros ->. apply (vo_mode _ K g D) in O. congruence.
        * exfalso. assert (I : In u (v_ufree v)) by (apply (vo_ufree _ K); auto). rewrite P in I. destruct I.
      + intros x x' y E E'. apply (vo_ug _ K) in E, E'. congruence.
      + exact (vo_g _ K _ D). }
  destruct (next_user_free _ K) as [NF _].
  constructor; cbn [v_show bind_user v_put set_data v_data v_glen v_gfree v_ulen v_slen v_gu]; try assumption.
  - intros y. rewrite ED. apply F.
  - lia.
  - exists X. split; [exact LX|]. intros y. rewrite ED. intros H. destruct (HX y H) as [I|(w&Lw&Ew)]; [auto|]. right. exists w. split; [exact Lw|].
    unfold upd. destruct (N.eqb_spec w (next_user v)); [congruence|exact Ew].
Qed.

(** * The calls *)
Lemma gfu1_bnd n h user rs c : bnd n h (c_v c) -> user <= v_ulen (c_v c) -> user < n ->
  post (global_from_user1 user rs c) (fun '(c', g) => bnd n h (c_v c') /\ v_gu (c_v c') user = Some g /\ v_ulen (c_v c') = N.max (v_ulen (c_v c)) (user + 1)).
Proof.
  intros B L U [c' g] E. pose proof (spec_get _ _ _ (global_from_user1_spec user rs c (bd_ok _ _ _ B) L) E) as (G&[[H ->]|(H&->&F)]).
  - split; [exact B|]. split; [exact G|]. pose proof (vo_u _ (bd_ok _ _ _ B) _ _ H). lia.
  - pose proof (frame_v _ _ F) as EV. cbn [cw_v c_v] in EV. rewrite EV in *. split; [apply bnd_add; assumption|]. split; [exact G|reflexivity].
Qed.
Lemma fill_bnd n h k : forall c, bnd n h (c_v c) -> v_ulen (c_v c) + N.of_nat k <= n ->
  post (fill_users k c) (fun c' => bnd n h (c_v c') /\ v_ulen (c_v c') = v_ulen (c_v c) + N.of_nat k).
Proof.
  induction k as [|k IH]; intros c B L; cbn [fill_users]; [apply post_ret; split; [exact B|lia]|].
  eapply post_bind; [apply (gfu1_bnd n h); [exact B|lia|lia]|]. intros [c1 g] (B1&_&L1).
  eapply post_weaken; [apply IH; [exact B1|lia]|]. intros c' (B'&L'). split; [exact B'|lia].
Qed.
Lemma gfu_bnd n h user rs c : bnd n h (c_v c) -> user < n ->
  post (global_from_user user rs c) (fun '(c', g) => bnd n h (c_v c') /\ v_gu (c_v c') user = Some g).
Proof.
  intros B U. unfold global_from_user. destruct (N.le_gt_cases user (v_ulen (c_v c))) as [L|L].
  - replace (N.to_nat (user - v_ulen (c_v c))) with 0%nat by lia. cbn [fill_users bind].
    eapply post_weaken; [apply (gfu1_bnd n h); assumption|]. intros [c' g] (B'&E&_). auto.
  - eapply post_bind; [apply (fill_bnd n h); [exact B|lia]|]. intros c1 (B1&L1).
    eapply post_weaken; [apply (gfu1_bnd n h); [exact B1|lia|exact U]|]. intros [c' g] (B'&E&_). auto.
Qed.
Lemma sfu_bnd n h rs l : Forall (fun x => lit_var x < n) l -> forall c, bnd n h (c_v c) ->
  post (solver_from_user_lits l rs c) (fun r => bnd n h (c_v (fst r))).
Proof.
  induction 1 as [|x l Hx Hl IH]; intros c B; cbn [solver_from_user_lits]; [apply post_ret; exact B|].
  eapply post_bind with (P := fun r => bnd n h (c_v (fst r))).
  - unfold solver_from_user. eapply post_bind; [apply (gfu_bnd n h); assumption|]. intros [c1 g] (B1&E).
    eapply post_weaken; [apply solver_from_global_quiet|].
    + pose proof (bd_ok _ _ _ B1) as K. apply (vo_named _ K g (lit_var x)). apply (vo_ug _ K). exact E.
    + intros r [Q _]. eapply bnd_quiet; eassumption.
  - intros [c1 y] B1. eapply post_bind; [apply IH; exact B1|]. intros [c2 r] B2. apply post_ret. exact B2.
Qed.
Lemma load_bnd n h l c : bnd n h (c_v c) -> Forall (fun x => lit_var x < n) l -> post (load_clause l c) (fun c' => bnd n h (c_v c')).
Proof.
  intros B Hl. unfold load_clause.
  assert (R : forall c1 : ctx, c_v c1 = c_v c -> post
    (do (c, lits) <- solver_from_user_lits l true c1 ;
      let lits := dedup_n (sort_n lits) in
      do c <- proof_add_clause lits c ;
      if tautology lits then Ret c
      else
        do c <- (if Nat.ltb 1 (length lits) then map_data_lits lits (fun d => vd_set_isolated d false) c
                 else Ret c) ;
        let '(kept, false_lits, clause_is_true) := scan_lits (c_s c) lits in
        let will_conflict := match kept with [] => true | _ => false end in
        let c := cw_s c (fold_left (fun s l => resurrect_unit s (lnot l)) false_lits (c_s c)) in
        let lits := kept ++ false_lits in
        if clause_is_true then
          if Nat.ltb 1 (length lits) then add_step true (DeleteClause lits DSatisfied) c else Ret c
        else
          match lits with
          | [] => Ret (set_sat c Unsat)
          | [lit] => if will_conflict then Ret (set_sat c Unsat)
                     else Ret (cw_s c (enqueue (c_s c) lit RUnit))
          | [l0; l1] => Ret (add_binary_clause l0 l1 c)
          | _ => do (c, _) <- db_add_clause (set_tier hdr_new Irred) lits c ; Ret c
          end) (fun c' => bnd n h (c_v c'))).
  { intros c1 E1. eapply post_bind; [apply (sfu_bnd n h); [exact Hl|rewrite E1; exact B]|]. intros [c2 lits] B2. cbn [fst] in B2. cbv zeta.
    eapply q_bind with (c := c2); [eapply post_weaken; [apply proof_add_clause_post|]; intros c' F; apply frame_quiet; exact F|].
    intros c3 Q3. apply (bnd_quiet _ _ _ _ B2) in Q3. destruct (tautology _); [apply post_ret; exact Q3|].
    eapply q_bind with (c := c3).
    { destruct (Nat.ltb _ _); [apply q_data_lits; intros d; split; reflexivity|apply q_ret; apply q_refl]. }
    intros c4 Q4. apply (bnd_quiet _ _ _ _ Q3) in Q4. destruct (scan_lits _ _) as [[kept fl] found]. cbv zeta. destruct found.
    { destruct (Nat.ltb _ _); [|apply post_ret; exact Q4]. eapply post_weaken; [apply q_add_step|]. intros c5 Q5. eapply bnd_quiet; [exact Q4|exact Q5]. }
    destruct (kept ++ fl) as [|a [|b [|d r]]]; try (apply post_ret; exact Q4); [destruct kept; apply post_ret; exact Q4|].
    eapply q_bind2; [apply q_db_add|]. intros c5 x Q5. apply post_ret. eapply bnd_quiet; [exact Q4|exact Q5]. }
  destruct (st_sat (c_st c)); cbv zeta; try (apply post_ret; exact B); apply R; rewrite v_full_restart; reflexivity.
Qed.
Lemma assume_bnd n h l c : bnd n h (c_v c) -> Forall (fun x => lit_var x < n) l -> post (set_assumptions l c) (fun c' => bnd n h (c_v c')).
Proof.
  intros B Hl. unfold set_assumptions. cbv zeta.
  set (c1 := match st_sat (c_st (full_restart c)) with Unsat => _ | _ => _ end).
  assert (E1 : c_v c1 = c_v c) by (unfold c1; destruct (st_sat _); cbn; apply v_full_restart). clearbody c1.
  eapply q_bind; [apply q_data_lits; intros d; split; reflexivity|]. intros c2 Q2. rewrite E1 in Q2. apply (bnd_quiet _ _ _ _ B) in Q2.
  eapply post_bind; [apply (sfu_bnd n h); [exact Hl|exact Q2]|]. intros [c3 lits] B3. cbn [fst] in B3.
  eapply q_bind; [apply q_data_lits; intros d; split; reflexivity|]. intros c4 Q4. cbn [cw_as c_v] in Q4. apply (bnd_quiet _ _ _ _ B3) in Q4.
  eapply post_weaken; [apply q_add_step|]. intros c5 Q5. eapply bnd_quiet; [exact Q4|exact Q5].
Qed.
Lemma mode_bnd n h u m c : bnd n h (c_v c) -> u < n -> post (change_mode u m c) (fun c' => bnd n (if smode_eqb m Hide then h + 1 else h) (c_v c')).
Proof.
  intros B U. unfold change_mode. eapply post_bind; [apply (gfu_bnd n h); assumption|]. intros [c1 g] (B1&G).
  pose proof (bd_ok _ _ _ B1) as K. pose proof (vo_named _ K g u (proj1 (vo_ug _ K u g) G)) as D.
  eapply post_bind; [intros r E; exact (spec_get _ _ _ (set_sampling_mode_spec g m c1 K D) E)|]. intros [c2 r] H. apply post_ret.
  assert (M : bnd n (if smode_eqb m Hide then h + 1 else h) (c_v c1)) by (eapply bnd_more; [exact B1|destruct (smode_eqb m Hide); lia]).
  destruct H as [(_ & -> & _)|(NE & As & [(O & M' & _ & F)|[(O & _ & F)|(-> & _ & w & v' & W & Hd & F)]])]; [exact M| | |].
  - rewrite (frame_v _ _ F). cbn [cw_v c_v]. destruct M as [K1 F1 I1 Lu Ls Lg (X&LX&HX)].
    assert (ED : forall y, vd_deleted (upd (v_data (c_v c1)) g (vd_set_mode (v_data (c_v c1) g) m) y) = vd_deleted (v_data (c_v c1) y)).
    { intros y. unfold upd. destruct (N.eqb_spec y g) as [->|]; reflexivity. }
    constructor; cbn [v_put set_data v_data v_glen v_gfree v_ulen v_slen v_gu]; try assumption.
    + apply v_put_ok; [exact K1|reflexivity|]. intros _. cbn [vd_set_mode vd_mode]. tauto.
    + intros y. rewrite ED. apply F1.
    + exists X. split; [exact LX|]. intros y. rewrite ED. apply HX.
  - exfalso. apply (vo_mode _ K g D) in O. apply (vo_ug _ K) in G. congruence.
  - cbn [smode_eqb]. rewrite (frame_v _ _ F). cbn [cw_v c_v]. eapply bnd_hidden; eassumption.
Qed.
Lemma observe_bnd n h k : forall g c, bnd n h (c_v c) -> post (observe_loop k g c) (fun r => bnd n h (c_v (fst r))).
Proof.
  induction k as [|k IH]; intros g c B; cbn [observe_loop]; [apply post_ret; exact B|]. cbv zeta.
  destruct (negb (vd_deleted (v_data (c_v c) g)) && smode_eqb (vd_mode (v_data (c_v c) g)) Hide) eqn:T; [|apply IH; exact B].
  apply andb_prop in T. destruct T as [T1 T2]. apply Bool.negb_true_iff in T1.
  assert (M : vd_mode (v_data (c_v c) g) = Hide) by (destruct (vd_mode (v_data (c_v c) g)); try discriminate; reflexivity).
  eapply post_bind; [intros r E; exact (spec_get _ _ _ (set_sampling_mode_spec g Witness c (bd_ok _ _ _ B) T1) E)|]. intros [c1 r] H.
  destruct H as [(X & _)|(NE & As & [(O & _)|[(O & -> & F)|(X & _)]])]; try congruence.
  eapply post_bind; [apply IH|intros [c2 l] B2; apply post_ret; exact B2].
  rewrite (frame_v _ _ F). cbn [cw_v c_v]. apply bnd_show; auto; discriminate.
Qed.
Lemma new_bnd n h c : bnd n h (c_v c) -> post (new_user_var c) (fun r => bnd n (h + 1) (c_v (fst r))).
Proof.
  intros B. unfold new_user_var. cbv zeta. pose proof (bd_ok _ _ _ B) as K. destruct (next_user_free _ K) as [NF L]. set (u := next_user (c_v c)) in *.
  eapply post_bind with (P := fun r => bnd n (h + 1) (c_v (fst r))); [|intros [c1 g] B1; apply post_ret; exact B1].
  unfold global_from_user. replace (N.to_nat (u - v_ulen (c_v c))) with 0%nat by lia. cbn [fill_users bind].
  intros [c' g] E. pose proof (spec_get _ _ _ (global_from_user1_spec u false c K L) E) as (G&[[H ->]|(H&->&F)]); [congruence|].
  cbn [fst]. rewrite (frame_v _ _ F). cbn [cw_v c_v]. apply (bnd_add_any n h); auto; try lia.
  pose proof (fresh_le _ _ _ u B L). pose proof (bd_g _ _ _ B). lia.
Qed.

(** The variables that a call names are below [n]. *)
Definition named_below (n : N) (k : call) : Prop :=
  match k with
  | CAdd l | CAssume l => Forall (fun x => lit_var x < n) l
  | CWitness u | CSample u | CHide u => u < n
  | _ => True
  end.
(** How many of the calls hide a variable or ask for a new one *)
Definition extra (k : call) : N := match k with CHide _ | CNewVar => 1 | _ => 0 end.
Fixpoint extras (ks : list call) : N := match ks with [] => 0 | k :: ks => extra k + extras ks end.

Lemma run_bnd n h fuel k c : bnd n h (c_v c) -> named_below n k -> post (run fuel k c) (fun r => bnd n (h + extra k) (c_v (fst r))).
Proof.
  intros B K. destruct k; cbn [run extra named_below] in *; rewrite ?N.add_0_r.
  - eapply post_bind; [apply (load_bnd n h); assumption|]. intros c' B'. apply post_ret. exact B'.
  - eapply post_bind; [apply (new_bnd n h); exact B|]. intros [c' u] B'. apply post_ret. exact B'.
  - eapply post_bind; [apply (mode_bnd n h); assumption|]. intros c' B'. apply post_ret. exact B'.
  - eapply post_bind; [apply (mode_bnd n h); assumption|]. intros c' B'. apply post_ret. exact B'.
  - eapply post_bind; [apply (mode_bnd n h); assumption|]. intros c' B'. apply post_ret. exact B'.
  - eapply post_bind; [apply (observe_bnd n h); exact B|]. intros [c' l] B'. apply post_ret. exact B'.
  - eapply post_bind; [apply (assume_bnd n h); assumption|]. intros c' B'. apply post_ret. exact B'.
  - eapply post_weaken; [apply q_solve|]. intros r Q. eapply bnd_quiet; [exact B|exact Q].
  - destruct (st_empty (c_st c)); [|apply post_panic]. apply post_ret. exact B.
  - eapply post_bind with (P := fun c' => frame c c'); [intros c' E; eapply spec_get; [apply close_proof_spec|exact E]|].
    intros c' F. apply (bnd_frame _ _ _ _ B) in F. unfold take_error. destruct (st_error (c_st c')); apply post_ret; exact F.
  - destruct (st_empty (c_st c)); [|apply post_panic]. apply post_ret. exact B.
  - destruct (update_apply u (c_cfg c)) as [ok cfg]. destruct ok; [|apply post_ret; exact B].
    destruct (set_decay_ok _ && set_decay_ok _); [|apply post_panic]. apply post_ret. exact B.
Qed.
Lemma run_all_bnd n fuel ks : forall h c, bnd n h (c_v c) -> Forall (named_below n) ks ->
  post (run_all fuel ks c) (fun r => bnd n (h + extras ks) (c_v (fst r))).
Proof.
  induction ks as [|k ks IH]; intros h c B H; cbn [run_all extras]; [apply post_ret; cbn [fst]; rewrite N.add_0_r; exact B|].
  inversion H as [|k0 ks0 H1 H2]; subst. eapply post_bind; [apply (run_bnd n h); assumption|]. intros [c1 a] B1. cbn [fst] in B1.
  eapply post_bind; [apply (IH _ _ B1 H2)|]. intros [c2 r] B2. apply post_ret. cbn [fst] in *. rewrite N.add_assoc. exact B2.
Qed.
Lemma default_bnd n pick judge io : bnd n 0 (c_v (ctx_default pick judge io)).
Proof.
  constructor; cbn [ctx_default c_v vars_default v_data v_glen v_gfree v_ulen v_slen v_gu].
  - apply vars_default_ok.
  - intros g L. lia.
  - intros g [].
  - lia.
  - lia.
  - lia.
  - exists []. split; [cbn [length]; lia|]. intros g. cbn [vdata_default vd_deleted]. discriminate.
Qed.

Lemma history_bnd n fuel ks pick judge io c r : run_all fuel ks (ctx_default pick judge io) = Ret (c, r) -> Forall (named_below n) ks ->
  v_glen (c_v c) <= n + extras ks /\ v_slen (c_v c) <= n + extras ks /\ v_ulen (c_v c) <= n + extras ks.
Proof.
  intros E H. pose proof (run_all_bnd n fuel ks 0 _ (default_bnd n pick judge io) H _ E) as B. cbn [fst] in B. rewrite N.add_0_l in B.
  pose proof (bd_g _ _ _ B). pose proof (bd_u _ _ _ B). pose proof (bd_s _ _ _ B). lia.
Qed.

(** A history that never needs more variables than there are: those it names, and one more for every call that hides a variable or asks for a new one,
    are at most [Var::max_count]. *)
Definition within_vars (ks : list call) : Prop := exists n, Forall (named_below n) ks /\ n + extras ks <= max_count.
Lemma within_vars_app ks ks' : within_vars (ks ++ ks') -> within_vars ks.
Proof.
  intros (n&H&L). exists n. apply Forall_app in H as [H _]. split; [exact H|].
  enough (E : forall l l', extras (l ++ l') = extras l + extras l') by (rewrite E in L; lia).
  induction l as [|k l IH]; intros l'; cbn [app extras]; [lia|rewrite IH; lia].
Qed.
