(** The clause database (ClauseDb.v): its bookkeeping, reduction and garbage collection. *)
From Coq Require Import Lia Arith PeanoNat Permutation.
From Verif Require Import Spec Lit LitProofs F32 Vsids VsidsProofs Search SearchBase Propagate ClauseDb.
Local Open Scope nat_scope.

Definition htier (d : cdb) (c : N) : tier := h_tier (d_hdr d c).
Definition of_tier (d : cdb) (t : tier) : list N := filter (fun c => tier_eqb (htier d c) t) (live d).
(** Number of words of some clauses *)
Definition tot (lits : N -> list N) (l : list N) : N :=
  fold_right (fun c a => (clause_size (lits c) + a)%N) 0%N l.

Lemma tier_eqb_eq a b : tier_eqb a b = true <-> a = b.
Proof. destruct a, b; cbn; split; congruence. Qed.
Lemma tier_eqb_refl a : tier_eqb a a = true.
Proof. apply tier_eqb_eq. reflexivity. Qed.
Lemma tier_eqb_ne a b : tier_eqb a b = false <-> a <> b.
Proof. rewrite <- tier_eqb_eq. destruct (tier_eqb a b); split; congruence. Qed.
Lemma updt_eq {A} (f : tier -> A) t x : updt f t x t = x.
Proof. unfold updt. rewrite tier_eqb_refl. reflexivity. Qed.
Lemma updt_ne {A} (f : tier -> A) t x u : u <> t -> updt f t x u = f u.
Proof. intros H. unfold updt. apply tier_eqb_ne in H. rewrite H. reflexivity. Qed.

Lemma live_in d c : In c (live d) <-> In c (d_clauses d) /\ deleted d c = false.
Proof. unfold live. rewrite filter_In. destruct (deleted d c); cbn; intuition congruence. Qed.
Lemma of_tier_in d t c : In c (of_tier d t) <-> In c (live d) /\ htier d c = t.
Proof. unfold of_tier. rewrite filter_In, tier_eqb_eq. reflexivity. Qed.
Lemma NoDup_filter {A} (f : A -> bool) l : NoDup l -> NoDup (filter f l).
Proof.
  induction l as [|x l IH]; intros H; cbn; [constructor|]. inversion H as [|? ? NI ND]; subst.
  destruct (f x); [|auto]. constructor; [rewrite filter_In; tauto|auto].
Qed.
Lemma tot_app f a b : tot f (a ++ b) = (tot f a + tot f b)%N.
Proof. induction a as [|x a IH]; cbn [app tot fold_right]; [reflexivity|]. fold (tot f a). fold (tot f (a ++ b)). lia. Qed.
Lemma tot_ext f g l : (forall c, In c l -> length (f c) = length (g c)) -> tot f l = tot g l.
Proof.
  induction l as [|x l IH]; intros H; [reflexivity|]. cbn [tot fold_right]. fold (tot f l). fold (tot g l).
  rewrite IH by (intros; apply H; right; assumption). unfold clause_size. rewrite (H x) by (left; reflexivity). reflexivity.
Qed.
Lemma tot_le f g l : (forall c, In c l -> length (f c) <= length (g c)) -> (tot f l <= tot g l)%N.
Proof.
  induction l as [|x l IH]; intros H; [reflexivity|]. cbn [tot fold_right]. fold (tot f l). fold (tot g l).
  specialize (IH (fun c I => H c (or_intror I))). specialize (H x (or_introl eq_refl)). unfold clause_size. lia.
Qed.
Lemma tot_filter_le f p l : (tot f (filter p l) <= tot f l)%N.
Proof.
  induction l as [|x l IH]; cbn [filter]; [reflexivity|]. destruct (p x); cbn [tot fold_right]; fold (tot f l); [fold (tot f (filter p l))|]; lia.
Qed.

(** Everything but the marks; [ex] are tiers of which [by_tier] is incomplete for a moment. *)
Record db_core (ex : tier -> Prop) (lits : N -> list N) (d : cdb) : Prop := {
  dk_nodup : NoDup (d_clauses d);
  dk_glue : forall c, In c (live d) -> htier d c = Irred -> h_glue (d_hdr d c) = 0%N;
  dk_count : forall t, d_count d t = length (of_tier d t);
  dk_listed : forall c, In c (live d) -> ~ ex (htier d c) -> In c (d_tier d (htier d c));
  dk_tier : forall t c, In c (d_tier d t) -> (c < d_size d)%N /\ (deleted d c = false -> In c (d_clauses d));
  dk_alloc : exists al, NoDup al /\ (forall c, In c al -> (c < d_size d)%N) /\ incl (d_clauses d) al /\
      (forall c, In c al -> deleted d c = false -> In c (d_clauses d)) /\
      d_garbage d = tot lits (filter (deleted d) al) /\ (tot lits al <= d_size d)%N;
  dk_full : d_full d = false }.
Definition unmarked (d : cdb) : Prop := forall c, h_mark (d_hdr d c) = false.
Definition no_tier (_ : tier) : Prop := False.
Definition db_ok (lits : N -> list N) (d : cdb) : Prop := db_core no_tier lits d /\ unmarked d.

Lemma dk_size ex lits d c : db_core ex lits d -> In c (d_clauses d) -> (c < d_size d)%N.
Proof. intros K H. destruct (dk_alloc _ _ _ K) as (al & _ & A & B & _). apply A, B, H. Qed.

(** * Header fields that do not matter *)
Record hsim (d d' : cdb) : Prop := {
  hs_clauses : d_clauses d' = d_clauses d; hs_tier : d_tier d' = d_tier d; hs_count : d_count d' = d_count d;
  hs_garbage : d_garbage d' = d_garbage d; hs_size : d_size d' = d_size d; hs_full : d_full d' = d_full d;
  hs_htier : forall c, htier d' c = htier d c;
  hs_deleted : forall c, deleted d' c = deleted d c;
  hs_glue : forall c, htier d c = Irred -> h_glue (d_hdr d' c) = h_glue (d_hdr d c) }.

Lemma filter_ext' {A} (f g : A -> bool) l : (forall x, In x l -> f x = g x) -> filter f l = filter g l.
Proof.
  induction l as [|x l IH]; intros H; [reflexivity|]. cbn. rewrite (H x) by (left; reflexivity).
  rewrite IH by (intros; apply H; right; assumption). reflexivity.
Qed.
Lemma hsim_live d d' : hsim d d' -> live d' = live d.
Proof. intros H. unfold live. rewrite (hs_clauses _ _ H). apply filter_ext'. intros. rewrite (hs_deleted _ _ H). reflexivity. Qed.
Lemma hsim_of_tier d d' t : hsim d d' -> of_tier d' t = of_tier d t.
Proof. intros H. unfold of_tier. rewrite (hsim_live _ _ H). apply filter_ext'. intros. rewrite (hs_htier _ _ H). reflexivity. Qed.
Lemma hsim_core ex lits d d' : hsim d d' -> db_core ex lits d -> db_core ex lits d'.
Proof.
  intros H K. pose proof (hsim_live _ _ H) as Lv. constructor.
  - rewrite (hs_clauses _ _ H). apply (dk_nodup _ _ _ K).
  - intros c. rewrite Lv, (hs_htier _ _ H). intros I T. rewrite (hs_glue _ _ H) by exact T. apply (dk_glue _ _ _ K); assumption.
  - intros t. rewrite (hs_count _ _ H), (hsim_of_tier _ _ _ H). apply (dk_count _ _ _ K).
  - intros c. rewrite Lv, (hs_htier _ _ H), (hs_tier _ _ H). apply (dk_listed _ _ _ K).
  - intros t c. rewrite (hs_tier _ _ H), (hs_size _ _ H), (hs_clauses _ _ H), (hs_deleted _ _ H). apply (dk_tier _ _ _ K).
  - destruct (dk_alloc _ _ _ K) as (al & A & B & C & D & E & F). exists al.
    rewrite (hs_size _ _ H), (hs_clauses _ _ H), (hs_garbage _ _ H).
    split; [exact A|]. split; [exact B|]. split; [exact C|]. split; [intros c; rewrite (hs_deleted _ _ H); apply D|].
    split; [|exact F]. rewrite E. f_equal. apply filter_ext'. intros. symmetry. apply (hs_deleted _ _ H).
  - rewrite (hs_full _ _ H). apply (dk_full _ _ _ K).
Qed.
Lemma hsim_refl d : hsim d d.
Proof. constructor; reflexivity. Qed.
Lemma hsim_trans a b c : hsim a b -> hsim b c -> hsim a c.
Proof.
  intros H G. constructor.
  - rewrite (hs_clauses _ _ G). apply H.
  - rewrite (hs_tier _ _ G). apply H.
  - rewrite (hs_count _ _ G). apply H.
  - rewrite (hs_garbage _ _ G). apply H.
  - rewrite (hs_size _ _ G). apply H.
  - rewrite (hs_full _ _ G). apply H.
  - intros x. rewrite (hs_htier _ _ G). apply H.
  - intros x. rewrite (hs_deleted _ _ G). apply H.
  - intros x T. rewrite (hs_glue _ _ G); [apply H, T|]. rewrite (hs_htier _ _ H). exact T.
Qed.
Lemma map_hdr_hdr d c f x : d_hdr (map_hdr d c f) x = if N.eqb x c then f (d_hdr d c) else d_hdr d x.
Proof. reflexivity. Qed.
Lemma map_hdr_hsim d c f : (forall h, h_tier (f h) = h_tier h) -> (forall h, h_deleted (f h) = h_deleted h) ->
  (forall h, h_glue (f h) = h_glue h) -> hsim d (map_hdr d c f).
Proof.
  intros A B C. constructor; try reflexivity.
  - intros x. unfold htier. rewrite map_hdr_hdr. destruct (N.eqb_spec x c) as [->|]; [apply A|reflexivity].
  - intros x. unfold deleted. rewrite map_hdr_hdr. destruct (N.eqb_spec x c) as [->|]; [apply B|reflexivity].
  - intros x _. rewrite map_hdr_hdr. destruct (N.eqb_spec x c) as [->|]; [apply C|reflexivity].
Qed.
Lemma set_mark_hsim d c b : hsim d (map_hdr d c (fun h => set_mark h b)).
Proof. apply map_hdr_hsim; reflexivity. Qed.
Lemma set_active_hsim d c b : hsim d (map_hdr d c (fun h => set_active h b)).
Proof. apply map_hdr_hsim; reflexivity. Qed.
Lemma set_act_hsim d c b : hsim d (map_hdr d c (fun h => set_act h b)).
Proof. apply map_hdr_hsim; reflexivity. Qed.

(** Clauses whose lengths do not change *)
Lemma db_core_lits ex f g d : (forall c, length (f c) = length (g c)) -> db_core ex f d -> db_core ex g d.
Proof.
  intros H [A B C D E F G]. constructor; auto. destruct F as (al & F1 & F2 & F3 & F4 & F5 & F6). exists al.
  repeat (split; [assumption|]). rewrite <- !(tot_ext f g) by (intros; apply H). auto.
Qed.
Lemma db_ok_perm f g d : (forall c, Permutation (f c) (g c)) -> db_ok f d -> db_ok g d.
Proof. intros H [A B]. split; [|exact B]. eapply db_core_lits; [|exact A]. intros c. apply Permutation_length, H. Qed.

(** * Adding *)
Lemma filter_app' {A} (f : A -> bool) a b : filter f (a ++ b) = filter f a ++ filter f b.
Proof. induction a as [|x a IH]; cbn; [reflexivity|]. destruct (f x); cbn; rewrite IH; reflexivity. Qed.

Section Add.
Variables (s : search) (d : cdb) (h : hdr) (cl : list N).
Let new := d_size d.
Hypothesis Hdel : h_deleted h = false.
Hypothesis K : db_core no_tier (s_lits s) d.
Let s' := fst (fst (add_long s d h cl)).
Let d' := snd (fst (add_long s d h cl)).

Lemma add_fresh : ~ In new (d_clauses d).
Proof. intros I. apply (dk_size _ _ _ _ K) in I. unfold new in I. lia. Qed.
Lemma add_hdr_ne c : (c < new)%N -> d_hdr d' c = d_hdr d c.
Proof. intros L. unfold d', add_long. cbn [fst snd d_hdr]. apply upd_ne. unfold new in L. lia. Qed.
Lemma add_hdr_new : d_hdr d' new = h.
Proof. unfold d', add_long. cbn [fst snd d_hdr]. apply upd_eq. Qed.
Lemma add_live : live d' = live d ++ [new].
Proof.
  unfold live. change (d_clauses d') with (d_clauses d ++ [new]). rewrite filter_app'. f_equal.
  - apply filter_ext'. intros c I. unfold deleted. rewrite add_hdr_ne; [reflexivity|]. apply (dk_size _ _ _ _ K I).
  - cbn [filter]. unfold deleted. rewrite add_hdr_new, Hdel. reflexivity.
Qed.
Lemma live_lt c : In c (live d) -> (c < new)%N.
Proof. intros I. apply live_in in I. apply (dk_size _ _ _ _ K), I. Qed.
Lemma add_of_tier t : of_tier d' t = of_tier d t ++ (if tier_eqb (h_tier h) t then [new] else []).
Proof.
  unfold of_tier. rewrite add_live, filter_app'. f_equal.
  - apply filter_ext'. intros c I. unfold htier. rewrite add_hdr_ne; [reflexivity|]. apply live_lt, I.
  - cbn [filter]. unfold htier. rewrite add_hdr_new. reflexivity.
Qed.
Lemma add_lits c : s_lits s' c = if N.eqb c new then cl else s_lits s c.
Proof. unfold s', add_long, watch_clause. cbn [fst]. destruct (s_wen _); reflexivity. Qed.

Lemma add_long_core : (d_size d <= 2^32 - 1)%N -> (h_tier h = Irred -> h_glue h = 0%N) ->
  db_core no_tier (s_lits s') d'.
Proof.
  intros Hs Hg. constructor.
  - change (d_clauses d') with (d_clauses d ++ [new]).
    rewrite <- (rev_involutive (_ ++ _)). apply NoDup_rev. rewrite rev_app_distr. cbn. constructor.
    + rewrite <- in_rev. apply add_fresh.
    + apply NoDup_rev, (dk_nodup _ _ _ K).
  - intros c. rewrite add_live, in_app_iff. unfold htier. intros [I|[<-|[]]].
    + rewrite add_hdr_ne by (apply live_lt, I). apply (dk_glue _ _ _ K c I).
    + rewrite add_hdr_new. exact Hg.
  - intros t. rewrite add_of_tier, app_length. unfold d', add_long. cbn [fst snd d_count].
    unfold updt. destruct (tier_eqb t (h_tier h)) eqn:E.
    + apply tier_eqb_eq in E. subst t. rewrite tier_eqb_refl, (dk_count _ _ _ K). cbn. lia.
    + rewrite (dk_count _ _ _ K). apply tier_eqb_ne in E. destruct (tier_eqb (h_tier h) t) eqn:E'; [apply tier_eqb_eq in E'; congruence|].
      cbn. lia.
  - intros c. rewrite add_live, in_app_iff. unfold htier. change (d_tier d') with (updt (d_tier d) (h_tier h) (d_tier d (h_tier h) ++ [new])).
    intros [I|[<-|[]]] X.
    + rewrite add_hdr_ne in * by (apply live_lt, I). pose proof (dk_listed _ _ _ K c I X) as Q. unfold htier in Q.
      unfold updt. destruct (tier_eqb _ _) eqn:E; [|exact Q]. apply tier_eqb_eq in E. rewrite E in Q. apply in_or_app. left. exact Q.
    + rewrite add_hdr_new, updt_eq. apply in_or_app. right. left. reflexivity.
  - intros t c I. change (d_size d') with (new + clause_size cl)%N. change (d_clauses d') with (d_clauses d ++ [new]).
    change (d_tier d') with (updt (d_tier d) (h_tier h) (d_tier d (h_tier h) ++ [new])) in I.
    assert (Q : In c (d_tier d t) \/ c = new).
    { unfold updt in I. destruct (tier_eqb t (h_tier h)) eqn:E; [|auto]. apply tier_eqb_eq in E. subst t.
      apply in_app_or in I. destruct I as [I|[<-|[]]]; auto. }
    destruct Q as [Q| ->].
    + apply (dk_tier _ _ _ K) in Q. destruct Q as [Q1 Q2]. fold new in Q1. split; [unfold clause_size; lia|].
      unfold deleted. rewrite add_hdr_ne by exact Q1. intros Dl. apply in_or_app. left. apply Q2, Dl.
    + split; [unfold clause_size; lia|]. intros _. apply in_or_app. right. left. reflexivity.
  - destruct (dk_alloc _ _ _ K) as (al & A & B & C & D & E & F). fold new in B.
    exists (al ++ [new]). change (d_size d') with (new + clause_size cl)%N. change (d_clauses d') with (d_clauses d ++ [new]).
    assert (Ex : tot (s_lits s') al = tot (s_lits s) al).
    { apply tot_ext. intros c I. apply B in I. rewrite add_lits. destruct (N.eqb_spec c new); [lia|reflexivity]. }
    split; [|split; [|split; [|split; [|split]]]].
    + rewrite <- (rev_involutive (_ ++ _)). apply NoDup_rev. rewrite rev_app_distr. cbn. constructor.
      * rewrite <- in_rev. intros I. apply B in I. lia.
      * apply NoDup_rev, A.
    + intros c I. apply in_app_or in I. destruct I as [I|[<-|[]]]; [apply B in I|]; unfold clause_size; lia.
    + intros c I. apply in_app_or in I. apply in_or_app. destruct I as [I|I]; [left; apply C, I|right; exact I].
    + intros c I. apply in_app_or in I. intros Dl. apply in_or_app. destruct I as [I|I]; [left|right; exact I].
      apply D; [exact I|]. unfold deleted in *. rewrite add_hdr_ne in Dl by (apply B, I). exact Dl.
    + change (d_garbage d') with (d_garbage d). rewrite filter_app', tot_app. cbn [filter].
      replace (deleted d' new) with false by (unfold deleted; rewrite add_hdr_new, Hdel; reflexivity).
      cbn [tot fold_right]. rewrite N.add_0_r, E. symmetry.
      replace (filter (deleted d') al) with (filter (deleted d) al).
      * apply tot_ext. intros c I. apply filter_In in I. destruct I as [I _]. apply B in I. rewrite add_lits.
        destruct (N.eqb_spec c new); [lia|reflexivity].
      * apply filter_ext'. intros c I. unfold deleted. rewrite add_hdr_ne by (apply B, I). reflexivity.
    + rewrite tot_app, Ex. cbn [tot fold_right]. rewrite add_lits, N.eqb_refl. unfold new in *. lia.
  - change (d_full d') with (d_full d || (2^32 - 1 <? new)%N). rewrite (dk_full _ _ _ K).
    cbn [orb]. apply N.ltb_ge. exact Hs.
Qed.
End Add.

(** * Changing the tier *)
Lemma filter_flip (f g : N -> bool) l c : NoDup l -> In c l -> (forall x, x <> c -> f x = g x) ->
  f c = true -> g c = false -> length (filter f l) = S (length (filter g l)).
Proof.
  intros ND I E Fc Gc. induction l as [|x l IH]; [destruct I|]. inversion ND as [|? ? NI ND']; subst. destruct I as [->|I].
  - cbn. rewrite Fc, Gc. cbn. f_equal. f_equal. apply filter_ext'. intros y Iy. apply E. intros ->. contradiction.
  - cbn. assert (x <> c) by (intros ->; contradiction). rewrite (E x) by assumption. destruct (g x); cbn; rewrite IH; auto.
Qed.
Lemma tot_flip lits (f g : N -> bool) l c : NoDup l -> In c l -> (forall x, x <> c -> f x = g x) ->
  f c = true -> g c = false -> tot lits (filter f l) = (tot lits (filter g l) + clause_size (lits c))%N.
Proof.
  intros ND I E Fc Gc. induction l as [|x l IH]; [destruct I|]. inversion ND as [|? ? NI ND']; subst. destruct I as [->|I].
  - cbn [filter]. rewrite Fc, Gc. cbn [tot fold_right]. fold (tot lits (filter f l)).
    rewrite (filter_ext' f g); [lia|]. intros y Iy. apply E. intros ->. contradiction.
  - cbn [filter]. assert (x <> c) by (intros ->; contradiction). rewrite (E x) by assumption.
    destruct (g x); cbn [tot fold_right]; fold (tot lits (filter f l)); fold (tot lits (filter g l)); rewrite IH by assumption; lia.
Qed.

Lemma live_nodup ex lits d : db_core ex lits d -> NoDup (live d).
Proof. intros K. apply NoDup_filter, (dk_nodup _ _ _ K). Qed.

Lemma tier_hdr d c t x : htier d c <> t -> d_hdr (set_clause_tier d c t) x =
  if N.eqb x c then set_tier (d_hdr d c) t else d_hdr d x.
Proof. intros H. unfold set_clause_tier. apply tier_eqb_ne in H. unfold htier in H. rewrite H. reflexivity. Qed.

Lemma set_clause_tier_core ex lits d c t : db_core ex lits d -> In c (live d) -> t <> Irred ->
  let d' := set_clause_tier d c t in
  db_core ex lits d' /\ live d' = live d /\
  (forall x, htier d' x = if N.eqb x c then t else htier d x) /\
  (forall x, deleted d' x = deleted d x) /\ (unmarked d -> unmarked d').
Proof.
  intros K Ic Nt. cbv zeta. destruct (tier_eqb (htier d c) t) eqn:E.
  { assert (set_clause_tier d c t = d) as -> by (unfold set_clause_tier; unfold htier in E; rewrite E; reflexivity).
    apply tier_eqb_eq in E. split; [exact K|]. split; [reflexivity|]. split; [|auto].
    intros x. destruct (N.eqb_spec x c) as [->|]; auto. }
  apply tier_eqb_ne in E. set (d' := set_clause_tier d c t).
  pose proof (fun x => tier_hdr d c t x E) as Hh. fold d' in Hh.
  assert (Ed : forall x, deleted d' x = deleted d x).
  { intros x. unfold deleted. rewrite Hh. destruct (N.eqb_spec x c) as [->|]; reflexivity. }
  assert (Et : forall x, htier d' x = if N.eqb x c then t else htier d x).
  { intros x. unfold htier. rewrite Hh. destruct (N.eqb_spec x c) as [->|]; reflexivity. }
  assert (F : d_clauses d' = d_clauses d /\ d_size d' = d_size d /\ d_garbage d' = d_garbage d /\ d_full d' = d_full d /\
              d_tier d' = updt (d_tier d) t (d_tier d t ++ [c]) /\
              d_count d' = updt (updt (d_count d) (htier d c) (pred (d_count d (htier d c)))) t
                             (S (updt (d_count d) (htier d c) (pred (d_count d (htier d c))) t))).
  { unfold d', set_clause_tier. unfold htier in E. apply tier_eqb_ne in E. rewrite E. repeat split. }
  destruct F as (Fc & Fs & Fg & Ff & Ft & Fn).
  assert (El : live d' = live d).
  { unfold live. rewrite Fc. apply filter_ext'. intros. rewrite Ed. reflexivity. }
  split; [|split; [exact El|split; [exact Et|split; [exact Ed|]]]].
  2:{ intros U x. rewrite Hh. destruct (N.eqb_spec x c) as [->|]; [apply (U c)|apply U]. }
  constructor.
  - rewrite Fc. apply (dk_nodup _ _ _ K).
  - intros x. rewrite El, Et, Hh. destruct (N.eqb_spec x c) as [->|]; [congruence|apply (dk_glue _ _ _ K)].
  - intros u. rewrite Fn. pose proof (live_nodup _ _ _ K) as ND.
    assert (C1 : length (of_tier d (htier d c)) = S (length (of_tier d' (htier d c)))).
    { unfold of_tier. rewrite El. apply filter_flip with (c := c); [exact ND|exact Ic| | |].
      - intros x Nx. rewrite Et. destruct (N.eqb_spec x c); [contradiction|reflexivity].
      - apply tier_eqb_refl.
      - rewrite Et, N.eqb_refl. apply tier_eqb_ne. congruence. }
    assert (C2 : length (of_tier d' t) = S (length (of_tier d t))).
    { unfold of_tier. rewrite El. apply filter_flip with (c := c); [exact ND|exact Ic| | |].
      - intros x Nx. rewrite Et. destruct (N.eqb_spec x c); [contradiction|reflexivity].
      - rewrite Et, N.eqb_refl. apply tier_eqb_refl.
      - apply tier_eqb_ne. exact E. }
    destruct (tier_eqb u t) eqn:Ut.
    + apply tier_eqb_eq in Ut. subst u. rewrite updt_eq, updt_ne, C2, (dk_count _ _ _ K); [reflexivity|congruence].
    + apply tier_eqb_ne in Ut. rewrite updt_ne by exact Ut. destruct (tier_eqb u (htier d c)) eqn:Uc.
      * apply tier_eqb_eq in Uc. subst u. rewrite updt_eq, (dk_count _ _ _ K), C1. reflexivity.
      * apply tier_eqb_ne in Uc. rewrite updt_ne by exact Uc. rewrite (dk_count _ _ _ K). unfold of_tier. rewrite El. f_equal.
        apply filter_ext'. intros x _. rewrite Et. destruct (N.eqb_spec x c) as [->|]; [|reflexivity].
        transitivity false; [apply tier_eqb_ne; congruence|symmetry; apply tier_eqb_ne; congruence].
  - intros x. rewrite El, Et, Ft. intros I X. destruct (N.eqb_spec x c) as [->|].
    + rewrite updt_eq. apply in_or_app. right. left. reflexivity.
    + pose proof (dk_listed _ _ _ K x I X) as Q. unfold updt. destruct (tier_eqb (htier d x) t) eqn:Q2; [|exact Q].
      apply tier_eqb_eq in Q2. rewrite <- Q2. apply in_or_app. left. exact Q.
  - intros u x. rewrite Ft, Fs, Fc, Ed. intros I.
    assert (Q : In x (d_tier d u) \/ x = c).
    { unfold updt in I. destruct (tier_eqb u t) eqn:Q; [|auto]. apply tier_eqb_eq in Q. subst u.
      apply in_app_or in I. destruct I as [I|[<-|[]]]; auto. }
    destruct Q as [Q| ->]; [apply (dk_tier _ _ _ K u x Q)|]. apply live_in in Ic. split; [apply (dk_size _ _ _ _ K), Ic|tauto].
  - destruct (dk_alloc _ _ _ K) as (al & A & B & C & D & G & H). exists al. rewrite Fs, Fc, Fg.
    split; [exact A|]. split; [exact B|]. split; [exact C|]. split; [intros x; rewrite Ed; apply D|].
    split; [|exact H]. rewrite G. f_equal. apply filter_ext'. intros. symmetry. apply Ed.
  - rewrite Ff. apply (dk_full _ _ _ K).
Qed.

(** * Deletion *)
(** [out] are deleted, nothing else that matters changes. *)
Record dels (d d' : cdb) (out : list N) : Prop := {
  dl_clauses : d_clauses d' = d_clauses d;
  dl_tier : d_tier d' = d_tier d;
  dl_size : d_size d' = d_size d;
  dl_htier : forall c, htier d' c = htier d c;
  dl_deleted : forall c, deleted d' c = true <-> deleted d c = true \/ In c out }.
Lemma hsim_dels d d' : hsim d d' -> dels d d' [].
Proof.
  intros H. constructor; try apply H. intros c. rewrite (hs_deleted _ _ H). cbn. tauto.
Qed.
Lemma dels_trans a b c x y : dels a b x -> dels b c y -> dels a c (x ++ y).
Proof.
  intros H G. constructor.
  - rewrite (dl_clauses _ _ _ G). apply H.
  - rewrite (dl_tier _ _ _ G). apply H.
  - rewrite (dl_size _ _ _ G). apply H.
  - intros z. rewrite (dl_htier _ _ _ G). apply H.
  - intros z. rewrite (dl_deleted _ _ _ G), (dl_deleted _ _ _ H), in_app_iff. tauto.
Qed.
Lemma dels_live d d' out c : dels d d' out -> (In c (live d') <-> In c (live d) /\ ~ In c out).
Proof.
  intros H. rewrite !live_in, (dl_clauses _ _ _ H). pose proof (dl_deleted _ _ _ H c) as Q.
  destruct (deleted d' c), (deleted d c); intuition congruence.
Qed.

Lemma dels_live_eq d d' out : dels d d' out -> live d' = filter (fun c => negb (existsb (N.eqb c) out)) (live d).
Proof.
  intros H. unfold live. rewrite (dl_clauses _ _ _ H). pose proof (dl_deleted _ _ _ H) as Q.
  induction (d_clauses d) as [|x l IH]; [reflexivity|]. cbn [filter]. rewrite IH. specialize (Q x). rewrite <- memb_in in Q.
  destruct (deleted d x), (deleted d' x); cbn [negb filter]; try (exfalso; destruct Q as [Q1 Q2]; intuition congruence);
    destruct (existsb (N.eqb x) out) eqn:X; cbn [negb]; try reflexivity; exfalso; intuition congruence.
Qed.

Lemma delete_header_core ex s d c : db_core ex (s_lits s) d -> In c (live d) ->
  let d' := delete_header s d c in
  db_core ex (s_lits s) d' /\ dels d d' [c] /\ (forall x, h_mark (d_hdr d' x) = h_mark (d_hdr d x)).
Proof.
  intros K Ic. cbv zeta. set (d' := delete_header s d c).
  assert (Hh : forall x, d_hdr d' x = if N.eqb x c then set_deleted (d_hdr d c) true else d_hdr d x) by reflexivity.
  assert (Et : forall x, htier d' x = htier d x).
  { intros x. unfold htier. rewrite Hh. destruct (N.eqb_spec x c) as [->|]; reflexivity. }
  assert (Ed : forall x, deleted d' x = if N.eqb x c then true else deleted d x).
  { intros x. unfold deleted. rewrite Hh. destruct (N.eqb_spec x c) as [->|]; reflexivity. }
  assert (Fn : d_count d' = updt (d_count d) (htier d c) (pred (d_count d (htier d c)))).
  { unfold d', delete_header. cbn [with_garbage dec_count with_count map_hdr with_hdr d_count d_hdr]. rewrite upd_eq. reflexivity. }
  assert (Ld : live d' = filter (fun x => negb (N.eqb x c)) (live d)).
  { unfold live. change (d_clauses d') with (d_clauses d). induction (d_clauses d) as [|x l IH]; [reflexivity|].
    cbn [filter]. rewrite Ed, IH. destruct (N.eqb_spec x c) as [->|N1]; cbn [negb].
    - destruct (negb (deleted d c)); [|reflexivity]. cbn [filter]. rewrite N.eqb_refl. reflexivity.
    - destruct (negb (deleted d x)); [|reflexivity]. cbn [filter]. destruct (N.eqb_spec x c); [contradiction|reflexivity]. }
  assert (DD : dels d d' [c]).
  { constructor; try reflexivity; try exact Et. intros x. rewrite Ed. cbn. destruct (N.eqb_spec x c) as [->|]; intuition congruence. }
  assert (Sub : forall x, In x (live d') -> In x (live d)) by (intros x I; apply (dels_live _ _ _ x DD) in I; tauto).
  split; [|split; [exact DD|]].
  2:{ intros x. rewrite Hh. destruct (N.eqb_spec x c) as [->|]; reflexivity. }
  constructor.
  - exact (dk_nodup _ _ _ K).
  - intros x I. rewrite Et, Hh. intros T. apply Sub in I. pose proof (dk_glue _ _ _ K x I T) as G.
    destruct (N.eqb_spec x c) as [->|]; exact G.
  - intros t. rewrite Fn.
    assert (Q : of_tier d' t = filter (fun x => tier_eqb (htier d x) t && negb (N.eqb x c)) (live d)).
    { unfold of_tier. rewrite Ld. clear - Et. induction (live d) as [|x l IH]; [reflexivity|]. cbn [filter].
      destruct (negb (N.eqb x c)) eqn:E; cbn [filter].
      - rewrite Et, andb_true_r, IH. reflexivity.
      - rewrite andb_false_r. exact IH. }
    rewrite Q. unfold updt. destruct (tier_eqb t (htier d c)) eqn:E.
    + apply tier_eqb_eq in E. subst t. rewrite (dk_count _ _ _ K). unfold of_tier.
      rewrite (filter_flip (fun x => tier_eqb (htier d x) (htier d c)) (fun x => tier_eqb (htier d x) (htier d c) && negb (N.eqb x c)) _ c).
      * reflexivity.
      * apply (live_nodup _ _ _ K).
      * exact Ic.
      * intros x Nx. destruct (N.eqb_spec x c); [contradiction|]. rewrite andb_true_r. reflexivity.
      * apply tier_eqb_refl.
      * rewrite N.eqb_refl. apply andb_false_r.
    + rewrite (dk_count _ _ _ K). unfold of_tier. f_equal. apply filter_ext'. intros x _.
      destruct (N.eqb_spec x c) as [->|]; [|rewrite andb_true_r; reflexivity]. apply tier_eqb_ne in E.
      rewrite andb_false_r. apply tier_eqb_ne. congruence.
  - intros x I. rewrite Et. apply (dk_listed _ _ _ K), Sub, I.
  - intros t x I. apply (dk_tier _ _ _ K) in I. destruct I as [A B]. split; [exact A|]. rewrite Ed.
    destruct (N.eqb x c); [discriminate|exact B].
  - destruct (dk_alloc _ _ _ K) as (al & A & B & C & D & G & H). exists al.
    split; [exact A|]. split; [exact B|]. split; [exact C|].
    split; [intros x I; rewrite Ed; destruct (N.eqb x c); [discriminate|apply D, I]|].
    split; [|exact H]. change (d_garbage d') with (d_garbage d + clause_size (s_lits s c))%N. rewrite G. symmetry.
    apply live_in in Ic. apply tot_flip; [exact A|apply C, Ic| | |apply Ic].
    + intros x Nx. rewrite Ed. destruct (N.eqb_spec x c); [contradiction|reflexivity].
    + rewrite Ed, N.eqb_refl. reflexivity.
  - exact (dk_full _ _ _ K).
Qed.

Definition same_but_wen (s s' : search) : Prop := exists b, s' = with_wen s b /\ (b = true -> s_wen s = true).
Lemma sbw_refl s : same_but_wen s s.
Proof. exists (s_wen s). destruct s; auto. Qed.
Lemma sbw_trans a b c : same_but_wen a b -> same_but_wen b c -> same_but_wen a c.
Proof. intros (x & -> & A) (y & -> & B). exists y. split; [reflexivity|]. intros T. apply A. apply B in T. exact T. Qed.

Lemma try_delete_core ex s d c s' d' del : db_core ex (s_lits s) d -> In c (live d) ->
  try_delete_clause s d c = (s', d', del) ->
  db_core ex (s_lits s) d' /\ dels d d' (if del then [c] else []) /\
  (forall x, h_mark (d_hdr d' x) = h_mark (d_hdr d x)) /\ same_but_wen s s' /\
  (del = true -> s_wen s' = false) /\ (del = false -> s' = s /\ d' = d) /\
  (del = true -> forall l rest, s_lits s c = l :: rest -> istrue s l -> s_reason s (lit_var l) <> RLong c).
Proof.
  intros K Ic. unfold try_delete_clause. destruct (_ && _) eqn:E.
  - intros [= <- <- <-]. split; [exact K|]. split; [apply hsim_dels, hsim_refl|]. split; [reflexivity|].
    split; [apply sbw_refl|]. split; [discriminate|]. split; [auto|discriminate].
  - cbn [delete_clause]. intros [= <- <- <-]. destruct (delete_header_core ex s d c K Ic) as (A & B & C).
    split; [exact A|]. split; [exact B|]. split; [exact C|]. split; [exists false; split; [reflexivity|discriminate]|].
    split; [reflexivity|]. split; [discriminate|]. intros _ l rest El T R. rewrite El in E. cbn [nth] in E.
    apply ltrue_iff in T. rewrite T, R in E. cbn in E. rewrite N.eqb_refl in E. discriminate.
Qed.

(** * Marking *)
Lemma dedup_spec t : forall l d d' r, dedup_and_mark d t l = (d', r) ->
  hsim d d' /\ NoDup r /\
  (forall c, In c r <-> In c l /\ deleted d c = false /\ htier d c = t /\ h_mark (d_hdr d c) = false) /\
  (forall c, h_mark (d_hdr d' c) = true <-> h_mark (d_hdr d c) = true \/ In c r).
Proof.
  induction l as [|c l IH]; intros d d' r E; cbn [dedup_and_mark] in E.
  - injection E as <- <-. split; [apply hsim_refl|]. split; [constructor|]. cbn. split; intros; tauto.
  - destruct (negb (h_deleted (d_hdr d c)) && negb (h_mark (d_hdr d c)) && tier_eqb (h_tier (d_hdr d c)) t) eqn:X.
    + destruct (dedup_and_mark (map_hdr d c (fun h => set_mark h true)) t l) as [d1 r1] eqn:E1. injection E as <- <-.
      apply IH in E1. destruct E1 as (A & B & C & D). pose proof (set_mark_hsim d c true) as H.
      apply andb_true_iff in X. destruct X as [X X3]. apply andb_true_iff in X. destruct X as [X1 X2].
      apply negb_true_iff in X1, X2. apply tier_eqb_eq in X3.
      assert (Mk : forall x, h_mark (d_hdr (map_hdr d c (fun h => set_mark h true)) x) = if N.eqb x c then true else h_mark (d_hdr d x)).
      { intros x. rewrite map_hdr_hdr. destruct (N.eqb_spec x c); reflexivity. }
      split; [eapply hsim_trans; eassumption|]. split; [|split].
      * constructor; [|exact B]. intros I. apply C in I. destruct I as (_ & _ & _ & I). rewrite Mk, N.eqb_refl in I. discriminate.
      * intros x. cbn [In]. rewrite C, (hs_deleted _ _ H), (hs_htier _ _ H), Mk.
        destruct (N.eqb_spec x c) as [->|Nx]; [|intuition congruence].
        split; [|auto]. intros _. split; [auto|]. unfold deleted, htier. auto.
      * intros x. rewrite D, Mk. cbn [In]. destruct (N.eqb_spec x c) as [->|Nx]; intuition congruence.
    + apply IH in E. destruct E as (A & B & C & D). split; [exact A|]. split; [exact B|]. split; [|exact D].
      intros x. rewrite C. cbn [In]. split; [tauto|]. intros ([<-|I] & I2 & I3 & I4); [|tauto].
      unfold deleted, htier in *. rewrite I2, I4, I3, tier_eqb_refl in X. discriminate.
Qed.

Lemma insert_perm leb x l : Permutation (x :: l) (insert_by leb x l).
Proof.
  induction l as [|y l IH]; cbn [insert_by]; [reflexivity|]. destruct (leb x y); [reflexivity|].
  rewrite perm_swap. constructor. exact IH.
Qed.
Lemma sort_perm leb l : Permutation l (sort_by leb l).
Proof. induction l as [|x l IH]; cbn [sort_by]; [reflexivity|]. rewrite <- insert_perm. constructor. exact IH. Qed.

Lemma reduce_scan_spec : forall l n s d s' d' keep rest out,
  reduce_scan s d n l = (s', d', keep, rest, out) ->
  db_core no_tier (s_lits s) d -> NoDup l -> (forall c, In c l -> In c (live d)) ->
  db_core no_tier (s_lits s) d' /\ same_but_wen s s' /\ (out <> [] -> s_wen s' = false) /\ dels d d' out /\
  Permutation l (out ++ keep ++ rest) /\
  (forall c, h_mark (d_hdr d' c) = true <-> h_mark (d_hdr d c) = true /\ ~ In c (out ++ keep)) /\
  (forall c, In c out -> forall l rest, s_lits s c = l :: rest -> istrue s l -> s_reason s (lit_var l) <> RLong c) /\
  (out = [] -> s' = s).
Proof.
  induction l as [|c l IH]; intros n s d s' d' keep rest out E K ND Lv.
  - assert (Q : (s, d, [], [], []) = (s', d', keep, rest, out)) by (destruct n; exact E). injection Q as <- <- <- <- <-.
    split; [exact K|]. split; [apply sbw_refl|]. split; [congruence|]. split; [apply hsim_dels, hsim_refl|].
    split; [reflexivity|]. split; [intros; cbn; tauto|]. split; [intros ? []|reflexivity].
  - destruct n as [|n]; cbn [reduce_scan] in E.
    { injection E as <- <- <- <- <-.
      split; [exact K|]. split; [apply sbw_refl|]. split; [congruence|]. split; [apply hsim_dels, hsim_refl|].
      split; [reflexivity|]. split; [intros; cbn; tauto|]. split; [intros ? []|reflexivity]. }
    inversion ND as [|? ? NI ND']; subst.
    set (d0 := map_hdr d c (fun h => set_mark h false)) in *.
    pose proof (set_mark_hsim d c false) as H0. fold d0 in H0.
    assert (K0 := hsim_core _ _ _ _ H0 K).
    assert (Ic0 : In c (live d0)) by (rewrite (hsim_live _ _ H0); apply Lv; left; reflexivity).
    assert (Mk : forall x, h_mark (d_hdr d0 x) = if N.eqb x c then false else h_mark (d_hdr d x)).
    { intros x. unfold d0. rewrite map_hdr_hdr. destruct (N.eqb_spec x c); reflexivity. }
    destruct (try_delete_clause s d0 c) as [[s1 d1] del] eqn:T.
    destruct (try_delete_core _ _ _ _ _ _ _ K0 Ic0 T) as (K1 & D1 & M1 & W1 & Wf & Nd & R1).
    assert (Ls : s_lits s1 = s_lits s) by (destruct W1 as (b & -> & _); reflexivity).
    assert (Vs : s_val s1 = s_val s) by (destruct W1 as (b & -> & _); reflexivity).
    assert (Rs : s_reason s1 = s_reason s) by (destruct W1 as (b & -> & _); reflexivity).
    assert (D01 := dels_trans _ _ _ _ _ (hsim_dels _ _ H0) D1). cbn [app] in D01.
    rewrite <- Ls in K1.
    destruct del.
    + destruct (reduce_scan s1 d1 n l) as [[[[s2 d2] keep2] rest2] out2] eqn:E2. injection E as <- <- <- <- <-.
      apply IH in E2; [|exact K1|exact ND'|].
      2:{ intros x I. apply (dels_live _ _ _ x D01). split; [apply Lv; right; exact I|]. intros [->|[]]. contradiction. }
      rewrite Ls in E2. destruct E2 as (A & B & B2 & C & P & M & R & Z).
      split; [exact A|]. split; [eapply sbw_trans; eassumption|]. split.
      { intros _. destruct out2 as [|o out2]; [|apply B2; discriminate]. rewrite (Z eq_refl). apply Wf. reflexivity. }
      split; [exact (dels_trans _ _ _ _ _ D01 C)|]. split; [cbn [app]; constructor; exact P|]. split; [|split].
      * intros x. rewrite M, M1, Mk. cbn [app In]. destruct (N.eqb_spec x c) as [->|]; intuition congruence.
      * intros x [->|I] y r; [exact (R1 eq_refl y r)|].
        intros L1 T1. rewrite <- Rs. apply (R x I y r); [exact L1|]. unfold istrue in *. rewrite Vs. exact T1.
      * discriminate.
    + destruct (Nd eq_refl) as [-> ->].
      destruct (reduce_scan s d0 (S n) l) as [[[[s2 d2] keep2] rest2] out2] eqn:E2. injection E as <- <- <- <- <-.
      apply IH in E2; [|exact K0|exact ND'|].
      2:{ intros x I. rewrite (hsim_live _ _ H0). apply Lv. right. exact I. }
      destruct E2 as (A & B & B2 & C & P & M & R & Z).
      split; [exact A|]. split; [exact B|]. split; [exact B2|].
      split; [exact (dels_trans _ _ _ _ _ (hsim_dels _ _ H0) C)|]. split.
      { rewrite P. cbn [app]. apply Permutation_middle. }
      split; [|split; [exact R|exact Z]].
      intros x. rewrite M, Mk, !in_app_iff. cbn [In]. destruct (N.eqb_spec x c) as [->|]; intuition congruence.
Qed.

Lemma unmark_all_spec l : forall d, let d' := unmark_all d l in hsim d d' /\
  (forall c, h_mark (d_hdr d' c) = true <-> h_mark (d_hdr d c) = true /\ ~ In c l).
Proof.
  induction l as [|x l IH]; intros d; cbv zeta; unfold unmark_all in *; cbn [fold_left].
  - split; [apply hsim_refl|]. intros. cbn. tauto.
  - specialize (IH (map_hdr d x (fun h => set_mark h false))). cbv zeta in IH. destruct IH as [A B]. split.
    + eapply hsim_trans; [apply set_mark_hsim|exact A].
    + intros c. rewrite B, map_hdr_hdr. cbn [In]. destruct (N.eqb_spec c x) as [->|]; cbn; intuition congruence.
Qed.

(** Replacing the list of a tier by one with all its clauses *)
Lemma set_tier_core ex lits d t l : db_core ex lits d -> NoDup l -> (forall c, In c l <-> In c (live d) /\ htier d c = t) ->
  db_core (fun u => ex u /\ u <> t) lits (with_tier (with_count d (updt (d_count d) t (length l))) (updt (d_tier d) t l)).
Proof.
  intros K ND Hl. set (d' := with_tier _ _).
  assert (Ef : length l = length (of_tier d t)).
  { apply Permutation_length, NoDup_Permutation; [exact ND|apply NoDup_filter, (live_nodup _ _ _ K)|].
    intros c. rewrite Hl, of_tier_in. reflexivity. }
  constructor.
  - exact (dk_nodup _ _ _ K).
  - exact (dk_glue _ _ _ K).
  - intros u. change (of_tier d' u) with (of_tier d u). unfold d'. cbn [with_tier with_count d_count].
    unfold updt. destruct (tier_eqb u t) eqn:E; [apply tier_eqb_eq in E; subst u; exact Ef|apply (dk_count _ _ _ K)].
  - change (live d') with (live d). change (htier d') with (htier d). intros c I X. unfold d'. cbn [with_tier with_count d_tier].
    unfold updt. destruct (tier_eqb (htier d c) t) eqn:E; [apply tier_eqb_eq in E; apply Hl; auto|].
    apply (dk_listed _ _ _ K); [exact I|]. apply tier_eqb_ne in E. tauto.
  - change (d_clauses d') with (d_clauses d). change (deleted d') with (deleted d). change (d_size d') with (d_size d).
    unfold d'. cbn [with_tier with_count d_tier]. intros u c. unfold updt. destruct (tier_eqb u t) eqn:E; [|apply (dk_tier _ _ _ K)].
    intros I. apply Hl in I. destruct I as [I _]. apply live_in in I. split; [apply (dk_size _ _ _ _ K), I|tauto].
  - exact (dk_alloc _ _ _ K).
  - exact (dk_full _ _ _ K).
Qed.
Lemma core_weaken (ex ex' : tier -> Prop) lits d : (forall t, ex t -> ex' t) -> db_core ex lits d -> db_core ex' lits d.
Proof. intros H [A B C D E F G]. constructor; auto. Qed.

(** * Reduction *)
(** [out] is what was deleted: clauses that are not irredundant and not the reason of a true
    literal. *)
Record reduced (s : search) (d d' : cdb) (out : list N) : Prop := {
  rd_live_eq : live d' = filter (fun c => negb (existsb (N.eqb c) out)) (live d);
  rd_irred : forall c, In c (live d) -> (htier d' c = Irred <-> htier d c = Irred);
  rd_out : forall c, In c out -> In c (live d) /\ htier d c <> Irred;
  rd_reason : forall c, In c out -> forall l rest, s_lits s c = l :: rest -> istrue s l -> s_reason s (lit_var l) <> RLong c }.

Lemma rd_live s d d' out : reduced s d d' out -> forall c, In c (live d') <-> In c (live d) /\ ~ In c out.
Proof.
  intros R c. rewrite (rd_live_eq _ _ _ _ R), filter_In. rewrite <- (memb_in c out).
  destruct (existsb (N.eqb c) out); cbn [negb]; intuition congruence.
Qed.
Lemma filter_true {A} (l : list A) : filter (fun _ => true) l = l.
Proof. induction l as [|x l IH]; [reflexivity|]. cbn. rewrite IH. reflexivity. Qed.

Theorem reduce_locals_spec s d s' d' out : db_ok (s_lits s) d -> reduce_locals s d = (s', d', out) ->
  db_ok (s_lits s) d' /\ same_but_wen s s' /\ (out <> [] -> s_wen s' = false) /\ reduced s d d' out /\
  (forall c, htier d' c = htier d c) /\ (forall c, In c out -> htier d c = Local).
Proof.
  intros [K U] E. unfold reduce_locals in E.
  destruct (dedup_and_mark d Local (d_tier d Local)) as [d1 l1] eqn:E1.
  apply dedup_spec in E1. destruct E1 as (H1 & ND1 & In1 & M1).
  assert (K1 := hsim_core _ _ _ _ H1 K).
  assert (In1' : forall c, In c l1 <-> In c (live d) /\ htier d c = Local).
  { intros c. rewrite In1, live_in. split.
    - intros (A & B & C & _). apply (dk_tier _ _ _ K) in A. tauto.
    - intros ((A & B) & C). split; [|split; [exact B|split; [exact C|apply U]]]. rewrite <- C.
      apply (dk_listed _ _ _ K); [apply live_in; auto|intros []]. }
  set (l2 := sort_by (key_leb d1) l1) in *.
  assert (P2 : Permutation l1 l2) by apply sort_perm.
  destruct (reduce_scan s d1 (Nat.div2 (length l2)) l2) as [[[[s2 d2] keep] rest] out2] eqn:E2.
  injection E as <- <- <-.
  apply reduce_scan_spec in E2; [|exact K1|exact (Permutation_NoDup P2 ND1)|].
  2:{ intros c I. rewrite (hsim_live _ _ H1). apply In1'. eapply Permutation_in; [symmetry; exact P2|exact I]. }
  destruct E2 as (K2 & W & W2 & D2 & P3 & M2 & R2 & _).
  pose proof (unmark_all_spec rest d2) as H3. cbv zeta in H3. destruct H3 as [H3 M3].
  set (d3 := unmark_all d2 rest) in *.
  assert (K3 := hsim_core _ _ _ _ H3 K2).
  assert (P : Permutation l1 (out2 ++ keep ++ rest)) by (etransitivity; eassumption).
  assert (D3 : dels d d3 out2).
  { pose proof (dels_trans _ _ _ _ _ (hsim_dels _ _ H1) (dels_trans _ _ _ _ _ D2 (hsim_dels _ _ H3))) as Q.
    cbn [app] in Q. rewrite app_nil_r in Q. exact Q. }
  assert (NDp : NoDup (out2 ++ keep ++ rest)) by (exact (Permutation_NoDup P ND1)).
  assert (InP : forall c, In c (out2 ++ keep ++ rest) <-> In c (live d) /\ htier d c = Local).
  { intros c. rewrite <- In1'. split; apply Permutation_in; [symmetry|]; exact P. }
  split; [split|].
  - eapply core_weaken; [|apply set_tier_core; [exact K3| |]].
    + intros t [[] _].
    + eapply NoDup_app_r. exact NDp.
    + intros c. rewrite (dels_live _ _ _ c D3), (dl_htier _ _ _ D3). split.
      * intros I. assert (Q : In c (out2 ++ keep ++ rest)) by (apply in_or_app; auto). apply InP in Q.
        split; [split; [tauto|]|tauto]. intros I2. exact (NoDup_app_disj _ _ _ NDp I2 I).
      * intros ((A & B) & C). assert (Q : In c (out2 ++ keep ++ rest)) by (apply InP; auto).
        apply in_app_or in Q. tauto.
  - intros c. change (d_hdr (with_tier _ _)) with (d_hdr d3). destruct (h_mark (d_hdr d3 c)) eqn:Q; [exfalso|reflexivity].
    apply M3 in Q. destruct Q as [Q1 Q2]. apply M2 in Q1. destruct Q1 as [Q1 Q3]. apply M1 in Q1. rewrite (U c) in Q1.
    destruct Q1 as [?|Q1]; [discriminate|].
    apply (Permutation_in _ P) in Q1. rewrite !in_app_iff in *. tauto.
  - split; [exact W|]. split; [exact W2|]. split; [|split].
    + constructor.
      * change (live (with_tier _ _)) with (live d3). apply (dels_live_eq _ _ _ D3).
      * intros c _. change (htier (with_tier _ _)) with (htier d3). rewrite (dl_htier _ _ _ D3). tauto.
      * intros c I. assert (Q : In c (out2 ++ keep ++ rest)) by (apply in_or_app; auto). apply InP in Q.
        split; [tauto|]. destruct Q as [_ ->]. discriminate.
      * exact R2.
    + intros c. change (htier (with_tier _ _)) with (htier d3). apply (dl_htier _ _ _ D3).
    + intros c I. assert (Q : In c (out2 ++ keep ++ rest)) by (apply in_or_app; auto). apply InP in Q. tauto.
Qed.

Lemma dedup_garbage t : forall l d d' r, dedup_and_mark d t l = (d', r) -> d_garbage d' = d_garbage d /\ d_size d' = d_size d.
Proof. intros l d d' r E. apply dedup_spec in E. destruct E as (H & _). split; apply H. Qed.
Lemma reduce_scan_garbage : forall l n s d s' d' keep rest out, reduce_scan s d n l = (s', d', keep, rest, out) ->
  d_garbage d' = (d_garbage d + tot (s_lits s) out)%N /\ d_size d' = d_size d /\ length out <= n.
Proof.
  induction l as [|c l IH]; intros n s d s' d' keep rest out E.
  - destruct n; cbn in E; injection E as <- <- <- <- <-; cbn; split; try split; lia.
  - destruct n as [|n]; [cbn in E; injection E as <- <- <- <- <-; cbn; split; try split; lia|]. cbn [reduce_scan] in E.
    set (d1 := map_hdr d c (fun h => set_mark h false)) in *.
    unfold try_delete_clause in E. destruct (_ && _).
    + destruct (reduce_scan s d1 (S n) l) as [[[[s2 d2] k2] r2] o2] eqn:E2. injection E as <- <- <- <- <-.
      apply IH in E2. exact E2.
    + cbn [delete_clause] in E. destruct (reduce_scan (disable_watchlists s) (delete_header s d1 c) n l) as [[[[s2 d2] k2] r2] o2] eqn:E2.
      injection E as <- <- <- <- <-. apply IH in E2. destruct E2 as (A & B & C). rewrite A, B. cbn [length tot fold_right].
      fold (tot (s_lits s) o2). change (s_lits (disable_watchlists s)) with (s_lits s).
      change (d_garbage (delete_header s d1 c)) with (d_garbage d + clause_size (s_lits s c))%N.
      change (d_size (delete_header s d1 c)) with (d_size d). split; [lia|]. split; [reflexivity|lia].
Qed.
Lemma unmark_garbage l : forall d, d_garbage (unmark_all d l) = d_garbage d /\ d_size (unmark_all d l) = d_size d.
Proof. intros d. pose proof (unmark_all_spec l d) as Q. cbv zeta in Q. destruct Q as [H _]. split; apply H. Qed.
Lemma reduce_locals_garbage s d s' d' out : reduce_locals s d = (s', d', out) ->
  d_garbage d' = (d_garbage d + tot (s_lits s) out)%N /\ d_size d' = d_size d.
Proof.
  unfold reduce_locals. destruct (dedup_and_mark d Local (d_tier d Local)) as [d1 l1] eqn:E1.
  destruct (reduce_scan s d1 _ _) as [[[[s2 d2] keep] rest] out2] eqn:E2. intros [= <- <- <-].
  apply dedup_garbage in E1. apply reduce_scan_garbage in E2. destruct E1 as [A B], E2 as (C & D & _).
  cbn [with_tier with_count d_garbage d_size]. destruct (unmark_garbage rest d2) as [F G]. rewrite F, G, C, D, A, B. auto.
Qed.
Lemma retain_garbage : forall l d d' r, retain_active d l = (d', r) -> d_garbage d' = d_garbage d /\ d_size d' = d_size d.
Proof.
  induction l as [|c l IH]; intros d d' r E; [cbn in E; injection E as <- <-; auto|]. cbn [retain_active] in E.
  destruct (h_active _).
  - destruct (retain_active _ l) as [d2 r2] eqn:E2. injection E as <- <-. apply IH in E2. exact E2.
  - apply IH in E. destruct E as [-> ->]. unfold set_clause_tier. destruct (tier_eqb _ _); auto.
Qed.
Lemma reduce_mids_garbage d : d_garbage (reduce_mids d) = d_garbage d /\ d_size (reduce_mids d) = d_size d.
Proof.
  unfold reduce_mids. destruct (dedup_and_mark d Mid (d_tier d Mid)) as [d1 l1] eqn:E1. apply dedup_garbage in E1.
  destruct (retain_active _ l1) as [d2 r2] eqn:E2. apply retain_garbage in E2. cbn [with_tier d_garbage d_size with_count] in *.
  destruct E1, E2. split; congruence.
Qed.

Lemma retain_active_spec ex lits : forall l d d' r, retain_active d l = (d', r) ->
  db_core ex lits d -> NoDup l -> (forall c, In c l -> In c (live d) /\ htier d c = Mid) ->
  db_core ex lits d' /\ live d' = live d /\ d_tier d' Mid = d_tier d Mid /\
  (forall x, htier d' x = if existsb (N.eqb x) l && negb (existsb (N.eqb x) r) then Local else htier d x) /\
  (forall c, In c r -> In c l) /\ NoDup r /\
  (forall c, h_mark (d_hdr d' c) = true <-> h_mark (d_hdr d c) = true /\ ~ In c l).
Proof.
  induction l as [|c l IH]; intros d d' r E K ND Lv.
  - cbn in E. injection E as <- <-. split; [exact K|]. split; [reflexivity|]. split; [reflexivity|]. split; [reflexivity|].
    split; [intros ? []|]. split; [constructor|]. intros; cbn; tauto.
  - cbn [retain_active] in E. inversion ND as [|? ? NI ND']; subst.
    set (d0 := map_hdr d c (fun h => set_mark h false)) in *.
    pose proof (set_mark_hsim d c false) as H0. fold d0 in H0.
    assert (Mk : forall x, h_mark (d_hdr d0 x) = if N.eqb x c then false else h_mark (d_hdr d x)).
    { intros x. unfold d0. rewrite map_hdr_hdr. destruct (N.eqb_spec x c); reflexivity. }
    destruct (h_active (d_hdr d0 c)).
    + pose proof (set_active_hsim d0 c false) as H1. set (d1 := map_hdr d0 c (fun h => set_active h false)) in *.
      pose proof (hsim_trans _ _ _ H0 H1) as H.
      destruct (retain_active d1 l) as [d2 r2] eqn:E2. injection E as <- <-.
      apply IH in E2; [|exact (hsim_core _ _ _ _ H K)|exact ND'|].
      2:{ intros x I. rewrite (hsim_live _ _ H), (hs_htier _ _ H). apply Lv. right. exact I. }
      destruct E2 as (A & B & T & C & D & F & G).
      split; [exact A|]. split; [rewrite B; apply (hsim_live _ _ H)|]. split; [rewrite T, (hs_tier _ _ H); reflexivity|]. split; [|split; [|split]].
      * intros x. rewrite C, (hs_htier _ _ H). cbn [existsb]. destruct (N.eqb_spec x c) as [->|]; cbn [orb negb andb]; [|reflexivity].
        replace (existsb (N.eqb c) l) with false; [reflexivity|]. symmetry. apply Bool.not_true_iff_false. rewrite memb_in. exact NI.
      * intros x [->|I]; [left; reflexivity|right; apply D, I].
      * constructor; [|exact F]. intros I. apply D in I. contradiction.
      * intros x. rewrite G. unfold d1. rewrite map_hdr_hdr. cbn [In].
        destruct (N.eqb_spec x c) as [->|Nx].
        -- cbn [set_active h_mark]. rewrite Mk, N.eqb_refl. intuition congruence.
        -- rewrite Mk. destruct (N.eqb_spec x c); [contradiction|]. intuition congruence.
    + assert (Ic : In c (live d0)) by (rewrite (hsim_live _ _ H0); apply Lv; left; reflexivity).
      assert (Nl : Local <> Irred) by discriminate.
      pose proof (set_clause_tier_core _ _ d0 c Local (hsim_core _ _ _ _ H0 K) Ic Nl) as Q. cbv zeta in Q.
      set (d1 := set_clause_tier d0 c Local) in *. destruct Q as (K1 & L1 & T1 & D1 & _).
      assert (Tc : htier d0 c = Mid) by (rewrite (hs_htier _ _ H0); apply Lv; left; reflexivity).
      assert (X : d_tier d1 Mid = d_tier d Mid).
      { unfold d1, set_clause_tier. unfold htier in Tc. rewrite Tc. reflexivity. }
      assert (Mk1 : forall x, h_mark (d_hdr d1 x) = h_mark (d_hdr d0 x)).
      { intros x. unfold d1. rewrite tier_hdr by congruence. destruct (N.eqb_spec x c) as [->|]; reflexivity. }
      apply IH in E; [|exact K1|exact ND'|].
      2:{ intros x I. rewrite L1, (hsim_live _ _ H0), T1, (hs_htier _ _ H0). destruct (N.eqb_spec x c) as [->|]; [contradiction|].
          apply Lv. right. exact I. }
      destruct E as (A & B & T & C & D & F & G).
      split; [exact A|]. split; [rewrite B, L1; apply (hsim_live _ _ H0)|]. split; [congruence|]. split; [|split; [|split]].
      * intros x. rewrite C, T1, (hs_htier _ _ H0). cbn [existsb]. destruct (N.eqb_spec x c) as [->|]; cbn [orb]; [|reflexivity].
        replace (existsb (N.eqb c) r) with false; [destruct (existsb _ l); reflexivity|]. symmetry. apply Bool.not_true_iff_false.
        rewrite memb_in. intros I. apply D in I. contradiction.
      * intros x I. right. apply D, I.
      * exact F.
      * intros x. rewrite G, Mk1, Mk. cbn [In]. destruct (N.eqb_spec x c) as [->|]; intuition congruence.
Qed.

Theorem reduce_mids_spec s d : db_ok (s_lits s) d ->
  let d' := reduce_mids d in db_ok (s_lits s) d' /\ reduced s d d' [] /\ live d' = live d /\
  (forall c, htier d' c = htier d c \/ htier d c = Mid /\ htier d' c = Local).
Proof.
  intros [K U]. cbv zeta. unfold reduce_mids.
  destruct (dedup_and_mark d Mid (d_tier d Mid)) as [d1 l1] eqn:E1.
  apply dedup_spec in E1. destruct E1 as (H1 & ND1 & In1 & M1).
  assert (K1 := hsim_core _ _ _ _ H1 K).
  assert (In1' : forall c, In c l1 <-> In c (live d) /\ htier d c = Mid).
  { intros c. rewrite In1, live_in. split.
    - intros (A & B & C & _). apply (dk_tier _ _ _ K) in A. tauto.
    - intros ((A & B) & C). split; [|split; [exact B|split; [exact C|apply U]]]. rewrite <- C.
      apply (dk_listed _ _ _ K); [apply live_in; auto|intros []]. }
  set (d2 := with_tier d1 (updt (d_tier d1) Mid [])).
  assert (K2 : db_core (fun t => t = Mid) (s_lits s) d2).
  { constructor.
    - exact (dk_nodup _ _ _ K1).
    - exact (dk_glue _ _ _ K1).
    - exact (dk_count _ _ _ K1).
    - change (live d2) with (live d1). change (htier d2) with (htier d1). intros c I X. unfold d2. cbn [with_tier d_tier].
      rewrite updt_ne by exact X. apply (dk_listed _ _ _ K1); [exact I|intros []].
    - intros t c. change (deleted d2) with (deleted d1). unfold d2. cbn [with_tier d_tier d_size d_clauses]. unfold updt.
      destruct (tier_eqb t Mid); [intros []|apply (dk_tier _ _ _ K1)].
    - exact (dk_alloc _ _ _ K1).
    - exact (dk_full _ _ _ K1). }
  assert (Lv2 : live d2 = live d) by (exact (hsim_live _ _ H1)).
  assert (Tr2 : forall c, htier d2 c = htier d c) by (exact (hs_htier _ _ H1)).
  destruct (retain_active d2 l1) as [d3 r] eqn:E3.
  apply (retain_active_spec (fun t => t = Mid) (s_lits s)) in E3; [|exact K2|exact ND1|].
  2:{ intros c I. rewrite Lv2, Tr2. apply In1', I. }
  destruct E3 as (K3 & L3 & _ & T3 & Sub & NDr & M3).
  assert (T3' : forall c, htier d3 c = htier d c \/ htier d c = Mid /\ htier d3 c = Local).
  { intros c. rewrite T3, Tr2. destruct (existsb (N.eqb c) l1) eqn:Q; cbn [andb]; [|auto].
    apply memb_in, In1' in Q. destruct (existsb (N.eqb c) r); cbn [negb]; tauto. }
  split; [split|].
  - eapply core_weaken; [|apply (set_tier_core (fun t => t = Mid) (s_lits s) d3 Mid r); [exact K3|exact NDr|]].
    + intros t [-> H]. exact (H eq_refl).
    + intros c. rewrite L3, Lv2, T3, Tr2. split.
      * intros I. assert (Q := I). apply Sub, In1' in Q. split; [tauto|]. apply memb_in in I. rewrite I, andb_false_r. tauto.
      * intros [A B]. destruct (existsb (N.eqb c) r) eqn:Q; [apply memb_in; exact Q|]. cbn [negb] in B.
        destruct (existsb (N.eqb c) l1) eqn:Q2; cbn [andb] in B; [discriminate|].
        assert (In c l1) by (apply In1'; auto). apply memb_in in H. congruence.
  - intros c. cbn [with_tier with_count d_hdr]. destruct (h_mark (d_hdr d3 c)) eqn:Q; [exfalso|reflexivity].
    apply M3 in Q. change (d_hdr d2) with (d_hdr d1) in Q. destruct Q as [Q1 Q2]. apply M1 in Q1. rewrite (U c) in Q1.
    destruct Q1 as [?|Q1]; [discriminate|contradiction].
  - assert (Lq : live (with_tier (with_count d3 (updt (d_count d3) Mid (length r))) (updt (d_tier (with_count d3 (updt (d_count d3) Mid (length r)))) Mid r)) = live d).
    { transitivity (live d3); [reflexivity|]. congruence. }
    split; [|split; [exact Lq|exact T3']].
    constructor.
    + rewrite Lq. symmetry. apply filter_true.
    + intros c _. unfold htier at 1; cbn [with_tier with_count d_hdr]; fold (htier d3 c). destruct (T3' c) as [->|[-> ->]]; [tauto|split; discriminate].
    + intros c [].
    + intros c [].
Qed.

(** * Activities *)
Lemma fold_act_hsim (f : f32 -> f32) l : forall d, hsim d (fold_left (fun d c => map_hdr d c (fun h => set_act h (f (h_act h)))) l d).
Proof.
  induction l as [|x l IH]; intros d; cbn [fold_left]; [apply hsim_refl|].
  eapply hsim_trans; [|apply IH]. apply map_hdr_hsim; reflexivity.
Qed.
Lemma fold_act_mark (f : f32 -> f32) l : forall d c, h_mark (d_hdr (fold_left (fun d c => map_hdr d c (fun h => set_act h (f (h_act h)))) l d) c) = h_mark (d_hdr d c).
Proof.
  induction l as [|x l IH]; intros d c; cbn [fold_left]; [reflexivity|]. rewrite IH, map_hdr_hdr.
  destruct (N.eqb_spec c x) as [->|]; reflexivity.
Qed.
Lemma filter_filter {A} (f : A -> bool) l : filter f (filter f l) = filter f l.
Proof. induction l as [|x l IH]; [reflexivity|]. cbn. destruct (f x) eqn:E; cbn; [rewrite E, IH|]; auto. Qed.

(** Changes that keep the clauses with their tiers *)
Record keeps (d d' : cdb) : Prop := {
  kp_live : live d' = live d;
  kp_irred : forall c, In c (live d) -> (htier d' c = Irred <-> htier d c = Irred);
  kp_garbage : d_garbage d' = d_garbage d; kp_size : d_size d' = d_size d }.
Lemma keeps_refl d : keeps d d.
Proof. constructor; tauto. Qed.
Lemma keeps_trans a b c : keeps a b -> keeps b c -> keeps a c.
Proof.
  intros H G. constructor.
  - rewrite (kp_live _ _ G). apply H.
  - intros x I. rewrite (kp_irred _ _ G) by (rewrite (kp_live _ _ H); exact I). apply H, I.
  - rewrite (kp_garbage _ _ G). apply H.
  - rewrite (kp_size _ _ G). apply H.
Qed.
Lemma hsim_keeps d d' : hsim d d' -> keeps d d'.
Proof. intros H. constructor; [apply hsim_live, H| |apply H|apply H]. intros. rewrite (hs_htier _ _ H). tauto. Qed.
Lemma hsim_ok lits d d' : hsim d d' -> (forall c, h_mark (d_hdr d' c) = h_mark (d_hdr d c)) -> db_ok lits d -> db_ok lits d'.
Proof. intros H M [K U]. split; [exact (hsim_core _ _ _ _ H K)|]. intros c. rewrite M. apply U. Qed.

Lemma drop_deleted_core ex lits d : db_core ex lits d -> db_core ex lits (with_clauses d (live d)).
Proof.
  intros K. assert (L : live (with_clauses d (live d)) = live d).
  { unfold live. change (d_clauses (with_clauses _ _)) with (filter (fun c => negb (deleted d c)) (d_clauses d)).
    change (deleted (with_clauses _ _)) with (deleted d). apply filter_filter. }
  constructor.
  - apply NoDup_filter, (dk_nodup _ _ _ K).
  - rewrite L. exact (dk_glue _ _ _ K).
  - intros t. unfold of_tier. rewrite L. apply (dk_count _ _ _ K).
  - rewrite L. exact (dk_listed _ _ _ K).
  - intros t c I. apply (dk_tier _ _ _ K) in I. destruct I as [A B]. split; [exact A|]. intros D. apply live_in. split; [apply B, D|exact D].
  - destruct (dk_alloc _ _ _ K) as (al & A & B & C & D & E & F). exists al.
    split; [exact A|]. split; [exact B|]. split; [|split; [|split; [exact E|exact F]]].
    + intros c I. apply C. apply live_in in I. tauto.
    + intros c I Q. apply live_in. split; [apply D; assumption|exact Q].
  - exact (dk_full _ _ _ K).
Qed.

Lemma rescale_clauses_spec lits d : db_ok lits d -> db_ok lits (rescale_clauses d) /\ keeps d (rescale_clauses d) /\
  (forall c, htier (rescale_clauses d) c = htier d c).
Proof.
  intros [K U]. unfold rescale_clauses. fold (live d).
  set (d1 := with_clauses d (live d)).
  assert (K1 : db_core no_tier lits d1) by apply drop_deleted_core, K.
  assert (L1 : live d1 = live d).
  { unfold live at 1. change (d_clauses d1) with (live d). change (deleted d1) with (deleted d). apply filter_filter. }
  set (d2 := fold_left _ (live d) d1).
  assert (H : hsim d1 d2) by (apply (fold_act_hsim (fun a => f32_mul a clause_factor))).
  assert (M : forall c, h_mark (d_hdr d2 c) = h_mark (d_hdr d1 c)) by (intros; apply (fold_act_mark (fun a => f32_mul a clause_factor))).
  set (d3 := with_bump d2 _). assert (H3 : hsim d2 d3) by (constructor; reflexivity).
  pose proof (hsim_trans _ _ _ H H3) as H4.
  split; [|split].
  - eapply hsim_ok; [exact H4|exact M|]. split; [exact K1|exact U].
  - eapply keeps_trans; [|exact (hsim_keeps _ _ H4)]. constructor; [exact L1| |reflexivity|reflexivity]. intros; reflexivity.
  - intros c. rewrite (hs_htier _ _ H4). reflexivity.
Qed.
Lemma bump_activity_spec lits d c : db_ok lits d -> db_ok lits (bump_clause_activity d c) /\ keeps d (bump_clause_activity d c) /\
  (forall x, htier (bump_clause_activity d c) x = htier d x).
Proof.
  intros K. unfold bump_clause_activity. set (d1 := map_hdr d c _).
  assert (H : hsim d d1) by apply set_act_hsim.
  assert (K1 : db_ok lits d1).
  { eapply hsim_ok; [exact H| |exact K]. intros x. unfold d1. rewrite map_hdr_hdr. destruct (N.eqb_spec x c) as [->|]; reflexivity. }
  destruct (f32_gt _ _).
  - destruct (rescale_clauses_spec _ _ K1) as (A & B & C). split; [exact A|]. split; [eapply keeps_trans; [apply hsim_keeps, H|exact B]|].
    intros x. rewrite C. apply H.
  - split; [exact K1|]. split; [apply hsim_keeps, H|apply H].
Qed.
Lemma decay_activities_spec lits d : db_ok lits d -> db_ok lits (decay_clause_activities d) /\ keeps d (decay_clause_activities d) /\
  (forall x, htier (decay_clause_activities d) x = htier d x).
Proof.
  intros K. unfold decay_clause_activities. set (d1 := with_bump d _).
  assert (H : hsim d d1) by (constructor; reflexivity).
  assert (K1 : db_ok lits d1) by (eapply hsim_ok; [exact H|reflexivity|exact K]).
  destruct (f32_ge _ _).
  - destruct (rescale_clauses_spec _ _ K1) as (A & B & C). split; [exact A|]. split; [eapply keeps_trans; [apply hsim_keeps, H|exact B]|].
    intros x. rewrite C. apply H.
  - split; [exact K1|]. split; [apply hsim_keeps, H|apply H].
Qed.
Lemma select_tier_irred g : select_tier g <> Irred.
Proof. unfold select_tier. destruct (_ <=? _)%N; [discriminate|]. destruct (_ <=? _)%N; discriminate. Qed.
Lemma bump_clause_spec s d f c d' f' : db_ok (s_lits s) d -> In c (live d) -> bump_clause s d f c = (d', f') ->
  db_ok (s_lits s) d' /\ keeps d d'.
Proof.
  intros K I E. unfold bump_clause in E. destruct (bump_activity_spec _ _ c K) as (K1 & P1 & T1).
  set (d1 := bump_clause_activity d c) in *. destruct (compute_glue s f (s_lits s c)) as [f1 glue].
  set (d2 := map_hdr d1 c (fun h => set_active h true)) in *.
  assert (H2 : hsim d1 d2) by apply set_active_hsim.
  assert (K2 : db_ok (s_lits s) d2).
  { eapply hsim_ok; [exact H2| |exact K1]. intros x. unfold d2. rewrite map_hdr_hdr. destruct (N.eqb_spec x c) as [->|]; reflexivity. }
  assert (P2 : keeps d d2) by (eapply keeps_trans; [exact P1|apply hsim_keeps, H2]).
  destruct (glue <? h_glue (d_hdr d2 c))%N eqn:G; injection E as <- <-; [|auto].
  apply N.ltb_lt in G.
  assert (I2 : In c (live d2)) by (rewrite (kp_live _ _ P2); exact I).
  assert (NI : htier d2 c <> Irred).
  { intros T. rewrite (dk_glue _ _ _ (proj1 K2) c I2 T) in G. lia. }
  set (d3 := map_hdr d2 c (fun h => set_glue h glue)).
  assert (H3 : hsim d2 d3).
  { constructor; try reflexivity.
    - intros x. unfold htier, d3. rewrite map_hdr_hdr. destruct (N.eqb_spec x c) as [->|]; reflexivity.
    - intros x. unfold deleted, d3. rewrite map_hdr_hdr. destruct (N.eqb_spec x c) as [->|]; reflexivity.
    - intros x T. unfold d3. rewrite map_hdr_hdr. destruct (N.eqb_spec x c) as [->|]; [contradiction|reflexivity]. }
  assert (K3 : db_ok (s_lits s) d3).
  { eapply hsim_ok; [exact H3| |exact K2]. intros x. unfold d3. rewrite map_hdr_hdr. destruct (N.eqb_spec x c) as [->|]; reflexivity. }
  pose proof (set_clause_tier_core _ _ d3 c (select_tier glue) (proj1 K3)) as Q. cbv zeta in Q.
  destruct Q as (K4 & L4 & T4 & D4 & Q4).
  { rewrite (hsim_live _ _ H3). exact I2. } { apply select_tier_irred. }
  set (d4 := set_clause_tier d3 c (select_tier glue)) in *.
  split; [split; [exact K4|]|].
  - intros x. unfold d4, set_clause_tier. destruct (tier_eqb _ _); [apply (proj2 K3)|].
    unfold push_tier. cbn [with_tier d_hdr]. rewrite map_hdr_hdr. destruct (N.eqb_spec x c) as [->|]; [|apply (proj2 K3)].
    apply (proj2 K3).
  - eapply keeps_trans; [exact P2|]. constructor.
    + rewrite L4. apply hsim_live, H3.
    + intros x Ix. rewrite T4. destruct (N.eqb_spec x c) as [->|].
      * split; [intros Z; destruct (select_tier_irred _ Z)|contradiction].
      * rewrite (hs_htier _ _ H3). tauto.
    + unfold d4, set_clause_tier. destruct (tier_eqb _ _); reflexivity.
    + unfold d4, set_clause_tier. destruct (tier_eqb _ _); reflexivity.
Qed.

(** * Garbage collection *)
Definition undeleted (d : cdb) (l : list N) : list N := filter (fun c => negb (deleted d c)) l.
Definition var0 (s : search) (c : N) : N := lit_var (nth 0 (s_lits s c) 0%N).

Lemma undeleted_in d l c : In c (undeleted d l) <-> In c l /\ deleted d c = false.
Proof. unfold undeleted. rewrite filter_In. destruct (deleted d c); cbn; intuition congruence. Qed.
Lemma NoDup_map_inj {A B} (f : A -> B) l : (forall x y, In x l -> In y l -> f x = f y -> x = y) -> NoDup l -> NoDup (map f l).
Proof.
  induction l as [|x l IH]; intros I ND; cbn; [constructor|]. inversion ND; subst. constructor.
  - rewrite in_map_iff. intros (y & E & J). assert (y = x) by (apply I; [right; exact J|left; reflexivity|exact E]). congruence.
  - apply IH; [|assumption]. intros a b Ia Ib. apply I; right; assumption.
Qed.

Lemma copy_live_spec s d : forall l nl nd rs nl' nd' rs', copy_live s d l nl nd rs = (nl', nd', rs') -> NoDup l ->
  (forall a b, In a (undeleted d l) -> In b (undeleted d l) -> h_mark (d_hdr d a) = true -> h_mark (d_hdr d b) = true ->
     var0 s a = var0 s b -> a = b) ->
  exists ρ : N -> N,
    d_clauses nd' = d_clauses nd ++ map ρ (undeleted d l) /\
    (forall a b, In a (undeleted d l) -> In b (undeleted d l) -> ρ a = ρ b -> a = b) /\
    (forall c, In c (undeleted d l) -> (d_size nd <= ρ c < d_size nd')%N /\ nl' (ρ c) = s_lits s c /\
       d_hdr nd' (ρ c) = set_mark (d_hdr d c) false) /\
    (forall x, (x < d_size nd)%N -> nl' x = nl x /\ d_hdr nd' x = d_hdr nd x) /\
    (forall x, (d_size nd' <= x)%N -> d_hdr nd' x = d_hdr nd x) /\
    (forall x, h_mark (d_hdr nd' x) = true -> h_mark (d_hdr nd x) = true) /\
    (forall t, d_tier nd' t = d_tier nd t ++ map ρ (filter (fun c => tier_eqb (htier d c) t) (undeleted d l))) /\
    d_count nd' = d_count nd /\ d_garbage nd' = d_garbage nd /\ d_bump nd' = d_bump nd /\ d_inv nd' = d_inv nd /\
    d_size nd' = (d_size nd + tot (s_lits s) (undeleted d l))%N /\
    (forall c, In c (undeleted d l) -> h_mark (d_hdr d c) = true -> rs' (var0 s c) = RLong (ρ c)) /\
    (forall v, (forall c, In c (undeleted d l) -> h_mark (d_hdr d c) = true -> var0 s c <> v) -> rs' v = rs v).
Proof.
  induction l as [|c l IH]; intros nl nd rs nl' nd' rs' E ND Dj.
  - cbn [copy_live] in E. injection E as <- <- <-. exists (fun x => x). cbn [undeleted filter map].
    split; [rewrite app_nil_r; reflexivity|]. split; [intros ? ? []|]. split; [intros ? []|]. split; [auto|]. split; [auto|]. split; [auto|].
    split; [intros; rewrite app_nil_r; reflexivity|]. do 4 (split; [reflexivity|]). split; [cbn; lia|]. split; [intros ? []|auto].
  - inversion ND as [|? ? NI ND']; subst. cbn [copy_live] in E.
    assert (Dq : undeleted d (c :: l) = if h_deleted (d_hdr d c) then undeleted d l else c :: undeleted d l).
    { unfold undeleted. cbn [filter]. unfold deleted at 1. destruct (h_deleted (d_hdr d c)); reflexivity. }
    rewrite Dq in *. clear Dq. destruct (h_deleted (d_hdr d c)) eqn:Del; cbn [negb].
    { apply IH in E; [exact E|exact ND'|exact Dj]. }
    set (new := d_size nd) in *. set (nd1 := Cdb _ _ _ _ _ _ _ _ _) in E.
    set (nl1 := upd nl new (s_lits s c)) in E.
    set (rs1 := if h_mark (d_hdr d c) then _ else rs) in E.
    apply IH in E; [|exact ND'|intros a b Ia Ib; apply Dj; right; assumption]. clear IH.
    destruct E as (ρ & C1 & C2 & C3 & C4 & C5 & C6 & C7 & C8 & C9 & C10 & C11 & C12 & C13 & C14).
    assert (Sz : d_size nd1 = (new + clause_size (s_lits s c))%N) by reflexivity.
    assert (NIu : ~ In c (undeleted d l)) by (rewrite undeleted_in; tauto).
    assert (Szl : (new < d_size nd1)%N) by (rewrite Sz; unfold clause_size; lia).
    set (σ := fun x => if N.eqb x c then new else ρ x).
    assert (Sc : σ c = new) by (unfold σ; rewrite N.eqb_refl; reflexivity).
    assert (Sx : forall x, In x (undeleted d l) -> σ x = ρ x).
    { intros x I. unfold σ. destruct (N.eqb_spec x c) as [->|]; [contradiction|reflexivity]. }
    assert (Ms : forall q, incl q (undeleted d l) -> map σ q = map ρ q).
    { intros q Hq. apply map_ext_in. intros a I. apply Sx, Hq, I. }
    exists σ.
    split; [|split; [|split; [|split; [|split; [|split; [|split; [|do 4 (split; [solve [assumption]|]); split; [|split]]]]]]]].
    + rewrite C1. cbn [map]. rewrite Sc, Ms by apply incl_refl. unfold nd1. cbn [d_clauses]. rewrite <- app_assoc. reflexivity.
    + intros a b [<-|Ia] [<-|Ib]; rewrite ?Sc, ?Sx by assumption; intros Q; [reflexivity| | |exact (C2 _ _ Ia Ib Q)].
      * apply C3 in Ib. lia.
      * apply C3 in Ia. lia.
    + intros a [<-|I].
      * rewrite Sc. destruct (C4 new Szl) as [A B]. rewrite A, B. unfold nl1, nd1. cbn [d_hdr]. rewrite !upd_eq.
        split; [lia|auto].
      * rewrite Sx by exact I. destruct (C3 _ I) as (A & B & D). split; [lia|auto].
    + intros x Lx. destruct (C4 x) as [A B]; [lia|]. rewrite A, B. unfold nl1, nd1. cbn [d_hdr]. rewrite !upd_ne by lia. auto.
    + intros x Lx. rewrite C5 by exact Lx. unfold nd1. cbn [d_hdr]. rewrite upd_ne; [reflexivity|]. lia.
    + intros x M. apply C6 in M. unfold nd1 in M. cbn [d_hdr] in M. unfold upd in M. destruct (N.eqb x new); [cbn in M; discriminate|exact M].
    + intros t. rewrite C7. unfold nd1. cbn [d_tier filter]. change (h_tier (d_hdr d c)) with (htier d c). unfold updt.
      assert (Inc : incl (filter (fun c0 => tier_eqb (htier d c0) t) (undeleted d l)) (undeleted d l)) by (intros z Z; apply filter_In in Z; tauto).
      destruct (tier_eqb (htier d c) t) eqn:T.
      * apply tier_eqb_eq in T. subst t. rewrite tier_eqb_refl. cbn [map]. rewrite Sc, Ms by exact Inc. rewrite <- app_assoc. reflexivity.
      * rewrite Ms by exact Inc. destruct (tier_eqb t (htier d c)) eqn:T2; [|reflexivity]. apply tier_eqb_eq in T2. subst t.
        rewrite tier_eqb_refl in T. discriminate.
    + rewrite C12, Sz. cbn [tot fold_right]. fold (tot (s_lits s) (undeleted d l)). fold new. lia.
    + intros a [<-|I] M.
      * rewrite Sc. rewrite C14.
        -- unfold rs1. rewrite M. unfold var0. apply upd_eq.
        -- intros b Ib Mb Q. assert (b = c) by (apply Dj; [right; exact Ib|left; reflexivity|exact Mb|exact M|exact Q]). congruence.
      * rewrite Sx by exact I. apply C13; assumption.
    + intros v Hv. rewrite C14 by (intros a I; apply Hv; right; exact I). unfold rs1.
      destruct (h_mark (d_hdr d c)) eqn:M; [|reflexivity]. apply upd_ne. intros Q. apply (Hv c); [left; reflexivity|exact M|]. symmetry. exact Q.
Qed.

Lemma mark_asserting_spec s : forall tr d,
  let d' := fold_left (fun d l => match s_reason s (lit_var l) with
                        | RLong c => map_hdr d c (fun h => set_mark h true) | _ => d end) tr d in
  hsim d d' /\ (forall c, h_mark (d_hdr d' c) = true <->
                  h_mark (d_hdr d c) = true \/ exists l, In l tr /\ s_reason s (lit_var l) = RLong c) /\
  (forall c, set_mark (d_hdr d' c) false = set_mark (d_hdr d c) false) /\ d_bump d' = d_bump d /\ d_inv d' = d_inv d.
Proof.
  induction tr as [|l tr IH]; intros d; cbv zeta in *; cbn [fold_left].
  - split; [apply hsim_refl|]. split; [|auto]. intros c. split; [auto|]. intros [H|(l & [] & _)]. exact H.
  - destruct (s_reason s (lit_var l)) as [|b|c0] eqn:R.
    1,2: destruct (IH d) as (A & B & C & D); split; [exact A|]; split; [|split; [exact C|exact D]];
      intros c; rewrite B; split; (intros [H|(x & I & Q)]; [left; exact H|]);
      [right; exists x; split; [right; exact I|exact Q]|];
      destruct I as [<-|I]; [congruence|]; right; exists x; auto.
    destruct (IH (map_hdr d c0 (fun h => set_mark h true))) as (A & B & C & D). split; [|split; [|split]].
    + eapply hsim_trans; [apply set_mark_hsim|exact A].
    + intros c. rewrite B, map_hdr_hdr. split.
      * intros [H|(x & I & Q)]; [|right; exists x; split; [right; exact I|exact Q]].
        destruct (N.eqb_spec c c0) as [e|]; [right; exists l; split; [left; reflexivity|rewrite e; exact R]|left; exact H].
      * intros [H|(x & [<-|I] & Q)].
        -- left. destruct (N.eqb c c0); [reflexivity|exact H].
        -- left. rewrite R in Q. injection Q as ->. rewrite N.eqb_refl. reflexivity.
        -- right. exists x. auto.
    + intros c. rewrite C, map_hdr_hdr. destruct (N.eqb_spec c c0) as [->|]; reflexivity.
    + exact D.
Qed.
Lemma unset_mark h : h_mark h = false -> set_mark h false = h.
Proof. destruct h; cbn. intros ->. reflexivity. Qed.

Definition move (ρ : N -> N) (r : reason) : reason := match r with RLong c => RLong (ρ c) | _ => r end.

(** Compaction moves every clause that is not deleted, with its literals and header, to a new
    place, and the reasons of the assignments with them. *)
Record moved (ρ : N -> N) (s : search) (d : cdb) (s' : search) (d' : cdb) : Prop := {
  mv_inj : forall a b, In a (live d) -> In b (live d) -> ρ a = ρ b -> a = b;
  mv_live : live d' = map ρ (live d);
  mv_lits : forall c, In c (live d) -> s_lits s' (ρ c) = s_lits s c;
  mv_hdr : forall c, In c (live d) -> d_hdr d' (ρ c) = d_hdr d c;
  mv_reason : forall l, In l (s_trail s) -> s_reason s' (lit_var l) = move ρ (s_reason s (lit_var l));
  mv_off : forall v, ~ In v (map lit_var (s_trail s)) -> s_reason s' v = s_reason s v;
  mv_search : s' = with_wen (with_lits (with_reason s (s_reason s')) (s_lits s')) false \/ s' = s;
  mv_garbage : (d_garbage d' * 2 <= d_size d')%N;
  mv_activity : d_bump d' = d_bump d /\ d_inv d' = d_inv d }.

Theorem collect_now_spec s d : db_ok (s_lits s) d -> NoDup (map lit_var (s_trail s)) ->
  (forall l c, In l (s_trail s) -> s_reason s (lit_var l) = RLong c ->
     In c (live d) /\ exists rest, s_lits s c = l :: rest) ->
  exists s' d' ρ, collect_garbage_now s d = Some (s', d') /\ moved ρ s d s' d' /\
    s_wen s' = false /\ d_garbage d' = 0%N /\ d_clauses d' = live d' /\ d_size d' = tot (s_lits s) (live d) /\
    (forall t, d_tier d' t = map ρ (of_tier d t)) /\
    (d_full d' = false -> db_ok (s_lits s') d').
Proof.
  intros [K U] ND R. unfold collect_garbage_now. set (s0 := disable_watchlists s).
  pose proof (mark_asserting_spec s (s_trail s) d) as Q. cbv zeta in Q.
  change (fold_left _ (s_trail s) d) with (mark_asserting s0 d) in Q. set (d1 := mark_asserting s0 d) in *.
  destruct Q as (H1 & M1 & Hd1 & B1 & I1). assert (K1 := hsim_core _ _ _ _ H1 K).
  assert (G : (d_garbage d1 <= d_size d1)%N).
  { destruct (dk_alloc _ _ _ K1) as (al & _ & _ & _ & _ & -> & Le). etransitivity; [apply tot_filter_le|exact Le]. }
  apply N.leb_le in G. rewrite G.
  destruct (copy_live s0 d1 (d_clauses d1) _ _ _) as [[nl nd] rs] eqn:E.
  apply copy_live_spec in E; [|exact (dk_nodup _ _ _ K1)|].
  2:{ intros a b Ia Ib Ma Mb Q. apply M1 in Ma, Mb. rewrite U in Ma. rewrite U in Mb.
      destruct Ma as [?|(la & Ta & Ra)]; [discriminate|]. destruct Mb as [?|(lb & Tb & Rb)]; [discriminate|].
      destruct (R _ _ Ta Ra) as (_ & ra & La). destruct (R _ _ Tb Rb) as (_ & rb & Lb).
      unfold var0 in Q. change (s_lits s0) with (s_lits s) in Q. rewrite La, Lb in Q. cbn [nth] in Q. congruence. }
  assert (Lv : undeleted d1 (d_clauses d1) = live d) by (change (live d1 = live d); exact (hsim_live _ _ H1)).
  rewrite Lv in E. destruct E as (ρ & C1 & C2 & C3 & C4 & C5 & C6 & C7 & C8 & C9 & C10 & C11 & C12 & C13 & C14).
  change (s_lits s0) with (s_lits s) in *. change (s_reason s0) with (s_reason s) in *. cbn [d_clauses d_size d_hdr d_tier d_count d_garbage d_bump d_inv app] in *.
  assert (Hd : forall c, In c (live d) -> d_hdr nd (ρ c) = d_hdr d c).
  { intros c I. destruct (C3 c I) as (_ & _ & ->). rewrite Hd1. apply unset_mark, U. }
  assert (Dl : forall c, In c (live d) -> deleted nd (ρ c) = false).
  { intros c I. unfold deleted. rewrite Hd by exact I. apply live_in in I. apply I. }
  assert (Ln : live nd = map ρ (live d)).
  { unfold live at 1. rewrite C1. assert (Q : forall q, incl q (live d) -> filter (fun c => negb (deleted nd c)) (map ρ q) = map ρ q).
    { induction q as [|x q IH]; intros Hq; [reflexivity|]. cbn [map filter]. rewrite Dl by (apply Hq; left; reflexivity). cbn [negb].
      rewrite IH; [reflexivity|]. intros z Z. apply Hq. right. exact Z. }
    apply Q, incl_refl. }
  assert (Tq : forall c, htier d1 c = htier d c) by (apply H1).
  assert (Ot : forall t, filter (fun c => tier_eqb (htier d1 c) t) (live d) = of_tier d t).
  { intros t. unfold of_tier. apply filter_ext'. intros. rewrite Tq. reflexivity. }
  assert (Otn : forall t, of_tier nd t = map ρ (of_tier d t)).
  { intros t. unfold of_tier. rewrite Ln. assert (Q : forall q, incl q (live d) ->
      filter (fun c => tier_eqb (htier nd c) t) (map ρ q) = map ρ (filter (fun c => tier_eqb (htier d c) t) q)).
    { induction q as [|x q IH]; intros Hq; [reflexivity|]. cbn [map filter]. unfold htier at 1. rewrite Hd by (apply Hq; left; reflexivity).
      fold (htier d x). rewrite IH by (intros z Z; apply Hq; right; exact Z). destruct (tier_eqb _ _); reflexivity. }
    apply Q, incl_refl. }
  eexists _, _, ρ. split; [reflexivity|]. split; [|split; [reflexivity|split; [exact C9|split; [|split; [|split]]]]].
  - constructor; cbn [with_lits with_reason s0 disable_watchlists with_wen s_lits s_reason s_trail].
    + exact C2.
    + exact Ln.
    + intros c I. apply C3, I.
    + exact Hd.
    + intros l I. destruct (s_reason s (lit_var l)) as [|b|c] eqn:Rl.
      1,2: (rewrite C14; [exact Rl|]); intros c Ic Mc Q; apply M1 in Mc; rewrite U in Mc;
        destruct Mc as [?|(x & Tx & Rx)]; [discriminate|]; destruct (R _ _ Tx Rx) as (_ & r & Lx);
        unfold var0 in Q; change (s_lits s0) with (s_lits s) in Q; rewrite Lx in Q; cbn [nth] in Q; congruence.
      destruct (R _ _ I Rl) as (Ic & r & Lc). cbn [move]. assert (V : lit_var l = var0 s0 c).
      { unfold var0. change (s_lits s0) with (s_lits s). rewrite Lc. reflexivity. }
      rewrite V. apply C13; [exact Ic|]. apply M1. right. exists l. auto.
    + intros v Nv. apply C14. intros c Ic Mc Q. apply M1 in Mc. rewrite U in Mc.
      destruct Mc as [?|(x & Tx & Rx)]; [discriminate|]. destruct (R _ _ Tx Rx) as (_ & r & Lx).
      unfold var0 in Q. change (s_lits s0) with (s_lits s) in Q. rewrite Lx in Q. cbn [nth] in Q. apply Nv. rewrite <- Q. apply in_map, Tx.
    + left. reflexivity.
    + rewrite C9. lia.
    + rewrite C10, C11. auto.
  - rewrite Ln. exact C1.
  - rewrite C12. lia.
  - intros t. rewrite C7, Ot. reflexivity.
  - intros F. split.
    + constructor; cbn [with_lits s_lits].
      * rewrite C1. apply NoDup_map_inj; [exact C2|]. apply (live_nodup _ _ _ K).
      * intros c. rewrite Ln, in_map_iff. intros (x & <- & I). unfold htier. rewrite Hd by exact I. apply (dk_glue _ _ _ K), I.
      * intros t. rewrite C8, (hs_count _ _ H1), (dk_count _ _ _ K), Otn, map_length. reflexivity.
      * intros c. rewrite Ln, in_map_iff. intros (x & <- & I) _. unfold htier. rewrite Hd by exact I. rewrite C7, Ot. apply in_map, of_tier_in.
        auto.
      * intros t c. rewrite C7, Ot, in_map_iff. intros (x & <- & I). apply of_tier_in in I. split; [apply C3, I|].
        intros _. rewrite C1. apply in_map, I.
      * exists (d_clauses nd). rewrite C1. split; [apply NoDup_map_inj; [exact C2|]; apply (live_nodup _ _ _ K)|].
        split; [intros c I; apply in_map_iff in I; destruct I as (x & <- & I); apply C3, I|]. split; [apply incl_refl|].
        split; [auto|]. split.
        -- rewrite C9. symmetry. assert (Q : forall q, incl q (live d) -> filter (deleted nd) (map ρ q) = []).
           { induction q as [|x q IH]; intros Hq; [reflexivity|]. cbn [map filter]. rewrite Dl by (apply Hq; left; reflexivity).
             apply IH. intros z Z. apply Hq. right. exact Z. }
           rewrite Q by apply incl_refl. reflexivity.
        -- rewrite C12. assert (Q : forall q, incl q (live d) -> tot nl (map ρ q) = tot (s_lits s) q).
           { induction q as [|x q IH]; intros Hq; [reflexivity|]. cbn [map tot fold_right]. fold (tot nl (map ρ q)). fold (tot (s_lits s) q).
             rewrite IH by (intros z Z; apply Hq; right; exact Z). f_equal. f_equal. apply C3, Hq. left. reflexivity. }
           rewrite Q by apply incl_refl. lia.
      * exact F.
    + intros c. destruct (h_mark (d_hdr nd c)) eqn:Q; [|reflexivity]. apply C6 in Q. discriminate.
Qed.

Lemma moved_refl s d : (d_garbage d * 2 <= d_size d)%N -> moved (fun x => x) s d s d.
Proof.
  intros G. constructor; auto.
  - rewrite map_id. reflexivity.
  - intros l _. destruct (s_reason s (lit_var l)); reflexivity.
Qed.
Theorem collect_spec s d : db_ok (s_lits s) d -> NoDup (map lit_var (s_trail s)) ->
  (forall l c, In l (s_trail s) -> s_reason s (lit_var l) = RLong c ->
     In c (live d) /\ exists rest, s_lits s c = l :: rest) ->
  exists s' d' ρ, collect_garbage s d = Some (s', d') /\ moved ρ s d s' d' /\
    (s' = s /\ d' = d \/ s_wen s' = false) /\
    (d_full d' = false -> db_ok (s_lits s') d').
Proof.
  intros K ND R. unfold collect_garbage. destruct (N.ltb_spec (d_size d) (d_garbage d * 2)) as [Lt|Ge].
  - destruct (collect_now_spec s d K ND R) as (s' & d' & ρ & A & B & C & _ & _ & _ & _ & D). exists s', d', ρ. auto.
  - exists s, d, (fun x => x). split; [reflexivity|]. split; [apply moved_refl; lia|]. auto.
Qed.

(** * Shortening a clause in place *)
Lemma shrink_ok lits d c cl : db_ok lits d -> In c (live d) -> length cl <= length (lits c) -> db_ok (upd lits c cl) d.
Proof.
  intros [K U] I L. split; [|exact U]. apply live_in in I. destruct I as [Ic Dc]. destruct K as [A B C D E F G]. constructor; auto.
  destruct F as (al & F1 & F2 & F3 & F4 & F5 & F6). exists al. repeat (split; [assumption|]). split.
  - rewrite F5. apply tot_ext. intros x Ix. apply filter_In in Ix. rewrite upd_ne; [reflexivity|]. intros ->. destruct Ix. congruence.
  - etransitivity; [|exact F6]. apply tot_le. intros x Ix. unfold upd. destruct (N.eqb_spec x c) as [->|]; auto.
Qed.
