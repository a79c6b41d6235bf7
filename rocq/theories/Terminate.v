(** Why the search ends: a potential that gets smaller with every conflict until the next restart. *)
From Coq Require Import Lia Arith PeanoNat Permutation ZArith ZifyBool ZifyNat ZifyN Sorted.
From Verif Require Import Spec Lit LitProofs BinFormat Hash F32 Vsids VsidsProofs VsidsWf Luby Config Search SearchBase
  Propagate P_Search ClauseDb DbProofs Analyze AnalyzeProofs P_Analyze SolverCtx CtxFrame VarsProofs Solver SolverInv SolverSimplify
  SolverAdd SolverLoad SolverFailed FailedHints SolverSearch.
Local Open Scope nat_scope.

(** * Sums *)
Lemma sum_le (f g : N -> nat) : forall l, (forall x, In x l -> f x <= g x) -> list_sum (map f l) <= list_sum (map g l).
Proof.
  induction l as [|x l IH]; intros H; [exact (Nat.le_refl 0)|]. change (f x + list_sum (map f l) <= g x + list_sum (map g l)).
  pose proof (H x (or_introl eq_refl)). pose proof (IH (fun y I => H y (or_intror I))). lia.
Qed.
Lemma sum_extra (f g : N -> nat) e y : forall l, (forall x, In x l -> f x <= g x) -> In y l -> f y + e <= g y ->
  list_sum (map f l) + e <= list_sum (map g l).
Proof.
  induction l as [|x l IH]; intros H I E; [destruct I|]. change (f x + list_sum (map f l) + e <= g x + list_sum (map g l)).
  pose proof (H x (or_introl eq_refl)). pose proof (sum_le f g l (fun y I => H y (or_intror I))).
  destruct I as [->|I]; [lia|]. pose proof (IH (fun y I => H y (or_intror I)) I E). lia.
Qed.
Lemma sum_plus (f : N -> nat) k : forall l, list_sum (map (fun x => f x + k) l) = list_sum (map f l) + length l * k.
Proof.
  induction l as [|x l IH]; [reflexivity|]. change (f x + k + list_sum (map (fun x => f x + k) l) = f x + list_sum (map f l) + (k + length l * k)). rewrite IH. lia.
Qed.
Lemma sum_bound (f : N -> nat) k l : (forall x, f x <= k) -> list_sum (map f l) <= length l * k.
Proof.
  intros H. assert (Z : list_sum (map (fun _ : N => 0) l) = 0) by (induction l as [|x l IH]; [reflexivity|exact IH]).
  pose proof (sum_le f (fun x => (fun _ => 0) x + k) l (fun x _ => H x)). rewrite sum_plus in H0. lia.
Qed.

(** * The weight *)
Definition share (b n : nat) (s : search) (x : N) : nat :=
  match s_val s x with Some _ => b ^ (n - s_level s x) | None => 0 end.
Definition weight (b n : nat) (s : search) : nat := list_sum (map (share b n s) (codes n 0)).

Lemma clen n : forall i, length (codes n i) = n.
Proof. induction n as [|n IH]; intros i; cbn [codes length]; [reflexivity|]. rewrite IH. reflexivity. Qed.
Lemma cin n : forall i x, (i <= x)%N -> (x < i + N.of_nat n)%N -> In x (codes n i).
Proof.
  induction n as [|n IH]; intros i x H1 H2; cbn [codes]; [lia|]. destruct (N.eq_dec i x) as [E|E]; [left; exact E|right]. apply IH; lia.
Qed.
Lemma pow_pos b k : b <> 0 -> 1 <= b ^ k.
Proof. intros H. pose proof (Nat.pow_nonzero b k H). lia. Qed.

Definition grows (s s' : search) : Prop := forall x b, s_val s x = Some b -> s_val s' x = Some b /\ s_level s' x = s_level s x.
Lemma grows_refl s : grows s s.
Proof. intros x b H. auto. Qed.
Lemma grows_trans a b c : grows a b -> grows b c -> grows a c.
Proof. intros H1 H2 x y E. destruct (H1 x y E) as [E1 L1]. destruct (H2 x y E1) as [E2 L2]. split; [exact E2|congruence]. Qed.
Lemma grows_eq s s' : s_val s' = s_val s -> s_level s' = s_level s -> grows s s'.
Proof. intros E1 E2 x b H. rewrite E1, E2. auto. Qed.
Lemma grows_enqueue s l r : s_val s (lit_var l) = None -> grows s (enqueue s l r).
Proof.
  intros H x b E. cbn [enqueue s_val s_level]. unfold upd. destruct (N.eqb_spec x (lit_var l)) as [->|NE]; [congruence|auto].
Qed.

Lemma share_le b n s s' x : grows s s' -> share b n s x <= share b n s' x.
Proof.
  intros G. unfold share. destruct (s_val s x) as [y|] eqn:E; [|lia]. destruct (G x y E) as [-> ->]. lia.
Qed.
Lemma weight_le b n s s' : grows s s' -> weight b n s <= weight b n s'.
Proof. intros G. apply sum_le. intros x _. apply share_le. exact G. Qed.
Lemma weight_lt b n s s' x : b <> 0 -> grows s s' -> (x < N.of_nat n)%N -> s_val s x = None -> s_val s' x <> None -> weight b n s < weight b n s'.
Proof.
  intros B G L E1 E2. assert (S1 : share b n s x + 1 <= share b n s' x).
  { unfold share. rewrite E1. destruct (s_val s' x); [|congruence]. apply pow_pos. exact B. }
  pose proof (sum_extra (share b n s) (share b n s') 1 x (codes n 0) (fun y _ => share_le b n s s' y G) (cin n 0 x (N.le_0_l x) L) S1). unfold weight. lia.
Qed.
Lemma weight_max b n s : b <> 0 -> weight b n s <= n * b ^ n.
Proof.
  intros B. unfold weight. etransitivity; [apply (sum_bound _ (b ^ n))|rewrite clen; lia].
  intros x. unfold share. destruct (s_val s x); [apply Nat.pow_le_mono_r; lia|lia].
Qed.
Lemma weight_one n s : weight 1 n s <= n.
Proof. pose proof (weight_max 1 n s ltac:(lia)). rewrite Nat.pow_1_l in H. lia. Qed.

(** * The potential *)
(** [tot f i m] is [f i + ... + f (i + m - 1)]. *)
Fixpoint tot (f : nat -> nat) (i m : nat) : nat := match m with O => 0 | S m => f i + tot f (S i) m end.
Lemma tot_le f g : forall m i, (forall j, i <= j -> j < i + m -> f j <= g j) -> tot f i m <= tot g i m.
Proof.
  induction m as [|m IH]; intros i H; cbn [tot]; [lia|]. pose proof (H i ltac:(lia) ltac:(lia)). pose proof (IH (S i) (fun j A B => H j ltac:(lia) ltac:(lia))). lia.
Qed.
Lemma tot_split f b : forall a i, tot f i (a + b) = tot f i a + tot f (i + a) b.
Proof.
  induction a as [|a IH]; intros i; cbn [tot Nat.add]; [rewrite Nat.add_0_r; reflexivity|]. rewrite IH. replace (S i + a) with (i + S a) by lia. lia.
Qed.
Definition term (n p : nat) : nat := if Nat.ltb p n then 2 ^ (n - 1 - p) else 0.
Lemma term_le n p q : p <= q -> term n q <= term n p.
Proof.
  intros H. unfold term. destruct (Nat.ltb_spec q n); [|lia]. destruct (Nat.ltb_spec p n); [|lia]. apply Nat.pow_le_mono_r; lia.
Qed.
Lemma tot_powers n g : forall m i p, (forall j, p + j <= g (i + j)) -> tot (fun L => term n (g L)) i m < 2 ^ (n - p).
Proof.
  induction m as [|m IH]; intros i p H; cbn [tot]; [apply pow_pos; discriminate|].
  assert (IH' : tot (fun L => term n (g L)) (S i) m < 2 ^ (n - S p)) by (apply IH; intros j; specialize (H (S j)); replace (S i + j) with (i + S j) by lia; lia).
  assert (T : term n (g i) <= term n p) by (apply term_le; specialize (H 0); rewrite !Nat.add_0_r in H; exact H). unfold term at 2 in T.
  destruct (Nat.ltb_spec p n) as [Q|Q].
  - replace (n - p) with (S (n - S p)) by lia. replace (n - 1 - p) with (n - S p) in T by lia. cbn [Nat.pow]. lia.
  - replace (n - p) with 0 by lia. replace (n - S p) with 0 in IH' by lia. cbn [Nat.pow] in *. lia.
Qed.

(** The number of variables assigned on the levels up to [L], as if every variable that is not assigned were a level of its own, and the
    sum that gets smaller with every conflict: it has one binary digit for every variable that starts a level. *)
Definition low (s : search) (L : nat) (x : N) : nat := match s_val s x with Some _ => if Nat.leb (s_level s x) L then 1 else 0 | None => 0 end.
Definition upto (n : nat) (s : search) (L : nat) : nat := list_sum (map (low s L) (codes n 0)).
Fixpoint star (n : nat) (s : search) (L : nat) : nat := match L with O => upto n s 0 | S K => Nat.max (upto n s (S K)) (S (star n s K)) end.
Definition slack (n : nat) (s : search) : nat := tot (fun L => term n (star n s L)) 0 n.

Lemma star_step n s k : forall j, star n s k + j <= star n s (k + j).
Proof. induction j as [|j IH]; [rewrite !Nat.add_0_r; lia|]. replace (k + S j) with (S (k + j)) by lia. cbn [star]. lia. Qed.
Lemma star_ge n s L : upto n s L <= star n s L.
Proof. destruct L; cbn [star]; lia. Qed.
Lemma slack_max n s : slack n s < 2 ^ n.
Proof.
  unfold slack. pose proof (tot_powers n (star n s) n 0 0) as H. rewrite Nat.sub_0_r in H. apply H. intros j. pose proof (star_step n s 0 j). cbn [Nat.add] in *. lia.
Qed.
Lemma upto_bound n s L : upto n s L <= n.
Proof.
  unfold upto. etransitivity; [apply (sum_bound _ 1)|rewrite clen; lia]. intros x. unfold low. destruct (s_val s x); [|lia]. destruct (Nat.leb _ _); lia.
Qed.
Lemma star_mono n s s' : forall k, (forall L, L <= k -> upto n s L <= upto n s' L) -> star n s k <= star n s' k.
Proof.
  induction k as [|k IH]; intros H; cbn [star]; [apply H; lia|]. pose proof (H (S k) ltac:(lia)). pose proof (IH (fun L Q => H L ltac:(lia))). lia.
Qed.
Lemma low_le s s' L x : grows s s' -> low s L x <= low s' L x.
Proof. intros G. unfold low. destruct (s_val s x) as [y|] eqn:E; [|lia]. destruct (G x y E) as [-> ->]. lia. Qed.
Lemma slack_le n s s' : grows s s' -> slack n s' <= slack n s.
Proof.
  intros G. apply tot_le. intros j _ _. apply term_le. apply star_mono. intros L _. apply sum_le. intros x _. apply low_le. exact G.
Qed.
(** Without empty levels *)
Lemma star_full n s : forall k, (forall L, L < k -> exists x, (x < N.of_nat n)%N /\ s_val s x <> None /\ s_level s x = S L) -> star n s k = upto n s k.
Proof.
  induction k as [|k IH]; intros H; cbn [star]; [reflexivity|]. rewrite IH by (intros L Q; apply H; lia).
  destruct (H k ltac:(lia)) as (x & X1 & X2 & X3). assert (upto n s k + 1 <= upto n s (S k)); [|lia].
  apply (sum_extra (low s k) (low s (S k)) 1 x); [|apply cin; [apply N.le_0_l|exact X1]|].
  - intros y _. unfold low. destruct (s_val s y); [|lia]. destruct (Nat.leb_spec (s_level s y) k); destruct (Nat.leb_spec (s_level s y) (S k)); lia.
  - unfold low. destruct (s_val s x); [|congruence]. rewrite X3. destruct (Nat.leb_spec (S k) k); destruct (Nat.leb_spec (S k) (S k)); lia.
Qed.

(** Going back to level [k] and assigning one more variable there makes the potential smaller. *)
Lemma slack_jump n s s' k y : k < n -> (y < N.of_nat n)%N ->
  (forall L, L < k -> exists x, (x < N.of_nat n)%N /\ s_val s x <> None /\ s_level s x = S L) ->
  (forall x b, s_val s x = Some b -> s_level s x <= k -> s_val s' x = Some b /\ s_level s' x = s_level s x) ->
  (s_val s y <> None -> k < s_level s y) -> s_val s' y <> None -> s_level s' y = k -> slack n s' < slack n s.
Proof.
  intros L Ly Fu K Y1 Y2 Y3.
  assert (Lo : forall M x, M <= k -> low s M x <= low s' M x).
  { intros M x Q. unfold low. destruct (s_val s x) as [b|] eqn:E; [|lia]. destruct (Nat.leb_spec (s_level s x) M) as [Q1|Q1]; [|lia].
    destruct (K x b E ltac:(lia)) as [-> ->]. destruct (Nat.leb_spec (s_level s x) M); lia. }
  assert (Hk : S (star n s k) <= star n s' k).
  { rewrite (star_full n s k Fu). pose proof (star_ge n s' k). assert (upto n s k + 1 <= upto n s' k); [|lia].
    apply (sum_extra (low s k) (low s' k) 1 y); [intros x _; apply Lo; lia|apply cin; [apply N.le_0_l|exact Ly]|]. unfold low at 2. destruct (s_val s' y); [|congruence].
    rewrite Y3, Nat.leb_refl. unfold low. destruct (s_val s y); [|lia]. specialize (Y1 ltac:(discriminate)). destruct (Nat.leb_spec (s_level s y) k); lia. }
  assert (Lt : star n s k < n).
  { rewrite (star_full n s k Fu) in *. pose proof (upto_bound n s' k) as B. 
    assert (upto n s k + 1 <= upto n s' k); [|lia].
    apply (sum_extra (low s k) (low s' k) 1 y); [intros x _; apply Lo; lia|apply cin; [apply N.le_0_l|exact Ly]|]. unfold low at 2. destruct (s_val s' y); [|congruence].
    rewrite Y3, Nat.leb_refl. unfold low. destruct (s_val s y); [|lia]. specialize (Y1 ltac:(discriminate)). destruct (Nat.leb_spec (s_level s y) k); lia. }
  unfold slack. set (f := fun M => term n (star n s M)). set (g := fun M => term n (star n s' M)).
  assert (E : n = k + S (n - S k)) by lia. assert (Ef : tot f 0 n = tot f 0 k + tot f k (S (n - S k))) by (rewrite E at 1; apply tot_split).
  assert (Eg : tot g 0 n = tot g 0 k + tot g k (S (n - S k))) by (rewrite E at 1; apply tot_split). rewrite Ef, Eg.
  assert (A : tot g 0 k <= tot f 0 k).
  { apply tot_le. intros j _ Q. apply term_le. apply star_mono. intros M Q1. apply sum_le. intros x _. apply Lo. lia. }
  assert (B : tot g k (S (n - S k)) < 2 ^ (n - S (star n s k))).
  { apply (tot_powers n (star n s')). intros j. pose proof (star_step n s' k j). lia. }
  cbn [tot] in *. unfold f at 2, term. destruct (Nat.ltb_spec (star n s k) n) as [Q|Q]; [|lia]. replace (n - 1 - star n s k) with (n - S (star n s k)) by lia. lia.
Qed.

(** * Propagation *)
Lemma open_none s l : lfalse s l = false -> ltrue s l = false -> s_val s (lit_var l) = None.
Proof.
  intros A B. destruct (value_cases s l) as [V|[V|V]]; [apply ltrue_iff in V; congruence|apply lfalse_iff in V; congruence|exact V].
Qed.
Lemma binary_grows lit : forall implied s s' r, propagate_binary s lit implied = (s', r) -> grows s s'.
Proof.
  induction implied as [|l rest IH]; intros s s' r E; cbn [propagate_binary] in E; [injection E as <- _; apply grows_refl|].
  destruct (lfalse s l) eqn:Lf; [injection E as <- _; apply grows_refl|]. destruct (ltrue s l) eqn:Lt; [exact (IH _ _ _ E)|].
  eapply grows_trans; [|exact (IH _ _ _ E)]. apply grows_enqueue. apply open_none; assumption.
Qed.
Lemma grows_as s s0 s' : s_val s = s_val s0 -> s_level s = s_level s0 -> grows s s' -> grows s0 s'.
Proof. intros E1 E2 G x b H. rewrite <- E2. apply G. rewrite E1. exact H. Qed.
Lemma watches_grows lit : forall ws kept s s' r, propagate_watches s lit ws kept = (s', r) -> grows s s'.
Proof.
  induction ws as [|[cref bl] ws IH]; intros kept s s' r E; cbn [propagate_watches] in E; [injection E as <- _; apply grows_eq; reflexivity|].
  destruct (ltrue s bl) eqn:Lb; [exact (IH _ _ _ _ E)|].
  destruct (s_lits s cref) as [|c0 [|c1 rest]]; try (injection E as <- _; apply grows_refl).
  destruct (if (c0 =? lnot lit)%N then (c1, lnot lit) else (c0, c1)) as [first second]. cbv zeta in E.
  destruct (negb (first =? bl)%N && ltrue s first) eqn:Q; [eapply grows_as; [| |exact (IH _ _ _ _ E)]; reflexivity|].
  destruct (take_watch s (lnot lit) rest) as [[l rest']|].
  - destruct (lnot l =? lit)%N; [injection E as <- _; apply grows_eq; reflexivity|]. eapply grows_as; [| |exact (IH _ _ _ _ E)]; reflexivity.
  - destruct (lfalse s first) eqn:Lf; [injection E as <- _; apply grows_eq; reflexivity|].
    assert (Lt : ltrue s first = false) by (destruct (N.eqb_spec first bl) as [->|NE]; [exact Lb|exact Q]).
    eapply grows_trans; [|exact (IH _ _ _ _ E)]. eapply grows_as; [| |apply grows_enqueue]; [reflexivity|reflexivity|].
    apply (open_none s first Lf Lt).
Qed.
Lemma loop_grows bin : forall fuel s s' r, propagate_loop fuel bin s = (s', r) -> grows s s'.
Proof.
  induction fuel as [|fuel IH]; intros s s' r E; cbn [propagate_loop] in E; destruct (nth_error (s_trail s) (s_head s)) as [lit|];
    try (injection E as <- _; apply grows_refl).
  cbv zeta in E. destruct (propagate_binary _ lit (bin lit)) as [s1 [k|]] eqn:E1; pose proof (binary_grows _ _ _ _ _ E1) as G1;
    apply (grows_as _ s) in G1; try reflexivity; [injection E as <- _; exact G1|].
  destruct (propagate_watches s1 lit (s_watch s1 lit) []) as [s2 r2] eqn:E2. pose proof (watches_grows _ _ _ _ _ _ E2) as G2.
  destruct r2; try (injection E as <- _; eapply grows_trans; eassumption). eapply grows_trans; [exact G1|]. eapply grows_trans; [exact G2|exact (IH _ _ _ E)].
Qed.
Lemma watch_all_same : forall l s, s_val (watch_all s l) = s_val s /\ s_level (watch_all s l) = s_level s.
Proof.
  induction l as [|c l IH]; intros s; cbn [watch_all]; [auto|]. destruct (IH (watch_clause s c (nth 0 (s_lits s c) 0%N) (nth 1 (s_lits s c) 0%N))) as [-> ->].
  unfold watch_clause. destruct (s_wen s); auto.
Qed.
Lemma propagate_grows n live bin s s' r : propagate n live bin s = (s', r) -> grows s s'.
Proof.
  intros E. apply loop_grows in E. unfold enable_watchlists in E. destruct (s_wen s); [exact E|].
  destruct (watch_all_same live (with_wen (with_watch s (fun _ => [])) true)) as [E1 E2]. eapply grows_as; [exact E1|exact E2|exact E].
Qed.

(** * What the functions of the search leave alone *)
Record on (c c' : ctx) : Prop := {
  on_sc : c_sc c' = c_sc c; on_cfg : c_cfg c' = c_cfg c; on_len : v_slen (c_v c') = v_slen (c_v c); on_s : grows (c_s c) (c_s c') }.
Lemma on_refl c : on c c.
Proof. constructor; auto using grows_refl. Qed.
Lemma on_trans a b c : on a b -> on b c -> on a c.
Proof. intros [] []. constructor; try congruence. eapply grows_trans; eassumption. Qed.
Lemma on_frame c c' : frame c c' -> on c c'.
Proof. intros (e & p & ->). constructor; try reflexivity. apply grows_refl. Qed.
Lemma post_on m c : post m (frame c) -> post m (on c).
Proof. intros H. eapply post_weaken; [exact H|]. intros c' F. apply on_frame. exact F. Qed.
Ltac ons := constructor; try reflexivity; try (apply grows_eq; reflexivity).

Lemma unit_proofs_same : forall tr s, s_val (fst (unit_proofs s tr)) = s_val s /\ s_level (fst (unit_proofs s tr)) = s_level s.
Proof.
  induction tr as [|l tr IH]; intros s; cbn [unit_proofs fst]; [auto|]. cbv zeta. specialize (IH (update_removed_unit s (lit_var l))).
  destruct (unit_proofs (update_removed_unit s (lit_var l)) tr) as [s1 ps]. cbn [fst] in *. destruct IH as [-> ->]. auto.
Qed.
Lemma prove_units_on c : post (prove_units c) (fun r => on c (fst r)).
Proof.
  unfold prove_units. destruct (Nat.eqb _ _); [|apply post_ret; apply on_refl]. cbv zeta. pose proof (unit_proofs_same (s_trail (c_s c)) (c_s c)) as [U1 U2].
  destruct (unit_proofs (c_s c) (s_trail (c_s c))) as [s ps]. cbn [fst] in *. unfold trail_clear. destruct (s_decs s); [|apply post_panic].
  match goal with |- context [cw_s c ?X] => set (s1 := X) end.
  assert (O1 : on c (cw_s c s1)) by (constructor; try reflexivity; apply grows_eq; [exact U1|exact U2]).
  eapply (post_bind _ _ (on c)).
  - destruct ps as [|p ps]; [apply post_ret; exact O1|]. eapply post_weaken; [apply post_on; apply add_step_post|]. intros c' F. eapply on_trans; [exact O1|exact F].
  - intros c' K. apply post_ret. exact K.
Qed.
Lemma simplify_binary_on c : post (simplify_binary c) (on c).
Proof.
  unfold simplify_binary. eapply post_bind; [apply post_on; apply add_steps_post|]. intros c' K. apply post_ret. eapply on_trans; [exact K|]. ons.
Qed.
Lemma simplify_clause_on x c : post (simplify_clause x c) (fun r => on c (fst r)).
Proof.
  unfold simplify_clause. cbv zeta. destruct (open_lits _ _) as [r|].
  - destruct (Nat.ltb _ _); [|apply post_ret; apply on_refl].
    eapply post_bind; [apply post_on; apply add_step_post|]. intros c1 K1. cbv beta.
    eapply (post_bind _ _ (on c)); [eapply post_weaken; [apply post_on; apply add_step_post|]; intros c2 F; eapply on_trans; [exact K1|exact F]|].
    intros c2 K2. destruct r as [|l0 [|l1 [|l2 r]]]; try apply post_panic; apply post_ret; (eapply on_trans; [exact K2|ons]).
  - eapply post_bind; [apply post_on; apply add_step_post|]. intros c1 K1. apply post_ret. exact K1.
Qed.
Lemma filter_loop_on : forall l c, post (filter_loop l c) (fun r => on c (fst r)).
Proof.
  induction l as [|x l IH]; intros c; cbn [filter_loop]; [apply post_ret; apply on_refl|].
  destruct (deleted (c_d c) x); [apply IH|]. eapply post_bind; [apply simplify_clause_on|]. intros [c1 keep] K1. cbn [fst] in K1.
  assert (K2 : on c (if keep then c1 else cw_d c1 (delete_header (c_s c1) (c_d c1) x))) by (destruct keep; [exact K1|eapply on_trans; [exact K1|ons]]).
  eapply post_bind; [apply IH|]. intros [c2 r] K3. apply post_ret. eapply on_trans; eassumption.
Qed.
Lemma filter_clauses_on c : post (filter_clauses c) (on c).
Proof.
  unfold filter_clauses. cbv zeta. eapply post_bind; [apply filter_loop_on|]. intros [c1 r] K1. apply post_ret. cbn [fst] in K1.
  eapply on_trans; [|eapply on_trans; [exact K1|]]; ons.
Qed.
Lemma remove_solver_var_on x c : post (remove_solver_var x c) (on c).
Proof.
  unfold remove_solver_var. cbv zeta. cbn [cw_vs c_v]. destruct (v_gs (c_v c) x) as [g|]; [|apply post_panic].
  eapply post_bind; [apply post_on; apply add_step_post|]. intros c1 F1.
  eapply post_weaken; [apply delete_global_post|]. intros c2 [F2|(_ & _ & _ & _ & F2)]; apply on_frame in F2; (eapply on_trans; [|eapply on_trans; [exact F1|]]; [ons|]).
  - exact F2.
  - eapply on_trans; [|exact F2]. ons.
Qed.
Lemma simplify_vars_on : forall l c, post (simplify_vars l c) (on c).
Proof.
  induction l as [|x l IH]; intros c; cbn [simplify_vars]; [apply post_ret; apply on_refl|].
  eapply (post_bind _ _ (on c)).
  - unfold simplify_var. destruct (v_gs (c_v c) x) as [g|]; [|apply post_ret; apply on_refl]. cbv zeta.
    match goal with |- context [cw_v c ?X] => set (v' := X) end. assert (Kv : on c (cw_v c v')) by ons.
    destruct (_ && _); [|apply post_ret; exact Kv]. eapply post_weaken; [apply remove_solver_var_on|]. intros c' K. eapply on_trans; [exact Kv|exact K].
  - intros c1 K1. eapply post_weaken; [apply IH|]. intros c2 K2. eapply on_trans; eassumption.
Qed.
Lemma unit_simplify_on c : post (unit_simplify c) (on c).
Proof.
  unfold unit_simplify. eapply post_bind; [apply simplify_binary_on|]. intros c1 K1. eapply post_bind; [apply filter_clauses_on|]. intros c2 K2.
  eapply post_weaken; [apply simplify_vars_on|]. intros c3 K3. eapply on_trans; [exact K1|eapply on_trans; eassumption].
Qed.
Lemma assumption_conflict_on a c : post (analyze_assumption_conflict a c) (on c).
Proof.
  unfold analyze_assumption_conflict. destruct (failed_core_of _ _ _ _) as [[flags core] hashes].
  eapply (post_bind _ _ (fun _ => True)); [intros u _; exact Logic.I|]. intros u _.
  eapply post_weaken; [apply post_on; apply add_step_post|]. intros c' F. eapply on_trans; [|exact F]. ons.
Qed.
(** A round that enqueues an assumption assigns a variable. *)
Definition fresher (c c' : ctx) : Prop := exists x, v_gs (c_v c) x <> None /\ s_val (c_s c) x = None /\ s_val (c_s c') x <> None.
Lemma enqueue_loop_on : forall fuel c, (forall l, In l (as_lits (c_as c)) -> v_gs (c_v c) (lit_var l) <> None) ->
  post (enqueue_loop fuel c) (fun r => on c (fst r) /\ (snd r = Enqueued -> fresher c (fst r))).
Proof.
  induction fuel as [|fuel IH]; intros c As; cbn [enqueue_loop]; destruct (nth_error (as_lits (c_as c)) (clevel (c_s c))) as [a|] eqn:Ea;
    try (apply post_ret; split; [apply on_refl|discriminate]).
  all: destruct (lfalse (c_s c) a) eqn:Lf;
    [eapply post_bind; [apply assumption_conflict_on|]; intros c1 O; apply post_ret; split; [exact O|discriminate]|].
  all: destruct (ltrue (c_s c) a) eqn:Lt; [match goal with |- post NoFuel _ => apply post_nofuel | _ => idtac end|].
  1,3: apply post_ret; (split; [constructor; try reflexivity; cbn [set_levels cw_as cw_s c_s fst]; eapply grows_as; [| |apply grows_enqueue]; try reflexivity; apply (open_none _ _ Lf Lt)|]).
  1,2: intros _; exists (lit_var a); split; [apply As; exact (nth_error_In _ _ Ea)|]; split; [apply open_none; assumption|];
    cbn [set_levels cw_as cw_s c_s fst enqueue new_decision_level with_decs s_val]; unfold upd; rewrite N.eqb_refl; discriminate.
  eapply post_weaken; [apply IH|].
  - cbn [cw_as c_as as_lits c_v]. intros l I. apply As. eapply swap_remove_in; [|exact I]. apply nth_error_Some. congruence.
  - intros [c1 e] [O1 O2]. cbn [fst snd] in *. split; [eapply on_trans; [|exact O1]; ons|exact O2].
Qed.
Lemma make_decision_on c c' b : wf (c_vs c) -> (forall x, In x (vs_heap (c_vs c)) -> v_gs (c_v c) x <> None) -> make_decision c = (c', b) ->
  on c c' /\ (b = true -> fresher c c').
Proof.
  intros W H E. unfold make_decision in E. destruct (find_decision _ _ _) as [vs o] eqn:Ef.
  destruct (find_decision_spec _ _ _ _ _ W (Nat.lt_succ_diag_r _) Ef) as (_ & _ & Ho). destruct o as [v|]; injection E as <- <-.
  - destruct Ho as (I & V & _). split.
    + constructor; try reflexivity. cbn [cw_s cw_vs c_s]. eapply grows_as; [| |apply grows_enqueue]; try reflexivity. cbn. rewrite lo_var. exact V.
    + intros _. exists v. split; [apply H; exact I|]. split; [exact V|]. cbn [cw_s cw_vs c_s enqueue s_val new_decision_level with_decs]. unfold upd. rewrite lo_var, N.eqb_refl. discriminate.
  - split; [ons|discriminate].
Qed.

(** * Functions that always end *)
Definition ends {A} (m : out A) : Prop := m <> NoFuel.
Lemma ends_ret {A} (a : A) : ends (Ret a).
Proof. discriminate. Qed.
Lemma ends_panic {A} p : ends (A := A) (Panic p).
Proof. discriminate. Qed.
Lemma ends_bind {A B} (m : out A) (f : A -> out B) : ends m -> (forall a, m = Ret a -> ends (f a)) -> ends (bind m f).
Proof. intros H K. destruct m as [a|p|]; cbn [bind]; [apply K; reflexivity|discriminate|contradiction]. Qed.
Lemma ends_ask c e : ends (ask_checker c e).
Proof. unfold ask_checker, handle_check. destruct (p_judge _ _); discriminate. Qed.
Lemma ends_step sv s c : ends (add_step sv s c).
Proof.
  unfold add_step. destruct (st_error (c_st c)); [discriminate|]. destruct (p_active (c_pf c)); [|discriminate].
  destruct (if sv then map_step (v_gs (c_v c)) s else Some s) as [s'|]; [|discriminate]. apply ends_bind.
  - destruct (p_format (c_pf c)) as [[]|]; try discriminate.
    + destruct (write_varisat_step _ _ _); discriminate.
    + destruct (Lrat.drat_write_step _); discriminate.
    + destruct (Lrat.drat_write_binary_step _); discriminate.
  - intros [p bytes] _. cbv zeta. match goal with |- ends (if ?x then _ else _) => destruct x end; [discriminate|]. destruct (p_checker _); [apply ends_ask|discriminate].
Qed.
Lemma ends_steps sv : forall l c, ends (add_steps sv l c).
Proof. induction l as [|s l IH]; intros c; cbn [add_steps]; [discriminate|]. apply ends_bind; [apply ends_step|]. intros c' _. apply IH. Qed.
Lemma ends_units c : ends (prove_units c).
Proof.
  unfold prove_units. destruct (Nat.eqb _ _); [|discriminate]. cbv zeta. destruct (unit_proofs _ _) as [s ps]. destruct (trail_clear s); [|discriminate].
  apply ends_bind; [destruct ps; [discriminate|apply ends_step]|]. intros c' _. discriminate.
Qed.
Lemma ends_clause x c : ends (simplify_clause x c).
Proof.
  unfold simplify_clause. cbv zeta. destruct (open_lits _ _) as [r|].
  - destruct (Nat.ltb _ _); [|discriminate]. apply ends_bind; [apply ends_step|]. intros c1 _. apply ends_bind; [apply ends_step|]. intros c2 _.
    destruct r as [|l0 [|l1 [|l2 r]]]; discriminate.
  - apply ends_bind; [apply ends_step|]. intros c1 _. discriminate.
Qed.
Lemma ends_filter : forall l c, ends (filter_loop l c).
Proof.
  induction l as [|x l IH]; intros c; cbn [filter_loop]; [discriminate|]. destruct (deleted (c_d c) x); [apply IH|].
  apply ends_bind; [apply ends_clause|]. intros [c1 keep] _. cbv zeta. apply ends_bind; [apply IH|]. intros [c2 r] _. discriminate.
Qed.
Lemma ends_delete g c : ends (delete_global_if_unused g c).
Proof.
  unfold delete_global_if_unused. cbv zeta. destruct (v_ug _ _); [discriminate|]. destruct (v_sg _ _); [discriminate|].
  destruct (negb _); [discriminate|]. destruct (negb _); [discriminate|]. apply ends_bind; [apply ends_step|]. intros c1 _. discriminate.
Qed.
Lemma ends_vars : forall l c, ends (simplify_vars l c).
Proof.
  induction l as [|x l IH]; intros c; cbn [simplify_vars]; [discriminate|]. apply ends_bind; [|intros c' _; apply IH].
  unfold simplify_var. destruct (v_gs (c_v c) x); [|discriminate]. cbv zeta. destruct (_ && _); [|discriminate].
  unfold remove_solver_var. cbv zeta. destruct (v_gs _ x); [|discriminate]. apply ends_bind; [apply ends_step|]. intros c1 _. apply ends_delete.
Qed.
Lemma ends_simplify c : ends (unit_simplify c).
Proof.
  unfold unit_simplify, simplify_binary, filter_clauses. cbv zeta. apply ends_bind; [apply ends_bind; [apply ends_steps|]; intros c1 _; discriminate|].
  intros c1 _. apply ends_bind; [apply ends_bind; [apply ends_filter|]; intros [c2 l] _; discriminate|]. intros c2 _. apply ends_vars.
Qed.
Lemma ends_users v : forall l, ends (users_of v l).
Proof.
  induction l as [|x l IH]; cbn [users_of]; [discriminate|].
  repeat match goal with |- ends (match ?x with _ => _ end) => destruct x end; try discriminate; (apply ends_bind; [apply IH|]; intros r _; discriminate).
Qed.
Lemma ends_failed a c : ends (analyze_assumption_conflict a c).
Proof.
  unfold analyze_assumption_conflict. destruct (failed_core_of _ _ _ _) as [[flags core] hashes]. apply ends_bind; [apply ends_users|]. intros u _. apply ends_step.
Qed.
Lemma ends_enqueue : forall fuel c, length (as_lits (c_as c)) <= fuel -> ends (enqueue_loop fuel c).
Proof.
  induction fuel as [|fuel IH]; intros c L; cbn [enqueue_loop]; destruct (nth_error (as_lits (c_as c)) (clevel (c_s c))) as [a|] eqn:E; try discriminate.
  - destruct (as_lits (c_as c)); [destruct (clevel (c_s c)); discriminate|cbn [length] in L; lia].
  - destruct (lfalse (c_s c) a); [apply ends_bind; [apply ends_failed|]; intros c1 _; discriminate|].
    destruct (ltrue (c_s c) a); [|discriminate]. apply IH. cbn [cw_as c_as as_lits].
    assert (Lk : clevel (c_s c) < length (as_lits (c_as c))) by (apply nth_error_Some; congruence). rewrite swap_remove_length by exact Lk. lia.
Qed.

(** * The search for a conflict *)
(** One round of [find_conflict]; [None] starts another one. *)
Definition round (c : ctx) : out (ctx * option found) :=
  let '(s, r) := propagate (v_slen (c_v c)) (live (c_d c)) (c_bin c) (c_s c) in
  let c := cw_s c s in
  match r with
  | PPanic => Panic PInternal
  | PFuel => NoFuel
  | _ =>
      do (c, new_unit) <- prove_units c ;
      match r with
      | PConflict k => Ret (c, Some (FConflict k))
      | _ =>
          do c <- (if new_unit then unit_simplify c else Ret c) ;
          do (c, e) <- enqueue_assumption c ;
          match e with
          | Enqueued => Ret (c, None)
          | Failed => Ret (c, Some FAssumption)
          | Done => match make_decision c with (c, true) => Ret (c, None) | (c, false) => Ret (c, Some FModel) end
          end
      end
  end.
Lemma find_round fuel c : find_conflict (S fuel) c = do (c, o) <- round c ; match o with None => find_conflict fuel c | Some f => Ret (c, f) end.
Proof.
  cbn [find_conflict]. unfold round. destruct (propagate _ _ _ _) as [s r]. cbv zeta. destruct r as [|k| |]; try reflexivity.
  all: destruct (prove_units _) as [[c1 nu]|p|]; cbn [bind]; try reflexivity.
  destruct (if nu then unit_simplify c1 else Ret c1) as [c2|p|]; cbn [bind]; try reflexivity.
  destruct (enqueue_assumption c2) as [[c3 e]|p|]; cbn [bind]; try reflexivity. destruct e; try reflexivity.
  destruct (make_decision c3) as [c4 []]; reflexivity.
Qed.
Definition more (c c' : ctx) : Prop := exists x, (x < v_slen (c_v c))%N /\ s_val (c_s c) x = None /\ s_val (c_s c') x <> None.
Lemma named_below F A f c x : inv f F A c -> v_gs (c_v c) x <> None -> (x < v_slen (c_v c))%N.
Proof. intros K H. destruct (v_gs (c_v c) x) as [g|] eqn:G; [|congruence]. exact (vo_x _ (b_vars _ (iv_base _ _ _ _ (proj1 K))) _ _ G). Qed.
Lemma grows_back s s' x : grows s s' -> s_val s' x = None -> s_val s x = None.
Proof. intros G E. destruct (s_val s x) as [b|] eqn:X; [|reflexivity]. destruct (G x b X). congruence. Qed.
Lemma round_ends F A c : inv false F A c -> ends (round c) /\
  post (round c) (fun r => on c (fst r) /\ (snd r = None -> inv false F A (fst r) /\ more c (fst r))).
Proof.
  intros K. unfold round.
  destruct (propagate (v_slen (c_v c)) (live (c_d c)) (c_bin c) (c_s c)) as [s r] eqn:Ep.
  destruct (propagate_core F A c s r (proj1 K) Ep) as (K1 & D1 & L1 & R1). pose proof (propagate_grows _ _ _ _ _ _ Ep) as G1.
  cbv zeta. set (c1 := cw_s c s) in *. assert (O1 : on c c1) by (constructor; try reflexivity; exact G1). 
  destruct r as [|k| |]; try contradiction.
  2: { split; [apply ends_bind; [apply ends_units|]; intros [c2 nu] _; discriminate|].
       eapply post_bind; [apply prove_units_on|]. intros [c2 nu] O2. apply post_ret. split; [eapply on_trans; [exact O1|exact O2]|discriminate]. }
  (* the states up to the assumptions, as in [find_conflict_spec] *)
  assert (S2 : spec (prove_units c1) (fun '((c2, new) : ctx * bool) => on c c2 /\ if new then simp (live (c_d c2)) false F A c2 else ready F A c2)).
  { destruct (Nat.eq_dec (clevel (c_s c1)) 0) as [Z|NZ].
    - assert (D0 : s_decs (c_s c1) = []) by (apply length_zero_iff_nil; exact Z).
      eapply spec_weaken; [apply spec_post; [apply (prove_units_simp F A c1 K1 D0 R1)|apply prove_units_on]|].
      intros [c2 new] [Q Kp]. split; [eapply on_trans; [exact O1|exact Kp]|]. destruct new; [apply Q|]. destruct Q as (Q1 & Q2 & Q3 & Q4).
      split; [exact Q1|]. split; [rewrite Q2, Q3; reflexivity|auto].
    - rewrite prove_units_high by lia. apply spec_ret. split; [exact O1|]. split; [split; [exact K1|]|].
      + apply L1; [unfold clevel in *; rewrite <- D1; cbn [c1 cw_s c_s] in NZ; lia|apply K].
      + split; [exact R1|]. intros D0. unfold clevel in NZ. rewrite D0 in NZ. cbn in NZ. lia. }
  assert (S3 : forall c2 (nu : bool), on c c2 -> (if nu then simp (live (c_d c2)) false F A c2 else ready F A c2) ->
    spec (if nu then unit_simplify c2 else Ret c2) (fun c3 => on c c3 /\ ready F A c3)).
  { intros c2 nu O2 Q2. destruct nu; [|apply spec_ret; auto]. eapply spec_weaken; [apply spec_post; [apply (unit_simplify_spec F A c2 Q2)|apply unit_simplify_on]|].
    intros c3 [(P1 & P2 & P3 & P4) Kp]. split; [eapply on_trans; eassumption|]. split; [exact P1|]. split; [rewrite P2, P3; reflexivity|auto]. }
  assert (S4 : forall c3, on c c3 -> ready F A c3 -> spec (enqueue_assumption c3) (fun '((c4, e) : ctx * enqueued) => on c c4 /\
     match e with Done => ready F A c4 /\ length (as_lits (c_as c4)) <= clevel (c_s c4) | Enqueued => inv false F A c4 /\ more c c4 | Failed => True end)).
  { intros c3 O3 R3. pose proof (iv_base _ _ _ _ (proj1 (proj1 R3))) as B3.
    eapply spec_weaken; [apply spec_post; [apply (enqueue_loop_spec F A _ c3 R3)|apply enqueue_loop_on]|].
    - intros l I. destruct (b_as _ B3 l I) as (g & G & _). congruence.
    - intros [c4 e] [Q [O4 Fr]]. cbn [fst snd] in *. split; [eapply on_trans; eassumption|]. destruct e; [split; apply Q| |exact Logic.I].
      split; [apply Q|]. destruct (Fr eq_refl) as (x & X1 & X2 & X3). exists x. split; [rewrite <- (on_len _ _ O3); eapply named_below; [apply R3|exact X1]|].
      split; [eapply grows_back; [apply O3|exact X2]|exact X3]. }
  assert (S5 : forall c4 c5 b, on c c4 -> ready F A c4 -> length (as_lits (c_as c4)) <= clevel (c_s c4) -> make_decision c4 = (c5, b) ->
     on c c5 /\ (b = true -> inv false F A c5 /\ more c c5)).
  { intros c4 c5 b O4 R4 La Em. pose proof (iv_base _ _ _ _ (proj1 (proj1 R4))) as B4.
    destruct (make_decision_on _ _ _ (b_wf _ B4) (b_heap _ B4) Em) as [O5 Fr]. destruct (make_decision_spec F A c4 c5 b R4 La Em) as [_ Q5].
    split; [eapply on_trans; eassumption|]. intros ->. split; [exact Q5|]. destruct (Fr eq_refl) as (x & X1 & X2 & X3). exists x.
    split; [rewrite <- (on_len _ _ O4); eapply named_below; [apply R4|exact X1]|]. split; [eapply grows_back; [apply O4|exact X2]|exact X3]. }
  split.
  - apply ends_bind; [apply ends_units|]. intros [c2 nu] E2. apply ends_bind; [destruct nu; [apply ends_simplify|discriminate]|]. intros c3 E3.
    apply ends_bind; [apply ends_enqueue; apply Nat.le_refl|]. intros [c4 e] E4. destruct e; try discriminate. destruct (make_decision c4) as [c5 []]; discriminate.
  - intros [c' o] E. cbn [fst snd].
    destruct (prove_units c1) as [[c2 nu]|p|] eqn:E2; cbn [bind] in E; try discriminate. destruct (spec_get _ _ _ S2 eq_refl) as [O2 Q2].
    destruct (if nu then unit_simplify c2 else Ret c2) as [c3|p|] eqn:E3; cbn [bind] in E; try discriminate. destruct (spec_get _ _ _ (S3 c2 nu O2 Q2) E3) as [O3 R3].
    destruct (enqueue_assumption c3) as [[c4 e]|p|] eqn:E4; cbn [bind] in E; try discriminate. destruct (spec_get _ _ _ (S4 c3 O3 R3) E4) as [O4 Q4].
    destruct e.
    + destruct Q4 as [R4 La]. destruct (make_decision c4) as [c5 b] eqn:Em. destruct (S5 _ _ _ O4 R4 La Em) as [O5 Q5].
      destruct b; injection E as <- <-; (split; [exact O5|]); [intros _; apply Q5; reflexivity|discriminate].
    + injection E as <- <-. split; [exact O4|]. intros _. exact Q4.
    + injection E as <- <-. split; [exact O4|discriminate].
Qed.
Lemma more_weight b c c' : b <> 0 -> on c c' -> more c c' -> weight b (N.to_nat (v_slen (c_v c))) (c_s c) < weight b (N.to_nat (v_slen (c_v c))) (c_s c').
Proof. intros B O (x & X1 & X2 & X3). apply (weight_lt b _ _ _ x B (on_s _ _ O)); [lia|exact X2|exact X3]. Qed.
Lemma find_conflict_on F A : forall fuel c, inv false F A c -> post (find_conflict fuel c) (fun r => on c (fst r)).
Proof.
  induction fuel as [|fuel IH]; intros c K; [apply post_nofuel|]. rewrite find_round. destruct (round_ends F A c K) as [_ P].
  eapply post_bind; [exact P|]. intros [c1 o] [O1 Q]. cbn [fst snd] in *. destruct o as [f|]; [apply post_ret; exact O1|].
  destruct (Q eq_refl) as [K1 _]. eapply post_weaken; [apply (IH c1 K1)|]. intros r O2. eapply on_trans; eassumption.
Qed.
(** Every round assigns one more variable. *)
Lemma find_conflict_ends F A : forall fuel c, inv false F A c ->
  N.to_nat (v_slen (c_v c)) < fuel + weight 1 (N.to_nat (v_slen (c_v c))) (c_s c) -> ends (find_conflict fuel c).
Proof.
  induction fuel as [|fuel IH]; intros c K L.
  { pose proof (weight_one (N.to_nat (v_slen (c_v c))) (c_s c)). lia. }
  rewrite find_round. destruct (round_ends F A c K) as [E P]. apply ends_bind; [exact E|]. intros [c1 o] E1. specialize (P _ E1). destruct P as [O1 Q]. cbn [fst snd] in *.
  destruct o as [f|]; [discriminate|]. destruct (Q eq_refl) as [K1 M]. apply IH; [exact K1|]. rewrite (on_len _ _ O1).
  pose proof (more_weight 1 _ _ ltac:(discriminate) O1 M). lia.
Qed.

(** * Conflicts *)
Lemma levels_bound n s : trail_ok n s -> clevel s <= N.to_nat n.
Proof.
  intros T. assert (L1 : clevel s <= length (s_trail s)).
  { rewrite <- (seq_length (length (s_trail s)) 0). apply NoDup_incl_length.
    - pose proof (tk_sorted _ _ T) as Q. unfold sorted in Q. induction Q as [|d l Q IH Fa]; constructor; [|exact IH].
      intros I. rewrite Forall_forall in Fa. specialize (Fa _ I). lia.
    - intros d I. apply in_seq. pose proof (proj1 (tk_decs _ _ T d I)). lia. }
  assert (L2 : length (map lit_var (s_trail s)) <= length (codes (N.to_nat n) 0)).
  { apply NoDup_incl_length; [apply (tk_nodup _ _ T)|]. intros x I. apply in_map_iff in I as (l & <- & I). apply cin; [apply N.le_0_l|].
    pose proof (tk_vars _ _ T _ (istrue_assigned _ _ (tk_true _ _ T l I))). lia. }
  rewrite map_length, clen in L2. lia.
Qed.
Lemma nth_sorted : forall l i, StronglySorted lt l -> S i < length l -> nth i l 0 < nth (S i) l 0.
Proof.
  induction l as [|d l IH]; intros i Q Hi; [cbn [length] in Hi; lia|]. inversion Q as [|? ? Q' Fa]; subst. cbn [length] in Hi. destruct i as [|i].
  - rewrite Forall_forall in Fa. apply Fa. cbn [nth]. apply nth_In. lia.
  - cbn [nth]. apply IH; [exact Q'|lia].
Qed.
Lemma levels_full n s L : trail_ok n s -> L < clevel s -> exists x, (x < N.of_nat (N.to_nat n))%N /\ s_val s x <> None /\ s_level s x = S L.
Proof.
  unfold clevel. intros T Lt. set (p := nth L (s_decs s) 0). assert (Ip : In p (s_decs s)) by (apply nth_In; exact Lt).
  destruct (nth_error (s_trail s) p) as [l|] eqn:El; [|apply nth_error_None in El; pose proof (proj1 (tk_decs _ _ T p Ip)); lia].
  pose proof (istrue_assigned _ _ (tk_true _ _ T l (nth_error_In _ _ El))) as V. exists (lit_var l). split; [pose proof (tk_vars _ _ T _ V); lia|]. split; [exact V|].
  rewrite (tk_level _ _ T _ _ El). pose proof (tk_sorted _ _ T) as Q.
  assert (H1 : L < lvl (s_decs s) p).
  { destruct (Nat.lt_ge_cases L (lvl (s_decs s) p)) as [X|X]; [exact X|]. apply (proj1 (lvl_cut _ L p Q Lt)) in X. fold p in X. lia. }
  assert (H2 : lvl (s_decs s) p <= S L).
  { destruct (Nat.lt_ge_cases (S L) (length (s_decs s))) as [X|X]; [|pose proof (lvl_le (s_decs s) p); lia].
    apply (proj1 (lvl_cut _ (S L) p Q X)). apply nth_sorted; [exact Q|exact X]. }
  lia.
Qed.
Definition fixed (c c' : ctx) : Prop := c_sc c' = c_sc c /\ c_cfg c' = c_cfg c /\ v_slen (c_v c') = v_slen (c_v c).
Lemma on_fixed c c' : on c c' -> fixed c c'.
Proof. intros []. repeat split; assumption. Qed.
Lemma fixed_trans a b c : fixed a b -> fixed b c -> fixed a c.
Proof. unfold fixed. intros (A1 & A2 & A3) (B1 & B2 & B3). repeat split; congruence. Qed.
Lemma back_fixed k c : fixed c (backtrack_to k c).
Proof. unfold backtrack_to. destruct (backtrack _ _ _). repeat split. Qed.
Lemma learn_fixed cl c : post (learn_clause cl c) (fun c' => fixed c c' /\ match cl with [] => True | l0 :: _ =>
  s_val (c_s c') = upd (s_val (c_s c)) (lit_var l0) (Some (is_positive l0)) /\ s_level (c_s c') = upd (s_level (c_s c)) (lit_var l0) (clevel (c_s c)) end).
Proof.
  unfold learn_clause. destruct cl as [|l0 [|l1 [|l2 r]]]; try (apply post_ret; repeat split).
  destruct (assess_learned _ _ _) as [flags h]. unfold db_add_clause, add_long. destruct (d_full _); cbn [bind]; [apply post_panic|]. apply post_ret.
  cbn [cw_s cw_d cw_tmp c_s]. unfold watch_clause. destruct (s_wen _); repeat split.
Qed.
Lemma ends_learn cl c : ends (learn_clause cl c).
Proof.
  unfold learn_clause. destruct cl as [|l0 [|l1 [|l2 r]]]; try discriminate.
  destruct (assess_learned _ _ _) as [flags h]. unfold db_add_clause. destruct (add_long _ _ _ _) as [[s d] x]. destruct (d_full d); discriminate.
Qed.
Lemma ends_model c : ends (reconstruct_global_model c).
Proof. unfold reconstruct_global_model. cbv zeta. apply ends_bind; [destruct (p_native _); [apply ends_step|discriminate]|]. intros c1 _. discriminate. Qed.
Lemma model_fixed c : post (reconstruct_global_model c) (fun c' => fixed c c' /\ st_sat (c_st c') = Sat).
Proof.
  unfold reconstruct_global_model. cbv zeta. eapply (post_bind _ _ (fixed c)).
  - destruct (p_native _); [|apply post_ret; repeat split]. eapply post_weaken; [apply post_on; apply add_step_post|]. intros c' O. apply on_fixed in O. exact O.
  - intros c' Q. apply post_ret. split; [exact Q|reflexivity].
Qed.
Lemma step_kept_status sv s c : post (add_step sv s c) (fun c' => st_sat (c_st c') = st_sat (c_st c)).
Proof. eapply post_weaken; [apply add_step_post|]. intros c' (e & p & ->). reflexivity. Qed.

(** What is missing from the largest potential *)
Definition wt (c : ctx) : nat := 2 ^ N.to_nat (v_slen (c_v c)) - 1 - slack (N.to_nat (v_slen (c_v c))) (c_s c).
Lemma conflict_step_grows F A fuel c : inv false F A c ->
  (N.to_nat (v_slen (c_v c)) < fuel -> ends (conflict_step fuel c)) /\
  post (conflict_step fuel c) (fun c' => fixed c c' /\ (st_sat (c_st c') = Unknown -> wt c < wt c')).
Proof.
  intros K. unfold conflict_step. pose proof (find_conflict_on F A fuel c K) as On. pose proof (find_conflict_spec F A fuel c K) as Sp.
  assert (Main : forall c1 k, find_conflict fuel c = Ret (c1, FConflict k) -> 
    let m := (let '(vs, a, bt) := analyze_conflict (v_slen (c_v c1)) (p_native (c_pf c1)) (c_s c1) (c_vs c1) (c_an c1) k in
      if a_fuel a then NoFuel
      else
        let c := cw_an (cw_vs c1 vs) a in
        let '(d, flags) := bump_clauses (c_s c) (a_involved a) (c_d c) (c_tmp c) in
        let c := cw_tmp (cw_d c (decay_clause_activities d)) flags in
        let c := backtrack_to bt c in
        do c <- add_step true (AtClause (Nat.ltb 2 (length (a_clause a))) (a_clause a) (a_hashes a)) c ;
        learn_clause (a_clause a) c) in
    ends m /\ post m (fun c' => fixed c c' /\ (st_sat (c_st c') = Unknown -> wt c < wt c'))).
  { intros c1 k E m. unfold m. clear m. pose proof (On _ E) as O1. cbn [fst] in O1. destruct (spec_get _ _ _ Sp E) as [Kp Q].
    destruct (analyze_conflict (v_slen (c_v c1)) (p_native (c_pf c1)) (c_s c1) (c_vs c1) (c_an c1) k) as [[vs a] bt] eqn:Ea.
    destruct Q as [(D0 & B1 & NM)|(Lv & K1 & Ck)].
    - unfold analyze_conflict in Ea. unfold clevel in Ea. rewrite D0 in Ea. cbn [length Nat.eqb] in Ea. injection Ea as Ev Ea Eb.
      destruct (b_flags _ B1) as (F1 & F2 & F3).
      assert (Qa : a_clause a = [] /\ a_involved a = [] /\ a_fuel a = a_fuel (c_an c1)) by (rewrite <- Ea; destruct (p_native (c_pf c1)); repeat split).
      destruct Qa as (A1 & A2 & A5). rewrite A5, F3. cbv zeta. rewrite A2. cbn [bump_clauses]. rewrite A1. cbn [learn_clause].
      split; [apply ends_bind; [apply ends_step|]; intros c3 _; discriminate|].
      eapply post_bind; [apply post_on; apply add_step_post|]. intros c3 O3. apply post_ret. split; [|discriminate].
      eapply fixed_trans; [apply on_fixed; exact O1|]. eapply fixed_trans; [|apply (on_fixed _ _ O3)]. 
      match goal with |- fixed c1 (backtrack_to ?n ?x) => exact (back_fixed n x) end.
    - destruct (iv_search _ _ _ _ (proj1 K1)) as [T S _ _]. pose proof (iv_base _ _ _ _ (proj1 K1)) as B1. destruct (b_flags _ B1) as (F1 & F2 & F3).
      destruct (analyze_conflict_spec _ _ _ _ _ _ _ _ _ _ _ T S Lv Ck F1 F2 Ea) as (Le & G1 & G2 & G3 & G4).
      rewrite G3, F3. cbv zeta. destruct (bump_clauses _ _ _ _) as [d flags].
      set (c2 := cw_tmp (cw_d (cw_an (cw_vs c1 vs) a) (decay_clause_activities d)) flags).
      split; [apply ends_bind; [apply ends_step|]; intros c3 _; apply ends_learn|].
      eapply post_bind; [apply add_step_post|]. intros c3 Fr. eapply post_weaken; [apply learn_fixed|]. intros c4 [X4 L4].
      assert (Fx : fixed c c4).
      { eapply fixed_trans; [apply on_fixed; exact O1|]. eapply fixed_trans; [|exact X4]. eapply fixed_trans; [|apply on_fixed; apply on_frame; exact Fr]. exact (back_fixed bt c2). }
      split; [exact Fx|]. intros _.
      destruct (le_clause _ _ _ _ _ Le) as (l0 & rest & El & [F0 I0] & V0 & _). rewrite El in L4. destruct L4 as [Va Lb].
      pose proof (le_bt _ _ _ _ _ Le) as Bt. 
      assert (Ud : undone (c_s c1) bt (c_s (backtrack_to bt c2)) /\ clevel (c_s (backtrack_to bt c2)) = bt).
      { unfold backtrack_to. destruct (backtrack (c_s c2) (c_vs c2) bt) as [s' vs'] eqn:Eb. cbn [cw_vs cw_s c_s].
        destruct (backtrack_undone _ _ _ _ _ _ T Eb Bt) as (U & _). split; [exact U|]. unfold clevel. rewrite (ud_decs _ _ _ U), firstn_length_le; [reflexivity|].
        unfold clevel in Bt. lia. }
      destruct Ud as [Ud Cl]. assert (E3 : c_s c3 = c_s (backtrack_to bt c2)) by (destruct Fr as (e & p & ->); reflexivity). rewrite E3 in Va, Lb. rewrite Cl in Lb.
      unfold wt. destruct Fx as (_ & _ & ->). set (n := v_slen (c_v c)) in *. assert (En : v_slen (c_v c1) = n) by apply (on_len _ _ O1). rewrite En in T.
      pose proof (slack_le (N.to_nat n) _ _ (on_s _ _ O1)) as Sl. pose proof (slack_max (N.to_nat n) (c_s c)) as Sm.
      cut (slack (N.to_nat n) (c_s c4) < slack (N.to_nat n) (c_s c1)); [intros Cut; lia|].
      assert (Va0 : s_val (c_s c1) (lit_var l0) <> None) by (unfold isfalse in F0; apply istrue_assigned in F0; rewrite lnot_var in F0; exact F0).
      apply (slack_jump _ _ _ bt (lit_var l0)).
      + pose proof (levels_bound _ _ T). lia.
      + pose proof (tk_vars _ _ T _ Va0). lia.
      + intros L Q. apply (levels_full _ _ _ T). lia.
      + intros x b Ex Lx. rewrite Va, Lb. unfold upd. destruct (N.eqb_spec x (lit_var l0)) as [->|NE]; [lia|]. rewrite (ud_level _ _ _ Ud). split; [|reflexivity].
        pose proof (proj2 (undone_istrue _ _ _ _ (lit_of x b) T Ud Bt)) as Q. unfold istrue in Q. rewrite lo_var, lo_pos in Q. apply Q. auto.
      + intros _. rewrite V0. exact Bt.
      + rewrite Va. unfold upd. rewrite N.eqb_refl. discriminate.
      + rewrite Lb. unfold upd. rewrite N.eqb_refl. reflexivity. }
  split.
  - intros L. apply ends_bind; [apply (find_conflict_ends F A); [exact K|lia]|]. intros [c1 [| |k]] E; [apply ends_model|discriminate|apply (Main c1 k E)].
  - intros c' E. destruct (find_conflict fuel c) as [[c1 f]|p|] eqn:Ef; cbn [bind] in E; try discriminate. pose proof (On _ eq_refl) as O1. cbn [fst] in O1. destruct f as [| |k].
    + destruct (model_fixed c1 _ E) as [X Y]. split; [eapply fixed_trans; [apply on_fixed; exact O1|exact X]|congruence].
    + injection E as <-. split; [exact (on_fixed _ _ O1)|discriminate].
    + apply (Main c1 k eq_refl). exact E.
Qed.

(** * Steps *)
Definition restarts (c : ctx) : bool := (sc_next (c_sc c) =? sc_conflicts (c_sc c))%N.
Lemma schedule_step_grows t z w S0 U F A fuel c : progress t z w S0 U F A c ->
  (N.to_nat (v_slen (c_v c)) < fuel -> ends (schedule_step fuel c)) /\
  post (schedule_step fuel c) (fun r => v_slen (c_v (fst r)) = v_slen (c_v c) /\ c_cfg (fst r) = c_cfg c /\
    (snd r = true ->
      sc_conflicts (c_sc (fst r)) = (sc_conflicts (c_sc c) + 1)%N /\
      if restarts c then sc_next (c_sc (fst r)) = (sc_next (c_sc c) + cf_luby_scale (c_cfg c) * fst (luby_advance (sc_luby (c_sc c))))%N /\
                         sc_luby (c_sc (fst r)) = snd (luby_advance (sc_luby (c_sc c)))
      else sc_next (c_sc (fst r)) = sc_next (c_sc c) /\ sc_luby (c_sc (fst r)) = sc_luby (c_sc c) /\
           (st_sat (c_st (fst r)) = Unknown -> wt c < wt (fst r)))).
Proof.
  intros Pr. unfold schedule_step.
  destruct (st_sat (c_st c)) eqn:St; try (split; [discriminate|apply post_ret; split; [reflexivity|split; [reflexivity|discriminate]]]).
  destruct (st_error (c_st c)) as [e|] eqn:Er; [split; [discriminate|apply post_ret; split; [reflexivity|split; [reflexivity|discriminate]]]|]. cbv zeta.
  destruct Pr as (B & Vi & Pr). rewrite St in Pr. destruct Pr as (K & Bd & Cl). fold (restarts c).
  match goal with |- context [reduce_locals (c_s ?X) _] => set (c1 := X) end.
  assert (K1 : inv false F A c1 /\ v_slen (c_v c1) = v_slen (c_v c) /\ c_cfg c1 = c_cfg c /\ sc_conflicts (c_sc c1) = sc_conflicts (c_sc c) /\
     if restarts c then sc_next (c_sc c1) = (sc_next (c_sc c) + cf_luby_scale (c_cfg c) * fst (luby_advance (sc_luby (c_sc c))))%N /\ sc_luby (c_sc c1) = snd (luby_advance (sc_luby (c_sc c)))
     else c1 = c).
  { unfold c1. destruct (restarts c); [|split; [exact K|auto]]. destruct (luby_advance _) as [x lb].
    destruct (backtrack_inv false F A c (as_levels (c_as c)) K) as (K1 & _ & _ & Ev & _); [discriminate|].
    split; [split; [apply core_sc; apply K1|apply K1]|]. split; [cbn [cw_sc c_v]; unfold restart; rewrite Ev; reflexivity|].
    split; [unfold restart, backtrack_to; destruct (backtrack _ _ _); reflexivity|]. split; [reflexivity|split; reflexivity]. }
  destruct K1 as (K1 & V1 & F1 & C1 & R1). clearbody c1.
  match goal with |- context [bind ?m] => set (m1 := m) end.
  assert (E1 : ends m1) by (unfold m1; destruct (_ =? _)%N; [destruct (reduce_locals _ _) as [[s d] out]; apply ends_steps|discriminate]).
  assert (P1 : post m1 (fun c2 => inv false F A c2 /\ on c1 c2 /\ on c2 c1)).
  { unfold m1. destruct (_ =? _)%N; [|apply post_ret; split; [exact K1|split; apply on_refl]].
    destruct (reduce_locals (c_s c1) (c_d c1)) as [[s d] out] eqn:Er2.
    destruct (reduce_locals_spec _ _ _ _ _ (iv_db _ _ _ _ (proj1 K1)) Er2) as (Db & Sw & Wo & R & _).
    pose proof (inv_reduced F A c1 s d out K1 Db Sw Wo R) as K2. destruct Sw as (w0 & -> & _).
    eapply post_weaken; [apply add_steps_post|]. intros c2 Fr. split; [eapply inv_frame; eassumption|]. destruct Fr as (e & p & ->). split; ons. }
  clearbody m1.
  assert (Rest : forall c2, inv false F A c2 -> on c1 c2 -> on c2 c1 -> let m :=
     (let c := (if (sc_conflicts (c_sc c) mod cf_reduce_mids (c_cfg c2) =? 0)%N then cw_d c2 (reduce_mids (c_d c2)) else c2) in
      match collect_garbage (c_s c) (c_d c) with
      | None => Panic PInternal
      | Some (s, d) =>
          if d_full d then Panic PFull
          else
            do c <- conflict_step fuel (cw_d (cw_s c s) d) ;
            let sc := c_sc c in
            Ret (cw_sc c (Sched (sc_conflicts sc + 1) (sc_next sc) (sc_restarts sc) (sc_luby sc)), true)
      end) in
     (N.to_nat (v_slen (c_v c)) < fuel -> ends m) /\ post m (fun r => exists c5, fixed c1 c5 /\ (st_sat (c_st c5) = Unknown -> wt c1 < wt c5) /\
        r = (cw_sc c5 (Sched (sc_conflicts (c_sc c5) + 1) (sc_next (c_sc c5)) (sc_restarts (c_sc c5)) (sc_luby (c_sc c5))), true))).
  { intros c2 K2 O2 O2' m. unfold m. clear m. cbv zeta.
    match goal with |- context [collect_garbage (c_s ?X) _] => set (c3 := X) end.
    assert (K3 : inv false F A c3 /\ on c2 c3 /\ on c3 c2).
    { unfold c3. destruct (_ =? _)%N; [|split; [exact K2|split; apply on_refl]].
      destruct (reduce_mids_spec (c_s c2) (c_d c2) (iv_db _ _ _ _ (proj1 K2))) as (Db & R & Lv & _).
      split; [split; [|apply K2]|split; ons]. apply core_d; [apply K2|exact Db|exact Lv|apply (rd_irred _ _ _ _ R)]. }
    destruct K3 as (K3 & O3 & O3'). clearbody c3. destruct (iv_search _ _ _ _ (proj1 K3)) as [T S W P].
    destruct (collect_spec (c_s c3) (c_d c3) (iv_db _ _ _ _ (proj1 K3)) (tk_nodup _ _ T)) as (s' & d' & ρ & Ec & M & Or & Db).
    { intros l y Il Ey. split; [exact (so_rlong _ _ _ _ S l y Il Ey)|]. apply In_nth_error in Il as (p & Hp). pose proof (tk_reason _ _ T _ _ Hp) as Q.
      unfold reason_ok in Q. rewrite Ey in Q. destruct Q as (_ & rest & Q & _). exists rest. exact Q. }
    rewrite Ec. destruct (d_full d') eqn:Fu; [split; [discriminate|apply post_panic]|].
    pose proof (inv_moved F A c3 s' d' ρ K3 M Or (Db eq_refl)) as K4. set (c4 := cw_d (cw_s c3 s') d') in *.
    assert (Sv : s_val s' = s_val (c_s c3) /\ s_level s' = s_level (c_s c3)) by (destruct (mv_search _ _ _ _ _ M) as [Q|Q]; rewrite Q; split; reflexivity).
    assert (O4 : on c3 c4) by (constructor; try reflexivity; apply grows_eq; apply Sv).
    assert (O14 : on c1 c4) by (eapply on_trans; [exact O2|eapply on_trans; eassumption]).
    destruct (conflict_step_grows F A fuel c4 K4) as [Q1 Q2]. split.
    - intros L. apply ends_bind; [apply Q1; rewrite (on_len _ _ O14), V1; exact L|]. intros c5 _. discriminate.
    - eapply post_bind; [exact Q2|]. intros c5 [X5 W5]. apply post_ret. exists c5. split; [eapply fixed_trans; [apply on_fixed; exact O14|exact X5]|].
      split; [|reflexivity]. intros U5. eapply Nat.le_lt_trans; [|exact (W5 U5)]. unfold wt. rewrite (on_len _ _ O14). pose proof (slack_le (N.to_nat (v_slen (c_v c1))) _ _ (on_s _ _ O14)). lia. }
  split.
  - intros L. apply ends_bind; [exact E1|]. intros c2 E2. destruct (P1 _ E2) as (K2 & O2 & O2'). apply (Rest c2 K2 O2 O2'). exact L.
  - eapply post_bind; [exact P1|]. intros c2 (K2 & O2 & O2'). eapply post_weaken; [apply (Rest c2 K2 O2 O2')|].
    intros r (c5 & (X1 & X2 & X3) & W5 & ->). cbn [fst snd cw_sc c_v c_cfg c_sc sc_conflicts sc_next sc_luby c_st]. rewrite X1.
    split; [congruence|]. split; [congruence|]. intros _. split; [congruence|]. destruct (restarts c); [exact R1|]. subst c1. split; [reflexivity|]. split; [reflexivity|exact W5].
Qed.
