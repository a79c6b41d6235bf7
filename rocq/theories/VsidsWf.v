(** Availability in the decision heap, for all operations (C21 and the solver). *)
From Coq Require Import Lia Arith PeanoNat.
From Verif Require Import Spec F32 Config Vsids VsidsProofs.
Local Open Scope nat_scope.

(** What a client can do with the heap. *)
Inductive vop :=
| OBump (x : N)
| ODecay
| OSetDecay (d : f32)
| OReset (x : N)
| OAvail (x : N)
| OUnavail (x : N)
| ONext.

(** One operation and the variable it returns; [None] if an assertion fails. *)
Definition vstep (v : vsids) (o : vop) : option (vsids * option N) :=
  match o with
  | OBump x => Some (vsids_bump v x, None)
  | ODecay => Some (vsids_decay v, None)
  | OSetDecay d => if set_decay_ok d then Some (vsids_set_decay v d, None) else None
  | OReset x => match vsids_reset v x with Some v => Some (v, None) | None => None end
  | OAvail x => Some (vsids_make_available v x, None)
  | OUnavail x => Some (vsids_make_unavailable v x, None)
  | ONext => match vsids_next v with Some (x, v) => Some (v, Some x) | None => Some (v, None) end
  end.

(** * Availability and positions, for all operations *)
Definition wf (v : vsids) : Prop := agrees (fun _ => True) (vs_heap v) (vs_pos v).

Lemma in_heap v x : wf v -> (In x (vs_heap v) <-> vs_pos v x <> None).
Proof.
  intros [_ A]. split.
  - intros H. apply (In_nth _ _ 0%N) in H. destruct H as (p & Hp & E).
    rewrite (proj2 (A x p Logic.I)); [discriminate|auto].
  - intros H. destruct (vs_pos v x) as [p|] eqn:E; [|congruence].
    apply A in E; [|exact Logic.I]. destruct E as [Hp <-]. apply nth_In. exact Hp.
Qed.

Lemma agrees_push v x : wf v -> vs_pos v x = None ->
  agrees (fun _ => True) (vs_heap v ++ [x]) (upd (vs_pos v) x (Some (length (vs_heap v)))).
Proof.
  intros [_ A] N0. split; [intros; exact Logic.I|]. intros y p _. rewrite app_length. cbn [length].
  unfold upd. destruct (N.eqb_spec y x) as [->|NE].
  - split.
    + intros E. injection E as <-. split; [lia|]. rewrite app_nth2, Nat.sub_diag by lia. reflexivity.
    + intros [L E]. f_equal. destruct (Nat.eq_dec p (length (vs_heap v))) as [->|NEp]; [reflexivity|].
      exfalso. rewrite app_nth1 in E by lia.
      assert (vs_pos v x = Some p) by (apply A; [exact Logic.I|split; [lia|exact E]]). congruence.
  - rewrite (A y p Logic.I). split; intros [L E].
    + split; [lia|]. rewrite app_nth1 by lia. exact E.
    + destruct (Nat.eq_dec p (length (vs_heap v))) as [->|NEp].
      * rewrite app_nth2, Nat.sub_diag in E by lia. cbn in E. congruence.
      * rewrite app_nth1 in E by lia. split; [lia|exact E].
Qed.

Lemma agrees_removed heap pos p : agrees (fun _ => True) heap pos -> p < length heap ->
  let var := nth p heap 0%N in
  let heap' := swap_remove p heap in
  let pos' := if p <? length heap' then upd pos (nth p heap' 0%N) (Some p) else pos in
  agrees (fun x => x <> var) heap' pos'
  /\ (forall x, x <> var -> (pos' x = None <-> pos x = None)).
Proof.
  intros A Hp var heap'.
  pose proof (swap_remove_length p heap Hp) as L. fold heap' in L.
  assert (NH : forall i, i < length heap' -> nth i heap' 0%N =
           if i =? p then nth (pred (length heap)) heap 0%N else nth i heap 0%N).
  { intros i Hi. apply nth_swap_remove; [exact Hp|]. lia. }
  assert (Inj : forall i j, i < length heap -> j < length heap -> nth i heap 0%N = nth j heap 0%N -> i = j).
  { intros i j. apply (agrees_inj (fun _ => True) heap pos); assumption. }
  destruct A as [_ A].
  assert (PV : pos (nth (pred (length heap)) heap 0%N) = Some (pred (length heap))).
  { apply A; [exact Logic.I|]. split; [lia|reflexivity]. }
  intros pos'.
  assert (P1 : forall x q, x <> var -> pos' x = Some q <-> q < length heap' /\ nth q heap' 0%N = x).
  { intros x q NV. unfold var in NV. unfold pos'. destruct (Nat.ltb_spec p (length heap')) as [Lp|Lp].
    - rewrite (NH p Lp), Nat.eqb_refl. unfold upd.
      destruct (N.eqb_spec x (nth (pred (length heap)) heap 0%N)) as [->|NX].
      + split.
        * intros E. injection E as <-. split; [exact Lp|]. rewrite (NH p Lp), Nat.eqb_refl. reflexivity.
        * intros [Hq E]. f_equal. rewrite (NH q Hq) in E. destruct (Nat.eqb_spec q p) as [->|]; [reflexivity|].
          apply Inj in E; lia.
      + rewrite (A x q Logic.I). split; intros [Hq E].
        * assert (q <> pred (length heap)) by (intros ->; congruence).
          assert (q <> p) by (intros ->; congruence).
          split; [lia|]. rewrite NH by lia. destruct (Nat.eqb_spec q p); [contradiction|exact E].
        * split; [lia|]. rewrite (NH q Hq) in E. destruct (Nat.eqb_spec q p); [congruence|exact E].
    - assert (p = pred (length heap)) by lia.
      rewrite (A x q Logic.I). split; intros [Hq E].
      + assert (q <> p) by (intros ->; congruence).
        split; [lia|]. rewrite NH by lia. destruct (Nat.eqb_spec q p); [contradiction|exact E].
      + split; [lia|]. rewrite (NH q Hq) in E. destruct (Nat.eqb_spec q p); [lia|exact E]. }
  split.
  - split.
    + intros i Hi. rewrite (NH i Hi). intros E. unfold var in E.
      destruct (Nat.eqb_spec i p) as [->|NE]; apply Inj in E; lia.
    + intros x q NV. apply P1. exact NV.
  - intros x NV. unfold pos'. destruct (p <? length heap') eqn:Lp; [|reflexivity].
    apply Nat.ltb_lt in Lp. rewrite (NH p Lp), Nat.eqb_refl. unfold upd.
    destruct (N.eqb_spec x (nth (pred (length heap)) heap 0%N)) as [->|]; [|reflexivity].
    rewrite PV. split; discriminate.
Qed.

Lemma agrees_forget heap pos var : agrees (fun x => x <> var) heap pos ->
  agrees (fun _ => True) heap (upd pos var None).
Proof.
  intros [A1 A2]. split; [intros; exact Logic.I|]. intros x p _.
  unfold upd. destruct (N.eqb_spec x var) as [->|NE]; [|apply A2; exact NE].
  split; [discriminate|]. intros [Hp E]. exfalso. exact (A1 p Hp E).
Qed.

(** What every operation does to the set of available variables. *)
Definition avail_after (v : vsids) (o : vop) (r : option N) (x : N) : Prop :=
  match o with
  | OAvail y => x = y \/ In x (vs_heap v)
  | OUnavail y => x <> y /\ In x (vs_heap v)
  | ONext => r <> Some x /\ In x (vs_heap v)
  | _ => In x (vs_heap v)
  end.

Lemma bump_wf v x : wf v -> wf (vsids_bump v x)
  /\ forall y, vs_pos (vsids_bump v x) y = None <-> vs_pos v y = None.
Proof.
  intros W. unfold vsids_bump.
  set (v1 := Vsids (upd (vs_act v) x (f32_add (vs_act v x) (vs_bump v))) (vs_heap v) (vs_pos v) (vs_bump v) (vs_inv v)).
  set (v2 := if f32_ge (f32_add (vs_act v x) (vs_bump v)) rescale_limit then vsids_rescale v1 else v1).
  assert (H2 : vs_heap v2 = vs_heap v /\ vs_pos v2 = vs_pos v).
  { unfold v2. destruct (f32_ge _ _); split; reflexivity. }
  destruct H2 as [H2 P2].
  change (wf (match vs_pos v2 x with
    | Some p => let '(heap, pos) := sift_up p (vs_act v2) (vs_heap v2) (vs_pos v2) p in
        Vsids (vs_act v2) heap pos (vs_bump v2) (vs_inv v2)
    | None => v2 end) /\ (forall y, vs_pos (match vs_pos v2 x with
    | Some p => let '(heap, pos) := sift_up p (vs_act v2) (vs_heap v2) (vs_pos v2) p in
        Vsids (vs_act v2) heap pos (vs_bump v2) (vs_inv v2)
    | None => v2 end) y = None <-> vs_pos v y = None)).
  rewrite H2, P2.
  destruct (vs_pos v x) as [p|] eqn:E.
  - destruct (sift_up p (vs_act v2) (vs_heap v) (vs_pos v) p) as [h q] eqn:S.
    assert (Hp : p < length (vs_heap v)) by (apply (proj2 W x p Logic.I); exact E).
    destruct (sift_up_agrees _ _ (fun _ => True) _ _ _ _ _ (le_n p) W Hp S) as (A & _ & B).
    split; [exact A|exact B].
  - split; [unfold wf; rewrite H2, P2; exact W|]. intros y. rewrite P2. reflexivity.
Qed.

Lemma vstep_wf v o v' r : wf v -> vstep v o = Some (v', r) ->
  wf v' /\ forall x, In x (vs_heap v') <-> avail_after v o r x.
Proof.
  intros W E. destruct o as [x| |d|x|x|x|]; cbn [vstep avail_after] in *.
  - injection E as <- <-. destruct (bump_wf v x W) as [W' P]. split; [exact W'|].
    intros y. rewrite (in_heap _ _ W'), (in_heap _ _ W), P. reflexivity.
  - injection E as <- <-. unfold vsids_decay. destruct (f32_ge _ _); (split; [exact W|]); reflexivity.
  - destruct (set_decay_ok d); [|discriminate]. injection E as <- <-. split; [exact W|]; reflexivity.
  - unfold vsids_reset in E. destruct (vs_pos v x); [discriminate|]. injection E as <- <-.
    split; [exact W|]; reflexivity.
  - injection E as <- <-. unfold vsids_make_available.
    destruct (vs_pos v x) as [p|] eqn:Ex.
    + split; [exact W|]. intros y. split; [auto|]. intros [->|H]; [|exact H].
      apply in_heap; [exact W|]. congruence.
    + destruct (sift_up _ _ _ _ _) as [h q] eqn:S.
      pose proof (agrees_push v x W Ex) as A.
      assert (Hp : length (vs_heap v) < length (vs_heap v ++ [x])) by (rewrite app_length; cbn; lia).
      destruct (sift_up_agrees _ _ (fun _ => True) _ _ _ _ _ (le_n _) A Hp S) as (A' & _ & B).
      assert (W' : wf (Vsids (vs_act v) h q (vs_bump v) (vs_inv v))) by exact A'.
      split; [exact W'|]. intros y. rewrite (in_heap _ _ W'), (in_heap _ _ W). cbn [vs_pos].
      rewrite B. unfold upd. destruct (N.eqb_spec y x) as [->|NE].
      * split; [auto|]. intros _. discriminate.
      * intuition.
  - injection E as <- <-. unfold vsids_make_unavailable.
    destruct (vs_pos v x) as [p|] eqn:Ex.
    2:{ split; [exact W|]. intros y. split; [|tauto]. intros H. split; [|exact H].
        intros ->. apply in_heap in H; [|exact W]. congruence. }
    assert (Hp : p < length (vs_heap v) /\ nth p (vs_heap v) 0%N = x).
    { apply (proj2 W x p Logic.I). exact Ex. }
    destruct Hp as [Hp Ev].
    pose proof (agrees_removed _ _ p W Hp) as R. cbv zeta in R. rewrite Ev in R.
    set (h := swap_remove p (vs_heap v)) in *. destruct R as [R1 R2].
    set (res := if p <? length h
                then sift_down (length h) (vs_act v) h (upd (vs_pos v) (nth p h 0%N) (Some p)) p
                else (h, vs_pos v)).
    assert (K : preserves (fun y => y <> x) h (fst res)
                  (if p <? length h then upd (vs_pos v) (nth p h 0%N) (Some p) else vs_pos v) (snd res)).
    { unfold res. destruct (Nat.ltb_spec p (length h)).
      - destruct (sift_down _ _ _ _ _) as [h' q'] eqn:S. cbn [fst snd].
        exact (sift_down_agrees _ _ _ _ _ _ _ _ R1 H S).
      - cbn [fst snd]. apply preserves_refl. exact R1. }
    destruct res as [h' q']. cbn [fst snd] in K. destruct K as (K1 & _ & K2).
    assert (W' : wf (Vsids (vs_act v) h' (upd q' x None) (vs_bump v) (vs_inv v))).
    { apply agrees_forget. exact K1. }
    split; [exact W'|]. intros y. rewrite (in_heap _ _ W'), (in_heap _ _ W). cbn [vs_pos].
    unfold upd at 1. destruct (N.eqb_spec y x) as [->|NE]; [intuition|].
    rewrite K2, (R2 y NE). intuition.
  - unfold vsids_next in E. destruct (vs_heap v) as [|x rest] eqn:Eh.
    { injection E as <- <-. split; [exact W|]. intros y. rewrite Eh. cbn. tauto. }
    rewrite <- Eh in *.
    assert (Hp : 0 < length (vs_heap v)) by (rewrite Eh; cbn; lia).
    assert (Ev : nth 0 (vs_heap v) 0%N = x) by (rewrite Eh; reflexivity).
    pose proof (agrees_removed _ _ 0 W Hp) as R. cbv zeta in R. rewrite Ev in R.
    set (h := swap_remove 0 (vs_heap v)) in *. destruct R as [R1 R2].
    set (res := match h with
                | [] => (h, vs_pos v)
                | top :: _ => sift_down (length h) (vs_act v) h (upd (vs_pos v) top (Some 0)) 0
                end) in E.
    assert (K : preserves (fun y => y <> x) h (fst res)
                  (if 0 <? length h then upd (vs_pos v) (nth 0 h 0%N) (Some 0) else vs_pos v) (snd res)).
    { unfold res. clear E res. clearbody h. destruct h as [|top h0].
      - apply preserves_refl. exact R1.
      - destruct (sift_down _ _ _ _ _) as [h' q'] eqn:S.
        exact (sift_down_agrees _ _ _ _ _ _ _ _ R1 (Nat.lt_0_succ _) S). }
    destruct res as [h' q']. cbn [fst snd] in K. destruct K as (K1 & _ & K2).
    injection E as <- <-.
    assert (W' : wf (Vsids (vs_act v) h' (upd q' x None) (vs_bump v) (vs_inv v))).
    { apply agrees_forget. exact K1. }
    split; [exact W'|]. intros y. rewrite (in_heap _ _ W'), (in_heap _ _ W). cbn [vs_pos].
    unfold upd at 1. destruct (N.eqb_spec y x) as [->|NE]; [intuition|].
    rewrite K2, (R2 y NE). intuition congruence.
Qed.
