From Coq Require Import Arith ZArith ZifyBool ZifyNat ZifyN Sorted.
From Verif Require Import Spec Lit LitProofs Vli Cnf Dimacs DimacsSpec DimacsRefProofs DimacsRoundProofs BinFormat Checker Lrat LratSpec.

(** * Numbers *)
Lemma read_leb_aux fuel : forall n r, n < 2 ^ N.of_nat fuel -> read_leb (leb_aux fuel n ++ r) = Some (n, r).
Proof.
  induction fuel as [|fuel IH]; intros n r H.
  - assert (n = 0) as -> by (change (2 ^ N.of_nat 0) with 1 in H; lia). reflexivity.
  - cbn [leb_aux]. destruct (N.ltb_spec n 128) as [L|L].
    + cbn [app read_leb]. destruct (N.ltb_spec n 128); [reflexivity|lia].
    + cbn [app read_leb]. pose proof (N.mod_lt n 128 ltac:(lia)) as M. destruct (N.ltb_spec (128 + n mod 128) 128); [lia|].
      rewrite IH.
      * f_equal. f_equal. pose proof (N.div_mod n 128 ltac:(lia)). lia.
      * rewrite Nat2N.inj_succ, N.pow_succ_r' in H. apply N.div_lt_upper_bound; [lia|]. lia.
Qed.
Lemma read_leb_leb n r : read_leb (leb n ++ r) = Some (n, r).
Proof. apply read_leb_aux. rewrite N2Nat.id. apply size_lt. Qed.
Lemma leb_nonempty n : leb n <> [].
Proof. unfold leb. destruct (N.to_nat (N.size n)); cbn; [discriminate|]. destruct (n <? 128); discriminate. Qed.

Lemma leb_list_written vs : forall fuel r, Forall (fun v => v <> 0) vs -> (length vs < fuel)%nat ->
  leb_list fuel (flat_map leb vs ++ 0 :: r) = Some (map from_code vs, r).
Proof.
  induction vs as [|v vs IH]; intros fuel r F L; (destruct fuel as [|fuel]; [cbn [length] in L; lia|]); cbn [flat_map leb_list map].
  - cbn. reflexivity.
  - inversion F as [|? ? A B]; subst. rewrite <- app_assoc, read_leb_leb. destruct (N.eqb_spec v 0); [contradiction|].
    rewrite IH; [reflexivity|exact B|cbn [length] in L; lia].
Qed.
Lemma flat_leb_length vs : (length vs <= length (flat_map leb vs))%nat.
Proof.
  induction vs as [|v vs IH]; [cbn; lia|]. cbn [flat_map]. rewrite app_length. pose proof (leb_nonempty v).
  destruct (leb v); [contradiction|]. cbn [length]. lia.
Qed.
Lemma leb_list_full vs r : Forall (fun v => v <> 0) vs ->
  let bs := flat_map leb vs ++ 0 :: r in leb_list (length bs) bs = Some (map from_code vs, r).
Proof.
  intros F bs. unfold bs. apply leb_list_written; [exact F|]. rewrite app_length. pose proof (flat_leb_length vs). cbn [length]. lia.
Qed.

(** * Words *)
Definition word_ok (w : list N) : Prop := forallb (fun b => negb (is_sep b)) w = true.
Lemma words_line ws last : Forall word_ok ws -> word_ok last ->
  words (flat_map (fun w => w ++ [32]) ws ++ last) = ws ++ [last].
Proof.
  intros F L. unfold words. assert (X : forall w, word_ok w -> forallb (fun b => negb (b =? 32)) w = true).
  { intros w H. unfold word_ok in H. rewrite forallb_forall in *. intros b Hb. specialize (H b Hb). unfold is_sep in H. lia. }
  induction F as [|w ws H _ IH]; cbn [flat_map app].
  - assert (E : split (fun b => b =? 32) last = [last]); [|exact E]. apply X in L. induction last as [|b l IHl]; [reflexivity|].
    cbn [forallb] in L. apply andb_prop in L as [L1 L2]. cbn [split]. destruct (b =? 32); [discriminate|]. rewrite (IHl L2). reflexivity.
  - rewrite <- !app_assoc. cbn [app]. rewrite split_piece; [|apply X; exact H|reflexivity]. f_equal. exact IH.
Qed.

Lemma no_nl_words ws last : Forall word_ok ws -> word_ok last -> forallb (fun b => negb (b =? 10)) (flat_map (fun w => w ++ [32]) ws ++ last) = true.
Proof.
  assert (X : forall w, word_ok w -> forallb (fun b => negb (b =? 10)) w = true).
  { intros w H. unfold word_ok in H. rewrite forallb_forall in *. intros b Hb. specialize (H b Hb). unfold is_sep, is_nl in H. lia. }
  intros F L. rewrite forallb_app, (X _ L), andb_true_r. induction F as [|w ws H _ IH]; [reflexivity|]. cbn [flat_map]. rewrite !forallb_app, (X _ H), IH. reflexivity.
Qed.

(** lines, each a list of words and a final word *)
Lemma parse_text_lines {A} (f : list (list N) -> option A) (ls : list (list (list N) * list N * A)) :
  Forall (fun l => Forall word_ok (fst (fst l)) /\ word_ok (snd (fst l)) /\ f (fst (fst l) ++ [snd (fst l)]) = Some (snd l)) ls ->
  parse_text f (flat_map (fun l => flat_map (fun w => w ++ [32]) (fst (fst l)) ++ snd (fst l) ++ [10]) ls) = Some (map snd ls).
Proof.
  unfold parse_text. induction 1 as [|l ls (A1&A2&A3) _ IH]; [reflexivity|]. destruct l as [[ws last] x]. cbn [fst snd] in *.
  cbn [flat_map map snd fst]. rewrite <- !app_assoc. cbn [app]. rewrite app_assoc, split_piece; [|apply no_nl_words; assumption|reflexivity].
  set (rest := split _ _) in *. assert (NE : rest <> []).
  { unfold rest. generalize (flat_map (fun l : list (list N) * list N * A => flat_map (fun w : list N => w ++ [32]) (fst (fst l)) ++ snd (fst l) ++ [10]) ls).
    intros bs. destruct bs as [|b bs]; cbn [split]; [discriminate|]. destruct (b =? 10); [discriminate|]. destruct (split _ bs); discriminate. }
  destruct rest as [|y ys] eqn:E; [contradiction|]. cbn [text_lines]. rewrite words_line by assumption. rewrite A3.
  cbn [text_lines] in IH. rewrite IH. reflexivity.
Qed.

Lemma word_dec n : word_ok (dec n) /\ word_int (dec n) = Some (Z.of_N n).
Proof.
  destruct (word_itoa (Z.of_N n)) as (A&_&B&_). assert (E : itoa (Z.of_N n) = dec n).
  { unfold itoa. destruct (Z.ltb_spec (Z.of_N n) 0); [lia|]. f_equal. lia. }
  rewrite E in *. auto.
Qed.
Lemma word_lit z : word_ok (itoa z) /\ word_int (itoa z) = Some z.
Proof. destruct (word_itoa z) as (A&_&B&_). auto. Qed.

Lemma ints_app a : forall b, ints (a ++ b) = match ints a, ints b with Some x, Some y => Some (x ++ y) | _, _ => None end.
Proof.
  induction a as [|w a IH]; intros b; cbn [app ints]; [destruct (ints b); reflexivity|].
  rewrite IH. destruct (word_int w); [|reflexivity]. destruct (ints a), (ints b); reflexivity.
Qed.
Lemma ints_map {X} (f : X -> list N) (g : X -> Z) l : (forall x, In x l -> word_int (f x) = Some (g x)) -> ints (map f l) = Some (map g l).
Proof.
  induction l as [|x l IH]; intros H; [reflexivity|]. cbn [map ints]. rewrite (H x (or_introl eq_refl)), IH; [reflexivity|]. intros y Hy. apply H. right. exact Hy.
Qed.
Lemma until_zero_app a b : Forall (fun z => z <> 0%Z) a -> until_zero (a ++ 0%Z :: b) = Some (a, b).
Proof.
  induction 1 as [|z a H _ IH]; [reflexivity|]. cbn [app until_zero]. destruct (Z.eqb_spec z 0); [contradiction|]. rewrite IH. reflexivity.
Qed.

(** * Integers for identifiers and literals *)
Definition zid (id : N) : Z := Z.of_N (id + 1).
Definition zlit (l : N) : Z := if N.odd l then (- Z.of_N (N.div2 l + 1))%Z else Z.of_N (N.div2 l + 1).

Definition id_ok (id : N) : Prop := id < 2^63 - 1.
Lemma u64_id id : id_ok id -> u64 (id + 1) = id + 1 /\ u64 (u64 (id + 1) * 2) = 2 * (id + 1).
Proof.
  unfold id_ok, u64. change (2^63 - 1) with 9223372036854775807. change (2^64) with 18446744073709551616. intros H.
  rewrite (N.mod_small (id + 1)) by lia. rewrite N.mod_small by lia. split; [reflexivity|lia].
Qed.
Lemma from_code_id id : from_code (2 * (id + 1)) = zid id.
Proof.
  pose proof (odd_val (id + 1) true) as A. pose proof (div2_val (id + 1) true) as B. cbv iota in A, B. rewrite N.add_0_r in A, B.
  unfold from_code, zid. rewrite A, B. reflexivity.
Qed.
Lemma from_code_lit l : from_code (l + 2) = zlit l.
Proof.
  assert (E : l + 2 = 2 * (N.div2 l + 1) + if negb (N.odd l) then 0 else 1).
  { rewrite (div2_odd_eq l) at 1. destruct (N.odd l); cbn [negb]; lia. }
  unfold from_code, zlit. rewrite E, odd_val, div2_val, negb_involutive. reflexivity.
Qed.
Lemma zid_nz l : Forall (fun z => z <> 0%Z) (map zid l).
Proof. apply Forall_map, Forall_forall. intros x _. unfold zid. lia. Qed.
Lemma zlit_nz l : Forall (fun z => z <> 0%Z) (map zlit l).
Proof. apply Forall_map, Forall_forall. intros x _. unfold zlit. destruct (N.odd x); lia. Qed.

(** * Lines as written *)
Inductive nline := NAdd (id : N) (lits hints : list N) | NDel (after : N) (ids : list N).
Definition view (binary : bool) (n : nline) : line :=
  match n with
  | NAdd id lits hints => LAdd (zid id) (map zlit lits) (map zid hints)
  | NDel after ids => LDel (if binary then None else Some (zid after)) (map zid ids)
  end.
Definition nline_ok (n : nline) : Prop :=
  match n with
  | NAdd id lits hints => id_ok id /\ Forall (fun l => l < 2^32) lits /\ Forall id_ok hints
  | NDel after ids => id_ok after /\ Forall id_ok ids
  end.

Definition bin_ids (ids : list N) : list N := flat_map leb (map (fun id => 2 * (id + 1)) ids).
Definition txt_ids (ids : list N) : list (list N) := map (fun id => dec (id + 1)) ids.
Definition txt_lits (ls : list N) : list (list N) := map (fun l => itoa (lit_to_dimacs l)) ls.
Definition spaced (ws : list (list N)) : list N := flat_map (fun w => w ++ [32]) ws.

Definition txt_words (n : nline) : list (list N) :=
  match n with
  | NAdd id lits hints => txt_ids [id] ++ txt_lits lits ++ [[48]] ++ txt_ids hints
  | NDel after ids => txt_ids [after] ++ [[100]] ++ txt_ids ids
  end.
Definition bin_line (n : nline) : list N :=
  match n with
  | NAdd id lits hints => [97] ++ bin_ids [id] ++ flat_map leb (map (fun l => l + 2) lits) ++ [0] ++ bin_ids hints
  | NDel _ ids => [100] ++ bin_ids ids
  end.
(** without the terminating zero *)
Definition enc_open (binary : bool) (n : nline) : list N := if binary then bin_line n else spaced (txt_words n).
Definition enc (binary : bool) (n : nline) : list N := enc_open binary n ++ (if binary then [0] else [48; 10]).

Lemma word_ok_small w : w = [48] \/ w = [100] -> word_ok w.
Proof. intros [-> | ->]; reflexivity. Qed.
Lemma txt_ids_ok ids : Forall word_ok (txt_ids ids).
Proof. apply Forall_map, Forall_forall. intros x _. apply word_dec. Qed.
Lemma txt_lits_ok ls : Forall word_ok (txt_lits ls).
Proof. apply Forall_map, Forall_forall. intros x _. apply word_lit. Qed.
Lemma ints_ids ids : ints (txt_ids ids) = Some (map zid ids).
Proof. apply ints_map. intros x _. apply word_dec. Qed.
Lemma zlit_dimacs l : l < 2^32 -> lit_to_dimacs l = zlit l.
Proof.
  change (2^32) with 4294967296. intros H. unfold lit_to_dimacs, var_to_dimacs, zlit. rewrite is_negative_odd, lit_var_div.
  rewrite u32_small; [reflexivity|]. change (2^32) with 4294967296. rewrite N.div2_div. pose proof (N.div_lt_upper_bound l 2 4294967295). lia.
Qed.
Lemma ints_lits ls : Forall (fun l => l < 2^32) ls -> ints (txt_lits ls) = Some (map zlit ls).
Proof.
  intros F. apply ints_map. intros x Hx. rewrite zlit_dimacs by (eapply Forall_forall in F; eassumption). apply word_lit.
Qed.

Lemma dec_not_d n : dec n <> [100].
Proof. intros E. destruct (dec_spec n) as (_&B&_). rewrite E in B. discriminate. Qed.
Lemma itoa_not_d z : itoa z <> [100].
Proof. unfold itoa. destruct (z <? 0)%Z; [discriminate|apply dec_not_d]. Qed.

Lemma text_line_add w w2 rest : word_int w <> None -> w2 <> [100] ->
  text_line (w :: w2 :: rest) = match word_int w, ints (w2 :: rest) with
    | Some id, Some zs => match until_zero zs with
                       | Some (lits, zs) => match until_zero zs with Some (hints, []) => Some (LAdd id lits hints) | _ => None end
                       | None => None end
    | _, _ => None end.
Proof.
  intros H N. cbn [text_line]. destruct (word_int w) as [id|]; [|contradiction].
  destruct w2 as [|b w2]; [reflexivity|]. destruct w2 as [|b2 w2]; [|destruct b as [|p]; [reflexivity|]; do 7 (destruct p; try reflexivity)].
  destruct b as [|p]; [reflexivity|]. do 7 (destruct p; try reflexivity). contradiction.
Qed.

Lemma text_line_written n : nline_ok n -> text_line (txt_words n ++ [[48]]) = Some (view false n).
Proof.
  destruct n as [id lits hints|after ids]; intros O; cbn [nline_ok txt_words view] in *.
  - destruct O as (O1&O2&O3). set (body := (txt_lits lits ++ [[48]] ++ txt_ids hints) ++ [[48]]).
    assert (E : txt_ids [id] ++ txt_lits lits ++ [[48]] ++ txt_ids hints = txt_ids [id] ++ (txt_lits lits ++ [[48]] ++ txt_ids hints)) by reflexivity.
    rewrite <- app_assoc. fold body. clear E.
    assert (I : ints body = Some (map zlit lits ++ 0%Z :: map zid hints ++ [0%Z])).
    { unfold body. rewrite !ints_app, ints_lits, ints_ids by exact O2. change (ints [[48]]) with (Some [0%Z]). cbn [app]. rewrite <- app_assoc. reflexivity. }
    assert (B : exists w2 rest, body = w2 :: rest /\ w2 <> [100]).
    { unfold body. destruct lits as [|l lits]; [exists [48]; eexists; split; [reflexivity|discriminate]|].
      exists (itoa (lit_to_dimacs l)). eexists. split; [reflexivity|apply itoa_not_d]. }
    destruct B as (w2&rest&B&ND). rewrite B in *. cbn [txt_ids map app]. destruct (word_dec (id + 1)) as [_ WD].
    rewrite text_line_add by (rewrite ?WD; congruence). rewrite WD, I, until_zero_app by apply zlit_nz.
    rewrite until_zero_app by apply zid_nz. reflexivity.
  - destruct O as (O1&O2). cbn [txt_ids map app]. cbn [text_line]. destruct (word_dec (after + 1)) as [_ WD]. rewrite WD.
    fold (txt_ids ids). rewrite ints_app, ints_ids. change (ints [[48]]) with (Some [0%Z]). cbv iota. rewrite until_zero_app by apply zid_nz. reflexivity.
Qed.

Lemma txt_words_ok n : Forall word_ok (txt_words n).
Proof.
  destruct n as [id lits hints|after ids]; cbn [txt_words]; rewrite !Forall_app; repeat split; try apply txt_ids_ok; try apply txt_lits_ok;
    constructor; auto; apply word_ok_small; auto.
Qed.

Lemma bin_ids_read ids r : let bs := bin_ids ids ++ 0 :: r in leb_list (length bs) bs = Some (map zid ids, r).
Proof.
  cbv zeta. unfold bin_ids. rewrite leb_list_full; [|apply Forall_map, Forall_forall; intros; lia]. rewrite map_map. f_equal. f_equal.
  apply map_ext. intros x. apply from_code_id.
Qed.
Lemma bin_lits_read ls r : let bs := flat_map leb (map (fun l => l + 2) ls) ++ 0 :: r in leb_list (length bs) bs = Some (map zlit ls, r).
Proof.
  cbv zeta. rewrite leb_list_full; [|apply Forall_map, Forall_forall; intros; lia]. rewrite map_map. f_equal. f_equal. apply map_ext. intros x. apply from_code_lit.
Qed.

Lemma binary_line_written n r : exists b bs, enc true n ++ r = b :: bs /\ binary_line b bs = Some (view true n, r) /\ (length r < length (enc true n ++ r))%nat.
Proof.
  unfold enc, enc_open. destruct n as [id lits hints|after ids]; cbn [bin_line view].
  - exists 97. eexists. split; [rewrite <- !app_assoc; reflexivity|]. split.
    + unfold binary_line. change (97 =? 97) with true. cbv iota. cbn [bin_ids map flat_map]. rewrite app_nil_r, <- ?app_assoc, read_leb_leb, from_code_id.
      cbn [app]. rewrite bin_lits_read. fold (bin_ids hints). rewrite bin_ids_read. reflexivity.
    + rewrite !app_length. cbn [length]. lia.
  - exists 100. eexists. split; [rewrite <- !app_assoc; reflexivity|]. split.
    + unfold binary_line. change (100 =? 97) with false. change (100 =? 100) with true. cbv iota. cbn [app]. rewrite bin_ids_read. reflexivity.
    + rewrite !app_length. cbn [length]. lia.
Qed.

Lemma parse_binary_lines {A} (f : N -> list N -> option (A * list N)) (enc : A -> list N) (ok : A -> Prop) :
  (forall x r, ok x -> exists b bs, enc x ++ r = b :: bs /\ f b bs = Some (x, r) /\ (length r < length (enc x ++ r))%nat) ->
  forall xs fuel, Forall ok xs -> (length (flat_map enc xs) <= fuel)%nat -> binary_lines f fuel (flat_map enc xs) = Some xs.
Proof.
  intros H. induction xs as [|x xs IH]; intros fuel F L; [destruct fuel; reflexivity|]. inversion F as [|? ? F1 F2]; subst. cbn [flat_map] in *.
  destruct (H x (flat_map enc xs) F1) as (b&bs&E1&E2&E3). rewrite E1 in *. destruct fuel as [|fuel]; [cbn [length] in L; lia|].
  cbn [binary_lines]. rewrite E2, IH; [reflexivity|exact F2|]. lia.
Qed.

Lemma lrat_parse_lines binary ns : Forall nline_ok ns -> lrat_parse binary (flat_map (enc binary) ns) = Some (map (view binary) ns).
Proof.
  intros F. unfold lrat_parse. destruct binary.
  - clear F. unfold parse_binary. generalize (le_n (length (flat_map (enc true) ns))). generalize (length (flat_map (enc true) ns)) at 2 3.
    induction ns as [|n ns IH]; intros fuel L; [destruct fuel; reflexivity|]. cbn [flat_map map] in *.
    destruct (binary_line_written n (flat_map (enc true) ns)) as (b&bs&E1&E2&E3). rewrite E1 in *. destruct fuel as [|fuel]; [cbn [length] in L; lia|].
    cbn [binary_lines]. rewrite E2, IH; [reflexivity|]. lia.
  - pose proof (parse_text_lines text_line (map (fun n => (txt_words n, [48], view false n)) ns)) as P.
    rewrite flat_map_concat_map, !map_map in P. cbn [fst snd] in P. rewrite flat_map_concat_map. transitivity (Some (map (fun x : nline => view false x) ns)); [|reflexivity]. rewrite <- P.
    + reflexivity.
    + apply Forall_map. eapply Forall_impl; [|exact F]. intros n O. cbn [fst snd]. split; [apply txt_words_ok|]. split; [reflexivity|]. apply text_line_written. exact O.
Qed.

(** * The writer *)
Definition step_ops (k : checked_step) : list op :=
  match k with
  | KAtClause id _ lits hints => [OAdd (zid id) (map zlit lits) (map zid hints)]
  | KDuplicatedClause id _ _ | KTautologicalClause id _ | KDeleteClause id _
  | KDeleteAtClause id false _ _ | KDeleteRatClause id false _ _ => [ODel (zid id)]
  | _ => []
  end.
(** identifiers and literals are in range *)
Definition step_ok (k : checked_step) : Prop :=
  match k with
  | KAtClause id _ lits hints => id_ok id /\ Forall (fun l => l < 2^32) lits /\ Forall id_ok hints
  | KAddClause id _ | KDuplicatedClause id _ _ | KTautologicalClause id _ | KDeleteClause id _
  | KDeleteAtClause id _ _ _ | KDeleteRatClause id _ _ _ => id_ok id
  | _ => True
  end.
Definition intro_id (k : checked_step) : list N :=
  match k with KAtClause id _ _ _ | KAddClause id _ | KDuplicatedClause id _ _ | KTautologicalClause id _ => [id] | _ => [] end.

Definition nid (n : nline) : N := match n with NAdd id _ _ => id | NDel after _ => after end.
Definition nids (w : lrat) (done : list nline) (after : N) : list N := map nid done ++ if w_open w then [after] else [].

Record WI (mono : bool) (w : lrat) (done : list nline) (after : N) (ids : list N) : Prop := {
  wi_target : w_target w = flat_map (enc (w_binary w)) done ++ (if w_open w then enc_open (w_binary w) (NDel after ids) else []);
  wi_done : Forall nline_ok done;
  wi_open : nline_ok (NDel after ids);
  wi_buffered : w_binary w = true -> w_buffered w = [];
  wi_buf_ok : Forall id_ok (w_buffered w);
  wi_last : id_ok (w_last w);
  wi_none : w_open w = false -> ids = [];
  wi_mono : mono = true -> StronglySorted N.le (nids w done after ++ [w_last w]);
}.
Definition out_ops (w : lrat) (done : list nline) (ids : list N) : list op :=
  flat_map line_ops (map (view (w_binary w)) done) ++ map ODel (map zid ids) ++ map ODel (map zid (w_buffered w)).

Lemma sorted_snoc_le l x : StronglySorted N.le (l ++ [x]) <-> StronglySorted N.le l /\ Forall (fun y => y <= x) l.
Proof.
  induction l as [|z l IH]; cbn [app].
  - split; [intros _; split; constructor|intros _; repeat constructor].
  - split.
    + intros H. apply StronglySorted_inv in H as [H1 H2]. apply IH in H1 as [H1 H3]. rewrite Forall_app in H2. destruct H2 as [H2 H4].
      inversion H4; subst. split; [constructor; assumption|constructor; assumption].
    + intros [H1 H2]. apply StronglySorted_inv in H1 as [H1 H3]. inversion H2; subst. constructor; [apply IH; auto|]. rewrite Forall_app. auto.
Qed.

Definition written_ids (binary : bool) (xs : list N) : list N := if binary then bin_ids xs else spaced (txt_ids xs).
Lemma write_ids_eq w xs : Forall id_ok xs -> write_ids w xs = put w (written_ids (w_binary w) xs).
Proof.
  intros F. unfold write_ids, written_ids. f_equal. destruct (w_binary w).
  - unfold bin_ids. induction F as [|x xs H _ IH]; [reflexivity|]. cbn [flat_map map]. rewrite (proj2 (u64_id x H)), IH. reflexivity.
  - unfold spaced, txt_ids. induction F as [|x xs H _ IH]; [reflexivity|]. cbn [flat_map map]. rewrite (proj1 (u64_id x H)), IH. reflexivity.
Qed.
Lemma enc_open_app b after ids xs : enc_open b (NDel after (ids ++ xs)) = enc_open b (NDel after ids) ++ written_ids b xs.
Proof.
  unfold enc_open, written_ids, bin_line, txt_words, bin_ids, txt_ids, spaced. destruct b.
  - rewrite map_app, flat_map_app. cbn [app]. reflexivity.
  - rewrite map_app, !flat_map_app, <- !app_assoc. reflexivity.
Qed.

Lemma wi_write m w done after ids xs : WI m w done after ids -> w_open w = true -> Forall id_ok xs -> WI m (write_ids w xs) done after (ids ++ xs).
Proof.
  intros [A B C D E F G H] O X. rewrite write_ids_eq by exact X. unfold put, with_target. constructor; cbn [w_target w_binary w_open w_last w_buffered nids] in *; auto.
  - rewrite A, O, enc_open_app, <- app_assoc. reflexivity.
  - cbn [nline_ok] in *. split; [tauto|]. apply Forall_app. tauto.
  - congruence.
Qed.

Lemma wi_open_delete m w done after ids : WI m w done after ids ->
  exists after', WI m (open_delete w) done after' ids /\ w_open (open_delete w) = true /\ w_buffered (open_delete w) = w_buffered w /\
    w_binary (open_delete w) = w_binary w /\ w_last (open_delete w) = w_last w.
Proof.
  intros [A B C D E F G H]. unfold open_delete. destruct (w_open w) eqn:O.
  - exists after. split; [constructor; auto; rewrite ?O; auto|]. rewrite O. auto.
  - specialize (G eq_refl). subst ids. exists (w_last w). split; [|destruct (w_binary w) eqn:BI; cbn; auto].
    assert (T : w_target (with_open (write_delete_step (if w_binary w then w else write_ids w [w_last w])) true) = w_target w ++ enc_open (w_binary w) (NDel (w_last w) [])).
    { unfold enc_open. destruct (w_binary w) eqn:BI; unfold write_delete_step.
      - rewrite BI. reflexivity.
      - rewrite write_ids_eq by (constructor; auto). cbn [put with_target w_binary with_open w_target]. rewrite BI. cbn [put with_target w_target].
        rewrite <- app_assoc. unfold written_ids, spaced, txt_words, txt_ids. rewrite flat_map_app. reflexivity. }
    assert (FE : forall f : lrat -> N, True) by auto.
    constructor; rewrite ?T; (destruct (w_binary w) eqn:BI; unfold write_delete_step; cbn [write_ids put with_open with_target w_open w_binary w_buffered w_last nids]; rewrite ?BI);
      auto; try (split; [assumption|constructor]); try discriminate.
    + rewrite A, app_nil_r. reflexivity.
    + rewrite A, app_nil_r. reflexivity.
    + intros MM. specialize (H MM). unfold nids in *. rewrite O, app_nil_r in H. cbn [w_open]. apply sorted_snoc_le. split; [exact H|]. apply Forall_app. split; [|repeat constructor; lia].
      apply sorted_snoc_le in H. tauto.
    + intros MM. specialize (H MM). unfold nids in *. rewrite O, app_nil_r in H. cbn [w_open]. apply sorted_snoc_le. split; [exact H|]. apply Forall_app. split; [|repeat constructor; lia].
      apply sorted_snoc_le in H. tauto.
Qed.

Lemma wi_del m w done after ids xs : WI m w done after ids -> Forall id_ok xs ->
  exists after', WI m (write_ids (open_delete w) xs) done after' (ids ++ xs) /\ w_buffered (write_ids (open_delete w) xs) = w_buffered w /\
    w_binary (write_ids (open_delete w) xs) = w_binary w /\ w_last (write_ids (open_delete w) xs) = w_last w.
Proof.
  intros W X. destruct (wi_open_delete _ _ _ _ _ W) as (after'&A&B&C&D&E). exists after'. split; [apply wi_write; assumption|].
  unfold write_ids, put, with_target. cbn. auto.
Qed.

Lemma wi_close m w done after ids : WI m w done after ids ->
  exists done', WI m (close_delete w) done' after [] /\ w_open (close_delete w) = false /\ w_buffered (close_delete w) = w_buffered w /\
    w_binary (close_delete w) = w_binary w /\ w_last (close_delete w) = w_last w /\
    flat_map line_ops (map (view (w_binary w)) done') = flat_map line_ops (map (view (w_binary w)) done) ++ map ODel (map zid ids).
Proof.
  intros [A B C D E F G H]. unfold close_delete. destruct (w_open w) eqn:O.
  - exists (done ++ [NDel after ids]). split; [|split; [reflexivity|]; split; [reflexivity|]; split; [reflexivity|]; split; [reflexivity|]].
    + constructor; cbn [with_open write_end put with_target w_target w_binary w_open w_buffered w_last]; auto.
      * rewrite A, flat_map_app. cbn [flat_map]. unfold enc. rewrite !app_nil_r, <- !app_assoc. reflexivity.
      * apply Forall_app. auto.
      * cbn [nline_ok] in *. split; [tauto|constructor].
      * unfold nids in *. cbn [with_open write_end put with_target w_open]. rewrite O in H. rewrite map_app. cbn [map nid]. rewrite app_nil_r. exact H.
    + rewrite map_app, flat_map_app. cbn [map flat_map view line_ops]. rewrite app_nil_r. reflexivity.
  - exists done. specialize (G eq_refl). subst ids. split; [constructor; auto; rewrite ?O; auto|]. rewrite O. cbn [map]. rewrite app_nil_r. auto.
Qed.

Lemma wi_with_last m w done after ids i : WI m w done after ids -> id_ok i -> (m = true -> w_last w <= i) -> WI m (with_last w i) done after ids.
Proof.
  intros [A B C D E F G H] I L. constructor; auto. intros M. specialize (H M). specialize (L M). apply sorted_snoc_le in H as [H1 H2].
  apply sorted_snoc_le. split; [exact H1|]. eapply Forall_impl; [|exact H2]. cbn [with_last w_last]. intros x Hx. cbn beta in Hx. lia.
Qed.

Lemma wi_step m w done after ids k : WI m w done after ids -> step_ok k -> (m = true -> Forall (fun i => w_last w <= i) (intro_id k)) ->
  exists done' after' ids', WI m (lrat_step w k) done' after' ids' /\ w_binary (lrat_step w k) = w_binary w /\
    out_ops (lrat_step w k) done' ids' = out_ops w done ids ++ step_ops k /\
    (intro_id k = [] -> w_last (lrat_step w k) = w_last w) /\ (forall i, intro_id k = [i] -> w_last (lrat_step w k) = i) /\
    (w_buffered (lrat_step w k) <> [] -> match k with KAddClause _ _ => w_buffered w <> [] | KDuplicatedClause _ _ _ | KTautologicalClause _ _ => True | _ => False end).
Proof.
  intros W OK L. unfold lrat_step.
  (* the buffered deletions *)
  set (w1 := match k with KAddClause _ _ | KDuplicatedClause _ _ _ => w | _ => match w_buffered w with [] => w | b => write_ids (open_delete (with_buffered w [])) b end end).
  assert (W1 : exists after1 ids1, WI m w1 done after1 ids1 /\ w_binary w1 = w_binary w /\ w_last w1 = w_last w /\
     map ODel (map zid ids1) ++ map ODel (map zid (w_buffered w1)) = map ODel (map zid ids) ++ map ODel (map zid (w_buffered w)) /\
     match k with KAddClause _ _ | KDuplicatedClause _ _ _ => w_buffered w1 = w_buffered w | _ => w_buffered w1 = [] end).
  { assert (FL : exists after1 ids1, let w1 := match w_buffered w with [] => w | b => write_ids (open_delete (with_buffered w [])) b end in
       WI m w1 done after1 ids1 /\ w_binary w1 = w_binary w /\ w_last w1 = w_last w /\
       map ODel (map zid ids1) ++ map ODel (map zid (w_buffered w1)) = map ODel (map zid ids) ++ map ODel (map zid (w_buffered w)) /\ w_buffered w1 = []).
    { cbv zeta. destruct (w_buffered w) as [|b bs] eqn:BF; [exists after, ids; rewrite BF; auto|].
      assert (W0 : WI m (with_buffered w []) done after ids) by (destruct W as [A B C D E F G H]; constructor; auto; constructor).
      pose proof (wi_buf_ok _ _ _ _ _ W) as BO. rewrite BF in BO.
      destruct (wi_del _ _ _ _ _ (b :: bs) W0 BO) as (after'&X1&X2&X3&X4). cbn [with_buffered w_buffered w_binary w_last] in *.
      exists after', (ids ++ b :: bs). split; [exact X1|]. split; [exact X3|]. split; [exact X4|]. rewrite X2. split; [|reflexivity].
      rewrite !map_app. cbn [map]. rewrite app_nil_r. reflexivity. }
    unfold w1. destruct FL as (a1&i1&X1&X2&X3&X4&X5). destruct k; try (exists a1, i1; auto; fail); exists after, ids; auto. }
  clearbody w1. destruct W1 as (after1&ids1&W1&B1&L1&O1&BF1).
  assert (OUT : forall w2 d2 i2 x, w_binary w2 = w_binary w ->
      flat_map line_ops (map (view (w_binary w)) d2) ++ map ODel (map zid i2) ++ map ODel (map zid (w_buffered w2)) =
      flat_map line_ops (map (view (w_binary w)) done) ++ (map ODel (map zid ids1) ++ map ODel (map zid (w_buffered w1))) ++ x ->
      out_ops w2 d2 i2 = out_ops w done ids ++ x).
  { intros w2 d2 i2 x E1 E2. unfold out_ops. rewrite E1, E2, O1, <- !app_assoc. reflexivity. }
  assert (DELETE : forall id, id_ok id -> w_buffered w1 = [] -> exists done' after' ids', WI m (write_ids (open_delete w1) [id]) done' after' ids' /\
     w_binary (write_ids (open_delete w1) [id]) = w_binary w /\ w_last (write_ids (open_delete w1) [id]) = w_last w1 /\
     out_ops (write_ids (open_delete w1) [id]) done' ids' = out_ops w done ids ++ [ODel (zid id)] /\ w_buffered (write_ids (open_delete w1) [id]) = []).
  { intros id I BE. destruct (wi_del _ _ _ _ _ [id] W1 ltac:(constructor; auto)) as (after'&X1&X2&X3&X4).
    exists done, after', (ids1 ++ [id]). split; [exact X1|]. split; [congruence|]. split; [exact X4|]. split; [|congruence].
    apply OUT; [congruence|]. rewrite X2, BE, !map_app. cbn [map]. rewrite !app_nil_r, <- ?app_assoc. reflexivity. }
  destruct k as [v u|id l|id sm l|id l|id red l hs|id l|id keep l hs|id keep l pv|id l|mo|l|core hs]; cbn [step_ok step_ops intro_id] in *.
  - exists done, after1, ids1. split; [exact W1|]. split; [exact B1|]. split; [apply OUT; [exact B1|rewrite app_nil_r; reflexivity]|]. rewrite L1, BF1. repeat split; try discriminate; congruence.
  - (* KAddClause *) exists done, after1, ids1. split; [apply wi_with_last; auto; intros M; specialize (L M); inversion L; subst; congruence|].
    split; [exact B1|]. split; [apply OUT; [exact B1|rewrite app_nil_r; reflexivity]|]. split; [discriminate|]. split; [intros i E; inversion E; reflexivity|].
    cbn [with_last w_buffered]. congruence.
  - (* KDuplicatedClause *) assert (WL : WI m (with_last w1 id) done after1 ids1) by (apply wi_with_last; auto; intros M; specialize (L M); inversion L; subst; congruence).
    destruct (w_binary (with_last w1 id)) eqn:BI.
    + destruct (wi_del _ _ _ _ _ [id] WL ltac:(constructor; auto)) as (after'&X1&X2&X3&X4). cbn [with_last w_buffered w_binary w_last] in *.
      exists done, after', (ids1 ++ [id]). split; [exact X1|]. split; [congruence|]. split.
      * apply OUT; [congruence|]. rewrite X2. rewrite (wi_buffered _ _ _ _ _ W1 BI), !map_app. cbn [map]. rewrite !app_nil_r, <- ?app_assoc. reflexivity.
      * split; [discriminate|]. split; [intros i E; inversion E; congruence|auto].
    + cbn [with_last w_buffered w_binary w_last] in *. exists done, after1, ids1. split; [|split; [exact B1|split]].
      * destruct WL as [A B C D E F G H]. constructor; auto; [cbn; congruence|]. cbn [with_buffered w_buffered]. apply Forall_app. split; [exact E|]. constructor; auto.
      * apply OUT; [exact B1|]. cbn [with_buffered w_buffered]. rewrite !map_app, <- !app_assoc. reflexivity.
      * split; [discriminate|]. split; [intros i E; inversion E; reflexivity|auto].
  - (* KTautologicalClause *) assert (WL : WI m (with_last w1 id) done after1 ids1) by (apply wi_with_last; auto; intros M; specialize (L M); inversion L; subst; congruence).
    destruct (w_binary (with_last w1 id)) eqn:BI.
    + destruct (wi_del _ _ _ _ _ [id] WL ltac:(constructor; auto)) as (after'&X1&X2&X3&X4). cbn [with_last w_buffered w_binary w_last] in *.
      exists done, after', (ids1 ++ [id]). split; [exact X1|]. split; [congruence|]. split.
      * apply OUT; [congruence|]. rewrite X2. rewrite (wi_buffered _ _ _ _ _ W1 BI), !map_app. cbn [map]. rewrite !app_nil_r, <- ?app_assoc. reflexivity.
      * split; [discriminate|]. split; [intros i E; inversion E; congruence|auto].
    + cbn [with_last w_buffered w_binary w_last] in *. exists done, after1, ids1. split; [|split; [exact B1|split]].
      * destruct WL as [A B C D E F G H]. constructor; auto; [cbn; congruence|]. cbn [with_buffered w_buffered]. apply Forall_app. split; [exact E|]. constructor; auto.
      * apply OUT; [exact B1|]. cbn [with_buffered w_buffered]. rewrite !map_app, <- !app_assoc. reflexivity.
      * split; [discriminate|]. split; [intros i E; inversion E; reflexivity|auto].
  - (* KAtClause *) destruct OK as (K1&K2&K3). destruct (wi_close _ _ _ _ _ W1) as (done'&X1&X2&X3&X4&X5&X6).
    assert (WL : WI m (with_last (close_delete w1) id) done' after1 []) by (apply wi_with_last; auto; intros M; specialize (L M); inversion L; subst; congruence).
    set (w2 := with_last (close_delete w1) id) in *.
    assert (O2 : w_open w2 = false) by exact X2. assert (B2 : w_binary w2 = w_binary w) by (unfold w2; cbn [with_last w_binary]; congruence).
    assert (E : write_end (write_ids (write_sep (write_lits (write_ids (write_add_step w2) [id]) l)) hs) = put w2 (enc (w_binary w2) (NAdd id l hs))).
    { rewrite !write_ids_eq by (try constructor; auto). unfold write_end, write_sep, write_lits, write_add_step, put, with_target.
      cbn [w_binary w_target w_open w_last w_buffered]. f_equal. unfold enc, enc_open, written_ids. destruct (w_binary w2).
      - unfold bin_line. rewrite <- !app_assoc. do 3 f_equal. rewrite flat_map_concat_map, (flat_map_concat_map leb), map_map. reflexivity.
      - unfold txt_words, spaced. rewrite !flat_map_app, <- !app_assoc. cbn [app]. do 2 f_equal. unfold txt_lits. rewrite (flat_map_concat_map _ (map _ l)), map_map, <- flat_map_concat_map. reflexivity. }
    rewrite E. exists (done' ++ [NAdd id l hs]), after1, []. split; [|split; [exact B2|split]].
    + destruct WL as [A B C D EE F G H]. constructor; auto.
      * cbn [put with_target w_target w_binary w_open]. rewrite O2, A, O2, flat_map_app. cbn [flat_map]. rewrite !app_nil_r. reflexivity.
      * apply Forall_app. split; [exact B|]. constructor; [|constructor]. cbn [nline_ok]. auto.
      * intros M. specialize (H M). unfold nids in *. cbn [put with_target w_open]. rewrite O2 in *. rewrite app_nil_r in *. cbn [w_last put with_target] in *.
        apply sorted_snoc_le. rewrite map_app. cbn [map nid]. split; [exact H|]. apply Forall_app. apply sorted_snoc_le in H. split; [tauto|]. repeat constructor. unfold w2. cbn [with_last w_last]. lia.
    + apply OUT; [exact B2|]. cbn [put with_target w_buffered]. unfold w2. cbn [with_last w_buffered]. rewrite X3, BF1, B1 in *. rewrite map_app, flat_map_app, X6. cbn [map flat_map view line_ops app].
      rewrite !app_nil_r, <- ?app_assoc. reflexivity.
    + split; [discriminate|]. split; [intros i EI; injection EI as <-; reflexivity|]. cbn [put with_target w_buffered]. unfold w2. cbn [with_last w_buffered]. congruence.
  - destruct (DELETE id OK BF1) as (d&a&i&D1&D2&D3&D4&D5). exists d, a, i. split; [exact D1|]. split; [exact D2|]. split; [exact D4|]. split; [congruence|]. split; [discriminate|congruence].
  - destruct keep; [exists done, after1, ids1; split; [exact W1|]; split; [exact B1|]; split; [apply OUT; [exact B1|rewrite app_nil_r; reflexivity]|]; rewrite L1, BF1; repeat split; try discriminate; congruence|].
    destruct (DELETE id OK BF1) as (d&a&i&D1&D2&D3&D4&D5). exists d, a, i. split; [exact D1|]. split; [exact D2|]. split; [exact D4|]. split; [congruence|]. split; [discriminate|congruence].
  - destruct keep; [exists done, after1, ids1; split; [exact W1|]; split; [exact B1|]; split; [apply OUT; [exact B1|rewrite app_nil_r; reflexivity]|]; rewrite L1, BF1; repeat split; try discriminate; congruence|].
    destruct (DELETE id OK BF1) as (d&a&i&D1&D2&D3&D4&D5). exists d, a, i. split; [exact D1|]. split; [exact D2|]. split; [exact D4|]. split; [congruence|]. split; [discriminate|congruence].
  - exists done, after1, ids1. split; [exact W1|]. split; [exact B1|]. split; [apply OUT; [exact B1|rewrite app_nil_r; reflexivity]|]. rewrite L1, BF1. repeat split; try discriminate; congruence.
  - exists done, after1, ids1. split; [exact W1|]. split; [exact B1|]. split; [apply OUT; [exact B1|rewrite app_nil_r; reflexivity]|]. rewrite L1, BF1. repeat split; try discriminate; congruence.
  - exists done, after1, ids1. split; [exact W1|]. split; [exact B1|]. split; [apply OUT; [exact B1|rewrite app_nil_r; reflexivity]|]. rewrite L1, BF1. repeat split; try discriminate; congruence.
  - exists done, after1, ids1. split; [exact W1|]. split; [exact B1|]. split; [apply OUT; [exact B1|rewrite app_nil_r; reflexivity]|]. rewrite L1, BF1. repeat split; try discriminate; congruence.
Qed.

(** * Calls *)
Lemma ids_fields w xs : w_buffered (write_ids w xs) = w_buffered w /\ w_binary (write_ids w xs) = w_binary w /\ w_open (write_ids w xs) = w_open w.
Proof. repeat split. Qed.
Lemma open_fields w : w_buffered (open_delete w) = w_buffered w /\ w_binary (open_delete w) = w_binary w.
Proof. unfold open_delete. destruct (w_open w); [auto|]. destruct (w_binary w) eqn:B; split; auto. Qed.

Lemma step_buffered w k : (w_binary w = true -> w_buffered w = []) ->
  w_buffered (lrat_step w k) =
    match k with
    | KAddClause _ _ => w_buffered w
    | KDuplicatedClause id _ _ => if w_binary w then [] else w_buffered w ++ [id]
    | KTautologicalClause id _ => if w_binary w then [] else [id]
    | _ => []
    end.
Proof.
  intros H. unfold lrat_step.
  set (w1 := match w_buffered w with [] => w | b => write_ids (open_delete (with_buffered w [])) b end).
  assert (F : w_buffered w1 = [] /\ w_binary w1 = w_binary w).
  { unfold w1. destruct (w_buffered w) as [|b bs] eqn:B; [auto|]. rewrite (proj1 (ids_fields _ _)), (proj1 (proj2 (ids_fields _ _))).
    destruct (open_fields (with_buffered w [])) as [-> ->]. auto. }
  clearbody w1. destruct F as [F1 F2].
  assert (D : forall x id, w_buffered (write_ids (open_delete x) [id]) = w_buffered x).
  { intros x id. rewrite (proj1 (ids_fields _ _)). apply open_fields. }
  destruct k as [v u|id l|id sm l|id l|id red l hs|id l|id keep l hs|id keep l pv|id l|mo|l|core hs]; auto.
  - cbn [with_last w_binary]. destruct (w_binary w) eqn:B; [rewrite D; apply H; reflexivity|reflexivity].
  - cbn [with_last w_binary]. rewrite F2. destruct (w_binary w) eqn:B; [rewrite D; exact F1|]. cbn [with_buffered w_buffered with_last]; rewrite ?F1. reflexivity.
  - unfold write_end, write_ids, write_sep, write_lits, write_add_step, put, with_target. cbn [w_buffered with_last]. unfold close_delete. destruct (w_open w1); exact F1.
  - rewrite D. exact F1.
  - destruct keep; [exact F1|rewrite D; exact F1].
  - destruct keep; [exact F1|rewrite D; exact F1].
Qed.

(** the calls on a writer: a step or a flush *)
Inductive wcall := WStep (k : checked_step) | WFlush.
Definition do_call (w : lrat) (x : wcall) : lrat := match x with WStep k => lrat_step w k | WFlush => lrat_flush w end.
Definition call_steps (xs : list wcall) : list checked_step := flat_map (fun x => match x with WStep k => [k] | WFlush => [] end) xs.
(** steps for clauses given by the user *)
Definition input_step (k : checked_step) : Prop :=
  match k with KAddClause _ _ | KDuplicatedClause _ _ _ | KTautologicalClause _ _ => True | _ => False end.

Lemma call_steps_snoc xs x : call_steps (xs ++ [x]) = call_steps xs ++ match x with WStep k => [k] | WFlush => [] end.
Proof. unfold call_steps. rewrite flat_map_app. cbn [flat_map]. rewrite app_nil_r. reflexivity. Qed.

Lemma wi_new m b : WI m (lrat_new b) [] 0 [].
Proof. constructor; cbn; auto; try (split; [unfold id_ok; reflexivity|constructor]); try (repeat constructor; fail). Qed.

Lemma calls_inv m b : forall xs, Forall step_ok (call_steps xs) -> (m = true -> StronglySorted N.le (flat_map intro_id (call_steps xs))) ->
  let w := fold_left do_call xs (lrat_new b) in
  w_binary w = b /\ exists done after ids, WI m w done after ids /\ out_ops w done ids = flat_map step_ops (call_steps xs) /\
    (m = true -> Forall (fun i => i <= w_last w) (flat_map intro_id (call_steps xs))) /\
    (w_last w = 0 \/ In (w_last w) (flat_map intro_id (call_steps xs))) /\
    exists ks1 ks2, call_steps xs = ks1 ++ ks2 /\ map ODel (map zid (w_buffered w)) = flat_map step_ops ks2 /\ Forall input_step ks2 /\
      (w_buffered w = [] -> ks2 = []).
Proof.
  induction xs as [|x xs IH] using rev_ind; intros F S; cbv zeta.
  - split; [reflexivity|]. exists [], 0, []. split; [apply wi_new|]. split; [reflexivity|]. split; [intros _; constructor|]. split; [left; reflexivity|].
    exists [], []. split; [reflexivity|]. split; [reflexivity|]. split; [constructor|reflexivity].
  - rewrite call_steps_snoc in F, S |- *. apply Forall_app in F as [F1 F2]. rewrite fold_left_app. cbn [fold_left].
    assert (S1 : m = true -> StronglySorted N.le (flat_map intro_id (call_steps xs))).
    { intros M. specialize (S M). rewrite flat_map_app in S. clear - S. induction (flat_map intro_id (call_steps xs)) as [|y l IHl]; [constructor|].
      cbn [app] in S. apply StronglySorted_inv in S as [A B]. constructor; [auto|]. apply Forall_app in B. tauto. }
    destruct (IH F1 S1) as (B0&done&after&ids&W&O&LE&LA&ks1&ks2&K1&K2&K3&K4). set (w := fold_left do_call xs (lrat_new b)) in *.
    destruct x as [k|]; cbn [do_call].
    + assert (OK : step_ok k) by (inversion F2; assumption).
      assert (L : m = true -> Forall (fun i => w_last w <= i) (intro_id k)).
      { intros M. specialize (S M). rewrite flat_map_app in S. cbn [flat_map] in S. rewrite app_nil_r in S.
        apply Forall_forall. intros i Hi. destruct LA as [LA|LA]; [rewrite LA; lia|].
        assert (X : forall l1 l2 (x y : N), StronglySorted N.le (l1 ++ l2) -> In x l1 -> In y l2 -> x <= y).
        { clear. induction l1 as [|z l1 IH]; intros l2 x y H Hx Hy; [destruct Hx|]. cbn [app] in H. apply StronglySorted_inv in H as [H1 H2].
          destruct Hx as [->|Hx]; [|eauto]. rewrite Forall_app in H2. destruct H2 as [_ H2]. rewrite Forall_forall in H2. auto. }
        eapply X; eassumption. }
      destruct (wi_step _ _ _ _ _ _ W OK L) as (d'&a'&i'&X1&X2&X3&X4&X5&X6). split; [congruence|]. exists d', a', i'.
      split; [exact X1|]. split; [rewrite X3, O, flat_map_app; cbn [flat_map]; rewrite app_nil_r; reflexivity|].
      assert (ID : intro_id k = [] \/ exists i, intro_id k = [i]) by (destruct k; cbn; eauto).
      rewrite flat_map_app. cbn [flat_map]. rewrite app_nil_r. split; [|split].
      * intros M. specialize (L M). specialize (LE M). apply Forall_app. destruct ID as [E|[i E]]; rewrite E in *.
        -- rewrite (X4 eq_refl). split; [exact LE|constructor].
        -- rewrite (X5 _ eq_refl). assert (L0 : w_last w <= i) by (inversion L; assumption). split; [eapply Forall_impl; [|exact LE]; intros y Hy; cbn beta in *; lia|repeat constructor; lia].
      * destruct ID as [E|[i E]]; rewrite E in *; [rewrite (X4 eq_refl), app_nil_r; exact LA|]. rewrite (X5 _ eq_refl). right. apply in_or_app. right. left. reflexivity.
      * pose proof (step_buffered w k (wi_buffered _ _ _ _ _ W)) as SB. clear - SB K1 K2 K3 K4.
        assert (NIL : w_buffered (lrat_step w k) = [] -> exists ks3 ks4, call_steps xs ++ [k] = ks3 ++ ks4 /\
            map ODel (map zid (w_buffered (lrat_step w k))) = flat_map step_ops ks4 /\ Forall input_step ks4 /\ (w_buffered (lrat_step w k) = [] -> ks4 = [])).
        { intros E. exists (call_steps xs ++ [k]), []. rewrite E. split; [symmetry; apply app_nil_r|]. split; [reflexivity|]. split; [constructor|auto]. }
        destruct k as [v u|id l|id sm l|id l|id red l hs|id l|id keep l hs|id keep l pv|id l|mo|l|core hs]; try (apply NIL; exact SB).
        -- destruct (w_buffered w) as [|y ys] eqn:BW; [apply NIL; exact SB|]. exists ks1, (ks2 ++ [KAddClause id l]).
           split; [rewrite K1, app_assoc; reflexivity|]. rewrite SB, flat_map_app. cbn [flat_map step_ops]. rewrite app_nil_r. split; [exact K2|].
           split; [apply Forall_app; split; [exact K3|repeat constructor]|discriminate].
        -- destruct (w_binary w); [apply NIL; exact SB|]. exists ks1, (ks2 ++ [KDuplicatedClause id sm l]).
           split; [rewrite K1, app_assoc; reflexivity|]. rewrite SB, flat_map_app, !map_app, K2. cbn [flat_map step_ops map app]. split; [reflexivity|].
           split; [apply Forall_app; split; [exact K3|repeat constructor]|]. intros E. apply app_eq_nil in E as [_ E]. discriminate.
        -- destruct (w_binary w); [apply NIL; exact SB|]. exists (call_steps xs), [KTautologicalClause id l]. split; [reflexivity|]. rewrite SB.
           split; [reflexivity|]. split; [repeat constructor|discriminate].
    + unfold lrat_flush. destruct (wi_close _ _ _ _ _ W) as (d'&X1&X2&X3&X4&X5&X6). split; [congruence|]. exists d', after, [].
      split; [exact X1|]. rewrite app_nil_r. split; [|rewrite X5, X3; split; [exact LE|split; [exact LA|exists ks1, ks2; auto]]].
      rewrite <- O. unfold out_ops. rewrite X4, X6, X3, <- app_assoc. reflexivity.
Qed.

(** the number a line starts with, in the textual format *)
Definition line_no (l : line) : list Z := match l with LAdd id _ _ => [id] | LDel (Some a) _ => [a] | LDel None _ => [] end.

Lemma line_no_view b n : line_no (view b n) = [zid (nid n)] \/ line_no (view b n) = [].
Proof. destruct n; cbn; auto. destruct b; auto. Qed.

Lemma line_no_sorted b : forall ns, StronglySorted N.le (map nid ns) -> StronglySorted Z.le (flat_map line_no (map (view b) ns)).
Proof.
  induction ns as [|n ns IH]; intros S; [constructor|]. cbn [map flat_map] in *. apply StronglySorted_inv in S as [S1 S2].
  destruct (line_no_view b n) as [E|E]; rewrite E; [|exact (IH S1)]. cbn [app]. constructor; [exact (IH S1)|].
  apply Forall_forall. intros z Hz. apply in_flat_map in Hz as (l&Hl&Hz). apply in_map_iff in Hl as (n'&<-&Hn).
  destruct (line_no_view b n') as [E'|E']; rewrite E' in Hz; [|destruct Hz]. destruct Hz as [<-|[]].
  rewrite Forall_forall in S2. specialize (S2 (nid n') (in_map nid _ _ Hn)). unfold zid. lia.
Qed.

Lemma calls_flush b xs : Forall step_ok (call_steps xs) ->
  let w := lrat_flush (fold_left do_call xs (lrat_new b)) in
  exists lines ks1 ks2, lrat_parse b (w_target w) = Some lines /\ call_steps xs = ks1 ++ ks2 /\
    flat_map line_ops lines = flat_map step_ops ks1 /\ Forall input_step ks2 /\ (b = true -> ks2 = []) /\
    (StronglySorted N.le (flat_map intro_id (call_steps xs)) -> StronglySorted Z.le (flat_map line_no lines)).
Proof.
  intros F. cbv zeta.
  assert (G : forall m, (m = true -> StronglySorted N.le (flat_map intro_id (call_steps xs))) ->
     exists ns ks1 ks2, w_target (lrat_flush (fold_left do_call xs (lrat_new b))) = flat_map (enc b) ns /\ Forall nline_ok ns /\ call_steps xs = ks1 ++ ks2 /\
       flat_map line_ops (map (view b) ns) = flat_map step_ops ks1 /\ Forall input_step ks2 /\ (b = true -> ks2 = []) /\ (m = true -> StronglySorted N.le (map nid ns))).
  { intros m M. destruct (calls_inv m b xs F M) as (B0&done&after&ids&W&O&_&_&ks1&ks2&K1&K2&K3&K4).
    destruct (wi_close _ _ _ _ _ W) as (d'&X1&X2&X3&X4&X5&X6). set (w := fold_left do_call xs (lrat_new b)) in *.
    exists d', ks1, ks2. unfold lrat_flush. rewrite (wi_target _ _ _ _ _ X1), X2, X4, B0, app_nil_r. split; [reflexivity|].
    split; [apply (wi_done _ _ _ _ _ X1)|]. split; [exact K1|]. rewrite B0 in *. split; [|split; [exact K3|]; split].
    - rewrite X6. apply (app_inv_tail (map ODel (map zid (w_buffered w)))). rewrite K2 at 2. rewrite <- flat_map_app, <- K1, <- O, <- app_assoc. unfold out_ops. rewrite B0. reflexivity.
    - intros ->. apply K4. apply (wi_buffered _ _ _ _ _ W). exact B0.
    - intros MM. pose proof (wi_mono _ _ _ _ _ X1 MM) as S. unfold nids in S. rewrite X2, app_nil_r in S. apply sorted_snoc_le in S. tauto. }
  destruct (G false ltac:(discriminate)) as (ns&ks1&ks2&A1&A2&A3&A4&A5&A6&_). exists (map (view b) ns), ks1, ks2. rewrite A1, lrat_parse_lines by exact A2.
  do 5 (split; [auto|]). intros S. destruct (G true (fun _ => S)) as (ns'&ks1'&ks2'&B1&B2&_&_&_&_&B7). rewrite A1 in B1.
  assert (E : map (view b) ns = map (view b) ns').
  { pose proof (lrat_parse_lines b ns A2) as P1. pose proof (lrat_parse_lines b ns' B2) as P2. rewrite B1 in P1. congruence. }
  rewrite E. apply line_no_sorted, B7. reflexivity.
Qed.
