(** Model of varisat/src/decision/vsids.rs.

    The vectors [activity] and [position] are total maps from variable index; an
    access outside of [0..count] would panic and is excluded by the callers'
    invariant that every variable in use is below the variable count. *)
From Verif Require Import Spec F32.

(** Update of a total map. *)
Definition upd {A} (f : N -> A) (i : N) (x : A) : N -> A :=
  fun j => if j =? i then x else f j.

(** Replace an element of a vector. *)
Fixpoint set_nth {A} (n : nat) (x : A) (l : list A) : list A :=
  match l, n with
  | [], _ => []
  | _ :: r, O => x :: r
  | y :: r, S n => y :: set_nth n x r
  end.

(** [Vec::swap_remove]: the last element takes the place of the removed one. *)
Definition swap_remove {A} (n : nat) (l : list A) : list A :=
  match rev l with
  | [] => []
  | last :: _ =>
      let l' := removelast l in
      if Nat.eqb n (length l') then l' else set_nth n last l'
  end.

(** [Vsids] (vsids.rs:28-39) *)
Record vsids := Vsids {
  vs_act : N -> f32;
  vs_heap : list N;
  vs_pos : N -> option nat;
  vs_bump : f32;
  vs_inv : f32 }.

(** [Default] (vsids.rs:41-51) *)
Definition vsids_default : vsids :=
  Vsids (fun _ => f32_zero) [] (fun _ => None) f32_one (f32_div f32_one f32_0_95).

(** [set_decay] (vsids.rs:66-70), without its assertions, see Config.v. *)
Definition vsids_set_decay (v : vsids) (decay : f32) : vsids :=
  Vsids (vs_act v) (vs_heap v) (vs_pos v) (vs_bump v) (f32_div f32_one decay).

(** [sift_up] (vsids.rs:136-153).  [fuel] is at least the position; the position
    at least halves in every round. *)
Fixpoint sift_up (fuel : nat) (act : N -> f32) (heap : list N) (pos : N -> option nat) (p : nat)
  : list N * (N -> option nat) :=
  match fuel, p with
  | S fuel, S p' =>
      let var := nth p heap 0 in
      let pp := Nat.div2 p' in
      let pv := nth pp heap 0 in
      if of_ge (act pv) (act var) then (heap, pos)
      else
        let pos := upd pos var (Some pp) in
        let heap := set_nth pp var heap in
        let pos := upd pos pv (Some p) in
        let heap := set_nth p pv heap in
        sift_up fuel act heap pos pp
  | _, _ => (heap, pos)
  end.

(** [sift_down] (vsids.rs:156-192).  [fuel] is at least the number of elements. *)
Fixpoint sift_down (fuel : nat) (act : N -> f32) (heap : list N) (pos : N -> option nat) (p : nat)
  : list N * (N -> option nat) :=
  match fuel with
  | O => (heap, pos)
  | S fuel =>
      let var := nth p heap 0 in
      let lp := (p * 2 + 1)%nat in
      let lv := nth lp heap 0 in
      let '(bp, bv) :=
        if Nat.ltb lp (length heap) && of_lt (act var) (act lv) then (lp, lv) else (p, var) in
      let rp := (p * 2 + 2)%nat in
      let rv := nth rp heap 0 in
      let '(bp, bv) :=
        if Nat.ltb rp (length heap) && of_lt (act bv) (act rv) then (rp, rv) else (bp, bv) in
      if Nat.eqb bp p then (heap, pos)
      else
        let pos := upd pos var (Some bp) in
        let heap := set_nth bp var heap in
        let pos := upd pos bv (Some p) in
        let heap := set_nth p bv heap in
        sift_down fuel act heap pos bp
  end.

(** [rescale] (vsids.rs:96-102).  Entries of the total map outside of the vector are
    zero and stay so. *)
Definition rescale_factor : f32 := f32_div f32_one rescale_limit.
Definition vsids_rescale (v : vsids) : vsids :=
  Vsids (fun x => f32_mul (vs_act v x) rescale_factor) (vs_heap v) (vs_pos v)
        (f32_mul (vs_bump v) rescale_factor) (vs_inv v).

(** [bump] (vsids.rs:73-85) *)
Definition vsids_bump (v : vsids) (var : N) : vsids :=
  let value := f32_add (vs_act v var) (vs_bump v) in
  let v := Vsids (upd (vs_act v) var value) (vs_heap v) (vs_pos v) (vs_bump v) (vs_inv v) in
  let v := if f32_ge value rescale_limit then vsids_rescale v else v in
  match vs_pos v var with
  | Some p =>
      let '(heap, pos) := sift_up p (vs_act v) (vs_heap v) (vs_pos v) p in
      Vsids (vs_act v) heap pos (vs_bump v) (vs_inv v)
  | None => v
  end.

(** [decay] (vsids.rs:88-93) *)
Definition vsids_decay (v : vsids) : vsids :=
  let v := Vsids (vs_act v) (vs_heap v) (vs_pos v) (f32_mul (vs_bump v) (vs_inv v)) (vs_inv v) in
  if f32_ge (vs_bump v) rescale_limit then vsids_rescale v else v.

(** [reset] (vsids.rs:107-110).  [None] is the failed assertion. *)
Definition vsids_reset (v : vsids) (var : N) : option vsids :=
  match vs_pos v var with
  | Some _ => None
  | None => Some (Vsids (upd (vs_act v) var f32_zero) (vs_heap v) (vs_pos v) (vs_bump v) (vs_inv v))
  end.

(** [make_unavailable] (vsids.rs:113-123) *)
Definition vsids_make_unavailable (v : vsids) (var : N) : vsids :=
  match vs_pos v var with
  | None => v
  | Some p =>
      let heap := swap_remove p (vs_heap v) in
      let '(heap, pos) :=
        if Nat.ltb p (length heap) then
          sift_down (length heap) (vs_act v) heap (upd (vs_pos v) (nth p heap 0) (Some p)) p
        else (heap, vs_pos v) in
      Vsids (vs_act v) heap (upd pos var None) (vs_bump v) (vs_inv v)
  end.

(** [make_available] (vsids.rs:126-133) *)
Definition vsids_make_available (v : vsids) (var : N) : vsids :=
  match vs_pos v var with
  | Some _ => v
  | None =>
      let p := length (vs_heap v) in
      let '(heap, pos) :=
        sift_up p (vs_act v) (vs_heap v ++ [var]) (upd (vs_pos v) var (Some p)) p in
      Vsids (vs_act v) heap pos (vs_bump v) (vs_inv v)
  end.

(** [Iterator::next] (vsids.rs:198-211) *)
Definition vsids_next (v : vsids) : option (N * vsids) :=
  match vs_heap v with
  | [] => None
  | var :: _ =>
      let heap := swap_remove 0 (vs_heap v) in
      let '(heap, pos) :=
        match heap with
        | [] => (heap, vs_pos v)
        | top :: _ => sift_down (length heap) (vs_act v) heap (upd (vs_pos v) top (Some 0%nat)) 0
        end in
      Some (var, Vsids (vs_act v) heap (upd pos var None) (vs_bump v) (vs_inv v))
  end.
