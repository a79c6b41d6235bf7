(** Model of varisat/src/config.rs and of the code generated for it by
    varisat-internal-macros/src/lib.rs. *)
From Coq Require Import SpecFloat.
From Verif Require Import Spec F32.

(** [SolverConfig] (config.rs:6-31) *)
Record config := Config {
  cf_vsids_decay : f32;
  cf_clause_decay : f32;
  cf_reduce_locals : N;
  cf_reduce_mids : N;
  cf_luby_scale : N }.

(** The defaults given in the documentation comments (config.rs:9, 14, 19, 24, 29;
    lib.rs:51-74). *)
Definition config_default : config := Config f32_0_95 f32_0_999 15000 10000 128.

(** [SolverConfigUpdate] (lib.rs:100-108): every field becomes optional. *)
Record config_update := Update {
  up_vsids_decay : option f32;
  up_clause_decay : option f32;
  up_reduce_locals : option N;
  up_reduce_mids : option N;
  up_luby_scale : option N }.

Definition update_new : config_update := Update None None None None None.

(** [(0.5..1.0).contains(value)]: false for NaN. *)
Definition decay_in_range (x : f32) : bool := SFleb f32_half x && SFltb x f32_one.
(** [(1..).contains(value)] *)
Definition from_1 (x : N) : bool := 1 <=? x.

Definition opt_ok {A} (p : A -> bool) (o : option A) : bool :=
  match o with Some x => p x | None => true end.
Definition opt_or {A} (o : option A) (d : A) : A := match o with Some x => x | None => d end.

(** [apply] (lib.rs:200-204): all ranges are checked first (lib.rs:110-133), then the
    values are copied (lib.rs:135-145).  The result says whether it succeeded and gives the
    configuration afterwards.  The text of the error message is not modelled. *)
Definition update_apply (u : config_update) (c : config) : bool * config :=
  if opt_ok decay_in_range (up_vsids_decay u)
     && opt_ok decay_in_range (up_clause_decay u)
     && opt_ok from_1 (up_reduce_locals u)
     && opt_ok from_1 (up_reduce_mids u)
     && opt_ok from_1 (up_luby_scale u)
  then (true,
        let c := Config (opt_or (up_vsids_decay u) (cf_vsids_decay c)) (cf_clause_decay c)
                        (cf_reduce_locals c) (cf_reduce_mids c) (cf_luby_scale c) in
        let c := Config (cf_vsids_decay c) (opt_or (up_clause_decay u) (cf_clause_decay c))
                        (cf_reduce_locals c) (cf_reduce_mids c) (cf_luby_scale c) in
        let c := Config (cf_vsids_decay c) (cf_clause_decay c)
                        (opt_or (up_reduce_locals u) (cf_reduce_locals c))
                        (cf_reduce_mids c) (cf_luby_scale c) in
        let c := Config (cf_vsids_decay c) (cf_clause_decay c) (cf_reduce_locals c)
                        (opt_or (up_reduce_mids u) (cf_reduce_mids c)) (cf_luby_scale c) in
        Config (cf_vsids_decay c) (cf_clause_decay c) (cf_reduce_locals c) (cf_reduce_mids c)
               (opt_or (up_luby_scale u) (cf_luby_scale c)))
  else (false, c).

(** [merge] (lib.rs:147-157, 209-211). *)
Definition opt_over {A} (new old : option A) : option A :=
  match new with Some _ => new | None => old end.
Definition update_merge (self new : config_update) : config_update :=
  Update (opt_over (up_vsids_decay new) (up_vsids_decay self))
         (opt_over (up_clause_decay new) (up_clause_decay self))
         (opt_over (up_reduce_locals new) (up_reduce_locals self))
         (opt_over (up_reduce_mids new) (up_reduce_mids self))
         (opt_over (up_luby_scale new) (up_luby_scale self)).

(** The two assertions of [set_decay] (vsids.rs:66-70, activity.rs:33-37), which
    [config_changed] (context.rs:123-131) runs after every update. *)
Definition set_decay_ok (decay : f32) : bool :=
  f32_lt decay f32_one && f32_gt decay f32_sixteenth.
