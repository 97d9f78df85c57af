(** * Model of jax_cfd/base/initial_conditions.py and jax_cfd/collocated/initial_conditions.py

    Random numbers: [jax.random.split] and [jax.random.normal] are a parameter [noise], one array per
    component. [jax.vmap] ([batch_dim=True]) is not modelled. *)
From Verif Require Import Prelude NdArr Grids_model Boundaries_model FD_model Func_model Pressure_model Equations_model Forcings_model Collocated_model.
Set Implicit Arguments.

(** initial_conditions.py:40-57 [wrap_variables] *)
Definition wrap_variables (var : list (arr R)) (g : grid) (bs : list bcs) (offsets : option (list (list Q))) : result (list gvar) :=
  let offsets := match offsets with None => cell_faces g | Some o => o end in
  mapM (fun uob => impose_bc (snd uob) (mkga (fst (fst uob)) (snd (fst uob)) g)) (combine (combine var offsets) bs).

(** initial_conditions.py:60-64 [_log_normal_pdf] (and collocated/initial_conditions.py:39-43), on numbers *)
Definition log_normal_pdf (x mode variance : R) : R :=
  let mean := (ln mode + variance)%R in
  let logx := ln x in
  exp (- (mean - logx) ^ 2 / 2 / variance - logx)%R.

(** initial_conditions.py:67-68 [_max_speed] (and collocated/initial_conditions.py:46-47): [jnp.array] of
    arrays of different shapes raises, and so does the maximum of no entries. *)
Definition max_speed (v : list gvar) : result R :=
  match v with
  | [] => Err EValue
  | u0 :: _ => let s := shp (gdata (garray u0)) in
               if negb (forallb (fun u => shape_eqb (shp (gdata (garray u))) s) v) then Err EValue
               else list_max (map (fun ix => sqrt (fold_right Rplus 0%R (map (fun u => (get (gdata (garray u)) ix) ^ 2)%R v))) (all_indices s))
  end.

(** initial_conditions.py:109-114 and collocated/initial_conditions.py:92-97 [project_and_normalize]; dividing by
    a zero [vmax] gives NaN in jnp, not modelled: [EZeroDiv]. *)
Definition project_and_normalize (project : list gvar -> result (list gvar)) (maximum_velocity : R) (v : list gvar) : result (list gvar) :=
  let* v := project v in
  let* vmax := max_speed v in
  if Req_EM_T vmax 0 then Err EZeroDiv
  else mapM (fun u => let* a := ga_scale maximum_velocity (garray u) in
                      let* a := ga_div_scalar a vmax in
                      mk_gvar a (gbc u)) v.

(** [funcutils.repeated(f, steps)] of a function that may raise, outside [init_context]. *)
Definition repeated_result {X} (f : X -> result X) (steps : nat) (x : X) : result X :=
  fst (repeated 0 (fun r => bind r f) steps (Ok x)).

(** The noise filtered by the log-normal spectrum, initial_conditions.py:94-106 and
    collocated/initial_conditions.py:75-86; the second component is the list of boundary conditions. *)
Definition filtered_components (noise : nat -> arr R) (g : grid) (peak_wavenumber : R) : result (list (arr R)) :=
  let spectral_density := fun k => (log_normal_pdf k peak_wavenumber (1 / 4) / k ^ (gndim g - 1))%R in
  mapM (fun i => spectral_filter spectral_density (noise i) g) (seq 0 (gndim g)).

(** initial_conditions.py:71-118 [filtered_velocity_field]; [solve] is the default solver of [projection]. *)
Definition filtered_velocity_field (solve : list gvar -> gvar -> bcs -> result garr) (noise : nat -> arr R) (g : grid)
  (maximum_velocity peak_wavenumber : R) (iterations : nat) : result (list gvar) :=
  let* components := filtered_components noise g peak_wavenumber in
  let* velocity := wrap_variables components g (repeat (periodic_bc (gndim g)) (gndim g)) None in
  repeated_result (project_and_normalize (projection solve) maximum_velocity) iterations velocity.

(** collocated/initial_conditions.py:50-102 [filtered_velocity_field] *)
Definition col_filtered_velocity_field (solve : list gvar -> gvar -> result garr) (noise : nat -> arr R) (g : grid)
  (maximum_velocity peak_wavenumber : R) (iterations : nat) : result (list gvar) :=
  let* components := filtered_components noise g peak_wavenumber in
  let* velocity := mapM (fun ub => mk_gvar (mkga (fst ub) (cell_center g) g) (snd ub))
                        (combine components (repeat (periodic_bc (gndim g)) (gndim g))) in
  repeated_result (project_and_normalize (col_projection solve) maximum_velocity) iterations velocity.

(** initial_conditions.py:121-161 [initial_velocity_field]; a velocity function acts on the list of mesh arrays. *)
Definition initial_velocity_field (velocity_fns : list (list (arr R) -> result (arr R))) (g : grid) (velocity_bc : option (list bcs))
  (pressure_solve : list gvar -> gvar -> bcs -> result garr) (iterations : option nat) : result (list gvar) :=
  let velocity_bc := match velocity_bc with None => repeat (periodic_bc (gndim g)) (gndim g) | Some b => b end in
  let* v := mapM (fun fob => let* a := eval_on_mesh g (fst (fst fob)) (Some (snd (fst fob))) in mk_gvar a (snd fob))
                 (combine (combine velocity_fns (cell_faces g)) velocity_bc) in
  match iterations with
  | None => Ok v
  | Some n => repeated_result (projection pressure_solve) n v
  end.
