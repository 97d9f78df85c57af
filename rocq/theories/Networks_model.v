(** * Model of jax_cfd/ml/networks.py, jax_cfd/ml/advections.py, jax_cfd/ml/equations.py, jax_cfd/ml/forcings.py: what surrounds a neural network.
    The networks themselves (towers) are arbitrary functions on arrays: nothing is assumed about their weights. *)
From Verif Require Import Prelude NdArr Grids_model Boundaries_model FD_model Interp_model Advection_model ArrayUtils_model Equations_model.
Set Implicit Arguments.

(** [jnp.expand_dims(x, axis=-1)] *)
Definition expand_last {A} (a : arr A) : arr A := mkarr (shp a ++ [1%nat]) (fun ix => get a (removelast ix)).
(** ml/networks.py:152-164 [stack_aligned_field] *)
Definition stack_aligned_field (inputs : list gvar) : result (arr R) :=
  let* l := concat_along_axis (map (fun x => [expand_last (gdata (garray x))]) inputs) (-1) in leaf 0 l.
(** [jnp.roll(a, shift, axis)] *)
Definition roll_axis {A} (a : arr A) (shift : Z) (ax : nat) : arr A :=
  mkarr (shp a) (fun ix => get a (upd ax ((nth ax ix 0 - shift) mod Z.of_nat (nth ax (shp a) 0%nat))%Z ix)).
(** ml/networks.py:129-148 [stack_aligned_field_with_neighbors] *)
Definition neighbor_shifts (n_neighbors d : nat) : list (Z * nat) :=
  let shifts := filter (fun i => negb (i =? 0)%Z) (map (fun k => (Z.of_nat k - Z.of_nat n_neighbors)%Z) (seq 0 (2 * n_neighbors + 1))) in
  flat_map (fun s => map (fun a => (s, a)) (seq 0 d)) shifts ++ [(0%Z, 0%nat)].
Definition stack_aligned_field_with_neighbors (g : grid) (n_neighbors : nat) (inputs : list gvar) : result (arr R) :=
  let* a := stack_aligned_field inputs in
  let* l := concat_along_axis (map (fun sa => [roll_axis a (fst sa) (snd sa)]) (neighbor_shifts n_neighbors (gndim g))) (-1) in
  leaf 0 l.
(** [array_utils.split_axis(inputs, -1)] of one array *)
Definition split_channels (x : arr R) : result (list (arr R)) :=
  let* l := split_axis [x] (-1) false in mapM (leaf 0) l.
(** ml/networks.py:27-56 [split_to_aligned_field] for specifications without [combo_offsets] / [combo_boundaries];
    an empty or missing [network_offsets] means the data offsets. *)
Definition split_to_aligned_field (g : grid) (network_offsets : option (list (list Q))) (inputs : arr R) : result (list gvar) :=
  let data_offsets := cell_faces g in
  let boundary_conditions := repeat (periodic_bc (gndim g)) (gndim g) in
  let offsets := match network_offsets with Some (o :: os) => o :: os | _ => data_offsets end in
  let* split_inputs := split_channels inputs in
  let* output := mapM (fun xob => mk_gvar (mkga (fst xob) (fst (snd xob)) g) (snd (snd xob)))
                      (combine split_inputs (combine offsets boundary_conditions)) in
  mapM (fun xo => linear_interp (fst xo) (snd xo)) (combine output data_offsets).

(** ml/networks.py:86-125 [aligned_field_from_split_divergence] *)
Definition shift_offset (offset : list Q) (axis : nat) : list Q :=
  map (fun io => if (fst io =? axis)%nat then (snd io + (1 # 2))%Q else snd io) (enumerate offset).
Definition flux_offsets (g : grid) : list (list Q) :=
  flat_map (fun i => map (fun o => shift_offset o i) (cell_faces g)) (seq 0 (gndim g)).
(** [tuple(zip( *\[iter(l)\] * n))]: consecutive groups of [n], an incomplete last one being dropped *)
Fixpoint groups_of {T} (count n : nat) (l : list T) : list (list T) :=
  match count with
  | O => []
  | S c => if (n <=? length l)%nat then firstn n l :: groups_of c n (skipn n l) else []
  end.
Definition to_grid_variables (g : grid) (l : list garr) : result (list gvar) :=
  mapM (fun a => mk_gvar a (periodic_bc (gndim g))) l.
Definition aligned_field_from_split_divergence (g : grid) (inputs : arr R) : result (list gvar) :=
  let* split_inputs := split_channels inputs in
  let split_inputs := map (fun xo => mkga (fst xo) (snd xo) g) (combine split_inputs (flux_offsets g)) in
  let tensor := groups_of (length split_inputs) (gndim g) split_inputs in
  let* field := mapM (fun i => match nth_error tensor i with
                               | None => Err EIndex
                               | Some row => let* v := to_grid_variables g row in let* d := divergence v in ga_neg d
                               end) (seq 0 (gndim g)) in
  to_grid_variables g field.

(** ml/networks.py:168-190 [tower_module]; [tower n] is the network with [n] output channels *)
Definition tower_module {S T} (pre_process : S -> result (arr R)) (tower : nat -> arr R -> result (arr R)) (num_output_channels : nat)
  (post_process : arr R -> result T) (x : S) : result T :=
  let* x := pre_process x in
  let* y := tower num_output_channels x in
  post_process y.
(** ml/networks.py:216-230 [velocity_corrector_network] *)
Definition velocity_corrector_network (g : grid) (tower : nat -> arr R -> result (arr R)) : list gvar -> result (list gvar) :=
  tower_module stack_aligned_field tower (gndim g) (split_to_aligned_field g None).
(** ml/networks.py:234-249 [flux_corrector_network] *)
Definition flux_corrector_network (g : grid) (tower : nat -> arr R -> result (arr R))
  (pre_process : list gvar -> result (arr R)) : list gvar -> result (list gvar) :=
  tower_module pre_process tower (gndim g * gndim g) (aligned_field_from_split_divergence g).

(** ml/advections.py:74-87 [self_advection] with ml/advections.py:24-44 [modular_advection]: any two interpolation functions *)
Definition self_advection (u_interpolate c_interpolate : interp_fn) (dt : R) (v : list gvar) : result (list garr) :=
  mapM (fun u => advect_general u v u_interpolate c_interpolate dt) v.
(** ml/forcings.py:19-23 [sum_forcings] *)
Definition ml_sum_forcings (forces : list (list gvar -> result (list garr))) (v : list gvar) : result (list garr) :=
  let* l := mapM (fun f => f v) forces in sum_fields l.
(** ml/equations.py:93-145 [modular_navier_stokes_model]: [equation_solver convect forcing] is the step of the configured solver;
    the modules see the current state, so the convection and acceleration functions may depend on it. *)
Definition modular_navier_stokes_model
  (equation_solver : (list gvar -> result (list garr)) -> option (list gvar -> result (list garr)) -> list gvar -> result (list gvar))
  (active_forcing : list gvar -> result (list garr))
  (convection_module : list gvar -> list gvar -> result (list garr))
  (acceleration_modules : list (list gvar -> list gvar -> result (list garr))) (v : list gvar) : result (list gvar) :=
  equation_solver (convection_module v) (Some (ml_sum_forcings (active_forcing :: map (fun m => m v) acceleration_modules))) v.
(** ml/equations.py:208-229 [learned_corrector] *)
Definition learned_corrector (base_solver corrector : list gvar -> result (list gvar)) (state : list gvar) : result (list gvar) :=
  let* next_state := base_solver state in
  let* corrections := corrector next_state in
  vel_add next_state corrections.
(** ml/equations.py:232-249 [learned_corrector_v2] *)
Definition learned_corrector_v2 (dt : R) (base_solver corrector : list gvar -> result (list gvar)) (state : list gvar) : result (list gvar) :=
  let* next_state := base_solver state in
  let* corrections := corrector state in
  vel_add next_state (vel_scal dt corrections).
(** ml/equations.py:252-269 [learned_corrector_v3] *)
Definition learned_corrector_v3 (dt : R) (base_solver corrector : list gvar -> result (list gvar)) (state : list gvar) : result (list gvar) :=
  let* next_state := base_solver state in
  let* corrections := corrector (state ++ next_state) in
  vel_add next_state (vel_scal dt corrections).
