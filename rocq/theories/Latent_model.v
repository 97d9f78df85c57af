(** * Model of the latent encoders and decoders of jax_cfd/ml/encoders.py and jax_cfd/ml/decoders.py, of interpolate_gridvar and
    velocity_corrector_network_w_boundaries of jax_cfd/ml/networks.py, and of the failure metrics and reductions of
    jax_cfd/data/evaluation.py and jax_cfd/ml/metrics.py.

    The towers (networks) are arbitrary functions of arrays: nothing is assumed about their weights. *)
From Verif Require Import Prelude NdArr Grids_model Boundaries_model Interp_model ArrayUtils_model Spectral_model Networks_model Rollout_model Viscosities_model VortCodec_model.
Set Implicit Arguments.
Local Open Scope Z_scope.

(** ml/encoders.py:129-166 [latent_encoder]; [tower] is [tower_factory(num_latent_dims, grid.ndim)] *)
Definition latent_encoder (tower : arr R -> result (arr R)) (n_frames time_axis : Z) (inputs : list (arr R)) : result (arr R) :=
  let* inputs := stack_last_n_state_encoder n_frames time_axis inputs in tower inputs.
(** ml/encoders.py:170-195 [aligned_latent_encoder]; an empty or missing [data_offsets] means the cell faces.
    [raw_outputs.shape[-1]] of an array without axes raises IndexError. *)
Definition aligned_latent_encoder (g : grid) (tower : arr R -> result (arr R)) (n_frames time_axis : Z) (data_offsets : option (list (list Q)))
  (inputs : list (arr R)) : result (list gvar) :=
  let data_offsets := match data_offsets with Some (o :: os) => o :: os | _ => cell_faces g end in
  let bc := periodic_bc (gndim g) in
  let* inputs := stack_last_n_state_encoder n_frames time_axis inputs in
  let* raw_outputs := tower inputs in
  match shp raw_outputs with
  | [] => Err EIndex
  | _ :: _ =>
      let split_outputs := map (fun i => mkarr (removelast (shp raw_outputs)) (fun ix => get raw_outputs (ix ++ [Z.of_nat i]))) (seq 0 (last (shp raw_outputs) 0%nat)) in
      mapM (fun xo => mk_gvar (mkga (fst xo) (snd xo) g) bc) (combine split_outputs data_offsets)
  end.
(** ml/decoders.py:27-37 [identity_decoder] *)
Definition identity_decoder {S : Type} (inputs : S) : S := inputs.
(** ml/decoders.py:85-116 [latent_decoder]; [tower] is [tower_factory(num_components or grid.ndim, grid.ndim)] *)
Definition latent_decoder (tower : arr R -> result (arr R)) (inputs : arr R) : result (list (arr R)) :=
  let* y := tower inputs in channels_split_decoder y.
(** ml/decoders.py:120-136 [aligned_latent_decoder] *)
Definition aligned_latent_decoder (tower : arr R -> result (arr R)) (inputs : list gvar) : result (list (arr R)) :=
  let* x := stack_last (map (fun v => gdata (garray v)) inputs) in
  let* y := tower x in channels_split_decoder y.
(** ml/networks.py:60-82 [interpolate_gridvar] for specifications without [combo_offsets]; an empty or missing [final_offsets]
    means the cell faces; [zip] stops at the shorter list. *)
Definition interpolate_gridvar (g : grid) (final_offsets : option (list (list Q))) (process_fn : list gvar -> result (list gvar)) (inputs : list gvar) : result (list gvar) :=
  let final_offsets := match final_offsets with Some (o :: os) => o :: os | _ => cell_faces g end in
  let* inputs := process_fn inputs in
  mapM (fun xo => linear_interp (fst xo) (snd xo)) (combine inputs final_offsets).
(** ml/networks.py:194-212 [velocity_corrector_network_w_boundaries]; [process_fn = None] is the default, networks.py:21-23 [_identity],
    a function of three arguments: calling it with the inputs alone raises TypeError. The tower maps tuples of variables to tuples of
    variables (mirror convolutions). *)
Definition call_process_fn (process_fn : option (list gvar -> result (list gvar))) (inputs : list gvar) : result (list gvar) :=
  match process_fn with Some f => f inputs | None => Err EType end.
Definition velocity_corrector_network_w_boundaries (g : grid) (tower : list gvar -> result (list gvar)) (network_offsets : list (list Q))
  (process_fn : option (list gvar -> result (list gvar))) (inputs : list gvar) : result (list gvar) :=
  let* x := interpolate_gridvar g (Some network_offsets) (call_process_fn process_fn) inputs in
  let* y := tower x in
  interpolate_gridvar g None (fun x => Ok x) y.

(** ** Failure metrics *)
(** Sum over the entries of one line of [n] values. *)
Definition line_sum (n : nat) (f : nat -> R) : R := fold_right Rplus 0%R (map f (seq 0 n)).
(** data/evaluation.py:156-173 [u_x_correlation_metric] and 210-224 [u_t_correlation_metric]: one line of [n] values *)
Definition correlation_line_metric (threshold : R) (n : nat) (a ground_truth : nat -> R) : R :=
  (line_sum n (fun i => if Rlt_dec threshold (Rabs (ground_truth i)) then Rabs (a i - ground_truth i) else 0)
   + line_sum n (fun i => if Rlt_dec threshold (Rabs (a i)) then if Rlt_dec (Rabs (ground_truth i)) threshold then Rabs (a i) else 0 else 0))%R.
(** data/evaluation.py:138-153 [energy_spectrum_metric]: one line; for positive values (elsewhere the logarithm is NaN or infinite) *)
Definition spectrum_line_metric (threshold : R) (n : nat) (a ground_truth : nat -> R) : R :=
  (line_sum n (fun i => if Rlt_dec threshold (ground_truth i) then Rabs (ln (a i) - ln (ground_truth i)) else 0)
   + line_sum n (fun i => if Rlt_dec threshold (a i) then if Rlt_dec (ground_truth i) threshold then Rabs (ln (a i)) else 0 else 0))%R.
(** The mean over [samples] lines ([.mean(dim='sample')], [jnp.mean]); the mean over no samples is NaN. *)
Definition sample_mean (samples : nat) (f : nat -> R) : result R :=
  if (samples =? 0)%nat then Err EZeroDiv else Ok (line_sum samples f / INR samples)%R.
Definition u_x_correlation_metric (threshold : R) (samples n : nat) (a ground_truth : nat -> nat -> R) : result R :=
  sample_mean samples (fun s => correlation_line_metric threshold n (a s) (ground_truth s)).
Definition energy_spectrum_metric (threshold : R) (samples n : nat) (a ground_truth : nat -> nat -> R) : result R :=
  sample_mean samples (fun s => spectrum_line_metric threshold n (a s) (ground_truth s)).

(** ** Reductions *)
(** ml/metrics.py:78-102 [local_reduce] over batch axis 0 with [jnp.mean]: the metric of every element of the batch, then their mean *)
Definition local_reduce {B : Type} (metric : B -> result R) (reduction : list R -> result R) (batch : list B) : result R :=
  let* values := mapM metric batch in reduction values.
Definition mean_reduction (l : list R) : result R :=
  match l with [] => Err EZeroDiv | _ => Ok (fold_right Rplus 0%R l / INR (length l))%R end.
(** ml/metrics.py:105-141 [distributed_reduce] inside a function pmapped over the shards: every device evaluates the metric of its
    shard; the reduction (e.g. [jax.lax.pmean]) combines the values of all devices. *)
Definition distributed_reduce {B : Type} (metric : list B -> result R) (reduction : list R -> result R) (shards : list (list B)) : result R :=
  let* values := mapM metric shards in reduction values.
