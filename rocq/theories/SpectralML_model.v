(** * Model of the spectral step function of jax_cfd/ml/equations.py *)
From Verif Require Import Prelude NdArr Cplx Grids_model FastDiag_model Spectral_model SpectralStep_model SpecStep.
Set Implicit Arguments.

(** ml/equations.py:65-90 [modular_spectral_step_fn]: a step function of [time_stepper] for NavierStokes2D (with [forcing] the forcing function
    as NavierStokes2D uses it), then, with [do_filter_step], utils.py's exponential_filter with its default arguments
    (spectral/utils.py:137-151 [exponential_filter]: alpha = 1e-6, order = 2) on the field in physical space. *)
Definition modular_spectral_step (g : grid) (smooth : bool) (forcing : option (arr R -> arr R -> result (arr R * arr R))) (viscosity drag : R)
    (time_stepper : spectral_scheme) (dt : R) (do_filter_step : bool) (vhat : arr cplx) : result (arr cplx) :=
  let* x := ns2d_run g (Some smooth) forcing viscosity drag time_stepper dt 1 vhat in
  if do_filter_step then
    let v := irfftn x in
    let* f := exponential_filter v (/ 1000000) 2 in
    Ok (rfftn f)
  else Ok x.
(** base/funcutils.py:82-88 [repeated] of it *)
Fixpoint modular_spectral_run (g : grid) (smooth : bool) (forcing : option (arr R -> arr R -> result (arr R * arr R))) (viscosity drag : R)
    (time_stepper : spectral_scheme) (dt : R) (do_filter_step : bool) (steps : nat) (vhat : arr cplx) : result (arr cplx) :=
  match steps with
  | O => Ok vhat
  | S n => let* v := modular_spectral_run g smooth forcing viscosity drag time_stepper dt do_filter_step n vhat in
           modular_spectral_step g smooth forcing viscosity drag time_stepper dt do_filter_step v
  end.
