(** * spectral/equations.py: the forced flow of Kochkov et al. *)
From Verif Require Import Prelude NdArr Cplx Grids_model Boundaries_model Advection_model TimeStep_model Forcings_model Spectral_model SpectralStep_model.
Set Implicit Arguments.

(** equations.py:123-127 [_get_grid_variable] *)
Definition get_grid_variable (a : arr R) (g : grid) : result gvar := mk_gvar (mkga a [1 # 2; 1 # 2]%Q g) (periodic_bc 2).
(** spectral/equations.py:160-182 [explicit_terms]: a ForcingFn of base/forcings.py as a function of the two velocity arrays; [fx, fy = ...]
    unpacks exactly two fields. *)
Definition unpacked_forcing (g : grid) (forcing : list gvar -> result (list garr)) (vx vy : arr R) : result (arr R * arr R) :=
  let* x := get_grid_variable vx g in
  let* y := get_grid_variable vy g in
  let* f := forcing [x; y] in
  match f with [fx; fy] => Ok (gdata fx, gdata fy) | _ => Err EValue end.
(** equations.py:193-220 [ForcedNavierStokes2D]: explicit and implicit terms *)
Definition forced_ns2d_explicit_terms (g : grid) (smooth : option bool) (vorticity_hat : arr cplx) : result (arr cplx) :=
  let* forcing := kolmogorov_forcing g 1 4 false (Some [[0; 0]; [0; 0]]%Q) in
  ns2d_explicit_terms g smooth (Some (unpacked_forcing g forcing)) vorticity_hat.
Definition forced_ns2d_implicit_terms (g : grid) (viscosity : R) (vorticity_hat : arr cplx) : result (arr cplx) :=
  ns2d_implicit_terms g viscosity (1 / 10) vorticity_hat.
Definition forced_ns2d_implicit_solve (g : grid) (viscosity : R) (vorticity_hat : arr cplx) (time_step : R) : result (arr cplx) :=
  ns2d_implicit_solve g viscosity (1 / 10) vorticity_hat time_step.
(** [funcutils.repeated] (base/funcutils.py:82-88 [repeated]) of a step function of equations.py:193-220 [ForcedNavierStokes2D] *)
Definition forced_ns2d_run (g : grid) (smooth : option bool) (viscosity : R) (k : spectral_scheme) (dt : R) (steps : nat) (w : arr cplx) : result (arr cplx) :=
  let* forcing := kolmogorov_forcing g 1 4 false (Some [[0; 0]; [0; 0]]%Q) in
  ns2d_run g smooth (Some (unpacked_forcing g forcing)) viscosity (1 / 10) k dt steps w.
