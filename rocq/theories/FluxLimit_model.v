(** * Model of the interpolation and advection modules of jax_cfd/ml: base interpolations, flux-limited transformations of them, and the advection built from them *)
From Verif Require Import Prelude NdArr Grids_model Interp_model Advection_model Tiling_model Stencil_model LearnedInterp_model LearnedSolver_model.
Set Implicit Arguments.
Local Open Scope R_scope.

(** An interpolation module: grid, time step and the state [v] give an interpolation function, ml/interpolations.py:20-24. The argument
    [physics_specs] is not modelled: no module of this file uses it. *)
Definition interp_module := grid -> R -> list gvar -> result interp_fn.
(** ml/interpolations.py:197-200 [linear] *)
Definition linear_module : interp_module := fun _ _ _ => Ok linear_fn.
(** ml/interpolations.py:203-206 [upwind] *)
Definition upwind_module : interp_module := fun _ _ _ => Ok upwind_fn.
(** ml/interpolations.py:209-212 [lax_wendroff] *)
Definition lax_wendroff_module : interp_module := fun _ _ _ => Ok lax_wendroff.
(** ml/interpolations.py:31-119 [FusedLearnedInterpolation], called without a tag (the default tag None) *)
Definition learned_module (solve : list (list R) -> list R -> result (list R)) (svd_v : list (list R) -> list (list R)) (tags : list tag)
  (stencil_size_fn : ikey -> list nat) (tower : nat -> arr R -> result (arr R)) (extract_patch_method : patch_method)
  (fuse_constraints fuse_patches constrain_with_conv : bool) (tile_layout : option (list nat)) : interp_module :=
  fun g _ v =>
    let* interpolators := learned_interpolation solve svd_v g v tags stencil_size_fn tower extract_patch_method fuse_constraints fuse_patches constrain_with_conv tile_layout in
    Ok (tagged interpolators None).
(** ml/interpolations.py:216-222 [tvd_limiter_transformation] *)
Definition tvd_limiter_transformation (limiter : R -> R) (f : interp_fn) : interp_fn := apply_tvd_limiter f limiter.
(** ml/interpolations.py:225-254 [transformed] *)
Definition transformed_module (base : interp_module) (transformation : interp_fn -> interp_fn) : interp_module :=
  fun g dt v => let* f := base g dt v in Ok (transformation f).
(** ml/advections.py:23-44 [modular_advection]; the keyword arguments are the state [v0] the modules are built from *)
Definition modular_advection (c_module u_module : interp_module) (g : grid) (dt : R) (v0 : list gvar) (c : gvar) (v : list gvar) (dt' : R) : result garr :=
  let* ci := c_module g dt v0 in
  let* ui := u_module g dt v0 in
  advect_general c v ui ci dt'.
