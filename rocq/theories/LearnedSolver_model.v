(** * Model of jax_cfd/ml/advections.py [modular_self_advection] around a learned interpolation *)
From Verif Require Import Prelude NdArr Grids_model Interp_model Advection_model Networks_model Viscosities_model Tiling_model Stencil_model LearnedInterp_model.
Set Implicit Arguments.
Local Open Scope R_scope.

(** The names 'c' and 'u' of ml/advections.py:48-70 [modular_self_advection]. *)
Definition tag_c : tag := Some 0%nat.
Definition tag_u : tag := Some 1%nat.
(** [functools.partial(interpolate_fn, tag=...)]: ml/interpolations.py:100-119 [__call__] ignores [v] and [dt] *)
Definition tagged (interpolators : list (ikey * (arr R -> result (arr R)))) (t : tag) : interp_fn := fun c offset _ _ => learned_call interpolators c offset t.
(** ml/advections.py:48-70 [modular_self_advection]; the inner function *)
Definition modular_self_advection (interpolators : list (ikey * (arr R -> result (arr R)))) (c : gvar) (v : list gvar) (dt : R) : result garr :=
  advect_general c v (tagged interpolators tag_u) (tagged interpolators tag_c) dt.
(** ml/advections.py:74-87 [self_advection] with [modular_self_advection] and a FusedLearnedInterpolation built from the state [v] *)
Definition learned_convection (solve : list (list R) -> list R -> result (list R)) (svd_v : list (list R) -> list (list R)) (g : grid) (dt : R) (tags : list tag)
  (stencil_size_fn : ikey -> list nat) (tower : nat -> arr R -> result (arr R)) (extract_patch_method : patch_method)
  (fuse_constraints fuse_patches constrain_with_conv : bool) (tile_layout : option (list nat)) (v w : list gvar) : result (list garr) :=
  let* interpolators := learned_interpolation solve svd_v g v tags stencil_size_fn tower extract_patch_method fuse_constraints fuse_patches constrain_with_conv tile_layout in
  mapM (fun u => modular_self_advection interpolators u w dt) w.
