(** Generated by tools/gen.py from FluxLimitLearnedProps.v: property theorems only. *)
From Verif Require Import Prelude NdArr Grids_model Spec SpecDiff SpecNS SpecML LinAlg Cplx FastDiag_model Laplacian_model PressureSolve_model Boundaries_model BoundariesPeriodic FD_model Interp_model Pressure_model Advection_model ArrayUtils_model TimeStep_model Diffusion_model Equations_model PRep FDProofs FDProps InterpProps ArrayUtilsProps PressureProps PressureSolveProps AdvectionProofs AdvectionProps EquationsProps EquationsMoreProps Networks_model NetworksProps LearnedProps.
From Verif Require Import Tiling_model SpecTile Stencil_model SpecStencil Viscosities_model LearnedInterp_model SpecLInt LearnedInterpDict StencilLayerProps LearnedInterpEx LearnedInterpProps LearnedSolver_model SpecLSolve LearnedSolverProps FluxLimit_model SpecLimit FluxLimitProps.
From Verif Require Import FluxLimitLearnedProps.
Local Open Scope Z_scope.
Set Implicit Arguments.

(** C78. The flux-limited learned interpolation in use: advecting component j of any staggered periodic velocity w with it, the learned weights being computed from the state v by any network, returns minus the net outflow of the limited value times the linearly interpolated velocity, where the limited value is the upwind value moved towards an average of the component over a stencil around the face with weights that sum to one. Its total is zero whatever the network. *)
Theorem limited_learned_advection : forall solve svd g o bs v tags fn tower, learned_setting solve svd g v tags fn tower -> periodic_velocity g o bs v -> In None tags ->
  exists W, averaging_weights v tags fn W /\
  forall pm fuse_constraints fuse_patches constrain_with_conv layout phi dt w j u u0, options_fit (gshape g) (fun S => exists k, asked v tags k /\ fn k = S) pm fuse_constraints fuse_patches constrain_with_conv layout ->
    periodic_velocity g o bs w -> nth_error w j = Some u -> nth_error v j = Some u0 ->
    exists x, modular_advection (transformed_module (learned_module solve svd tags fn tower pm fuse_constraints fuse_patches constrain_with_conv layout) (tvd_limiter_transformation phi)) linear_module g dt v u w dt = Ok x /\
      is_field x g (goff (garray u)) (fun ix => - outflow g (fun i jx =>
        let k := (goff (garray u0), half_a_cell i (goff (garray u0)), None) in
        limited_to phi u i (face_velocity u w i jx) (stencil_average (gshape g) (fn k) (W k) (vval w j) jx) jx * face_velocity u w i jx) ix)%R /\
      total (gdata x) = 0%R.
Proof. exact (@limited_learned_advection_lem). Qed.
Print Assumptions limited_learned_advection.

(** The hypotheses are met by a concrete case. *)
Example limited_learned_advection_ex : forall F, learned_setting cramer (cand_svd []) q34g q34v [None] (isotropic_sizes 2 2) (li_tower F) /\ periodic_velocity q34g half2 p34bs q34v /\
  options_fit (gshape q34g) (fun S => exists k, asked q34v [None] k /\ isotropic_sizes 2 2 k = S) PRoll true false false None.
Proof. exact (@limited_learned_advection_ex_lem). Qed.
