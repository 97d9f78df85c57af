(** Generated by tools/gen.py from LearnedSymProps.v: property theorems only. *)
From Verif Require Import Prelude NdArr Grids_model Spec SpecDiff SpecNS SpecML LinAlg Cplx FastDiag_model Laplacian_model PressureSolve_model Boundaries_model BoundariesPeriodic FD_model Interp_model Pressure_model Advection_model ArrayUtils_model TimeStep_model Diffusion_model Equations_model PRep FDProofs FDProps InterpProps ArrayUtilsProps PressureProps PressureSolveProps AdvectionProofs AdvectionProps EquationsProps EquationsMoreProps Networks_model NetworksProps LearnedProps.
From Verif Require Import SpecRollout SymEx Towers_model TowerProps TowerMoreProps.
From Verif Require Import Tiling_model SpecTile Stencil_model SpecStencil Viscosities_model LearnedInterp_model SpecLInt LearnedInterpLayers LearnedInterpFuse LearnedInterpDict StencilLayerProps TilingProofs LearnedInterpEx LearnedInterpProps LearnedSolver_model SpecLSolve SpecTower SpecSym SymBase SymProps SymVelProps SymStepProps LearnedSolverProps.
From Verif Require Import LearnedSymProps.
Local Open Scope Z_scope.
Set Implicit Arguments.

(** C76. Learned convection does not care where things are: if the network moves along with its input (as convolutional towers on periodic grids do), the learned interpolations built from a state and from the same state translated by any number of cells along every axis convect translated velocities into translated terms, for every choice of stencils and implementation options. *)
Theorem learned_convection_translates : forall solve svd g o bs v v' tags fn tower pm fuse_constraints fuse_patches constrain_with_conv layout dt L,
  learned_setting solve svd g v tags fn tower -> (forall n, moves_along (gshape g) (gndim g) 1 (gshape g) n (tower n) (tower n)) ->
  options_fit (gshape g) (fun S => exists k, asked v tags k /\ fn k = S) pm fuse_constraints fuse_patches constrain_with_conv layout ->
  In tag_c tags -> In tag_u tags ->
  periodic_velocity g o bs v -> periodic_velocity g o bs v' -> copied_velocity (gndim g) (translation L) 1 v v' ->
  treat_alike g g o o bs bs (translation L) 1 1
    (learned_convection solve svd g dt tags fn tower pm fuse_constraints fuse_patches constrain_with_conv layout v)
    (learned_convection solve svd g dt tags fn tower pm fuse_constraints fuse_patches constrain_with_conv layout v').
Proof. exact (@learned_convection_translates_lem). Qed.
Print Assumptions learned_convection_translates.

(** C76. The whole learned solver does not care where things are: start one run of modular_navier_stokes_model (learned self-advection on top of the semi-implicit solver, any explicit tableau, viscosity, density and time step) from a staggered periodic velocity and another from the same velocity translated by any number of cells along every axis; if the network moves along with its input, the forcings treat translated velocities alike and the pressure solvers solve their Poisson equation (they need not be the same), then after every number of steps both runs have succeeded and the second state is the first, translated. *)
Theorem learned_solver_translates : forall steps t solve svd psolve psolve' g o bs v v' tags fn tower pm fuse_constraints fuse_patches constrain_with_conv layout density viscosity dt forcing forcing' L,
  learned_setting solve svd g v tags fn tower -> (forall n, moves_along (gshape g) (gndim g) 1 (gshape g) n (tower n) (tower n)) ->
  options_fit (gshape g) (fun S => exists k, asked v tags k /\ fn k = S) pm fuse_constraints fuse_patches constrain_with_conv layout ->
  In tag_c tags -> In tag_u tags -> length o = gndim g -> explicit_tableau t -> density <> 0%R ->
  solves_poisson g o psolve -> solves_poisson g o psolve' -> treat_alike g g o o bs bs (translation L) 1 1 forcing forcing' ->
  periodic_velocity g o bs v -> periodic_velocity g o bs v' -> copied_velocity (gndim g) (translation L) 1 v v' ->
  let step psolve forcing := modular_navier_stokes_model (fun convect f => semi_implicit_navier_stokes t density viscosity dt convect diffuse psolve f) forcing
      (learned_convection solve svd g dt tags fn tower pm fuse_constraints fuse_patches constrain_with_conv layout) [] in
  exists w w', iterate steps (step psolve forcing) v = Ok w /\ iterate steps (step psolve' forcing') v' = Ok w' /\
    periodic_velocity g o bs w /\ periodic_velocity g o bs w' /\ copied_velocity (gndim g) (translation L) 1 w w'.
Proof. exact (@learned_solver_translates_lem). Qed.
Print Assumptions learned_solver_translates.

(** The hypotheses are met by a concrete case. *)
Example learned_convection_translates_ex : exists l l' x x', learned_convection cramer (cand_svd []) q34g 1 [tag_c; tag_u] (isotropic_sizes 2 2) q34_net PRoll true false false None q34v q34v = Ok l /\
  learned_convection cramer (cand_svd []) q34g 1 [tag_c; tag_u] (isotropic_sizes 2 2) q34_net PRoll true false false None q34w q34w = Ok l' /\ nth_error l 0 = Some x /\ nth_error l' 0 = Some x' /\
  pval x' [1; 2] = pval x [0; 0].
Proof. exact (@learned_convection_translates_ex_lem). Qed.

(** The hypotheses are met by a concrete case. *)
Example learned_solver_translates_ex : forall tpu eigh, learned_setting cramer (cand_svd []) q34g q34v [tag_c; tag_u] (isotropic_sizes 2 2) q34_net /\ (forall n, moves_along (gshape q34g) (gndim q34g) 1 (gshape q34g) n (q34_net n) (q34_net n)) /\
  options_fit (gshape q34g) (fun S => exists k, asked q34v [tag_c; tag_u] k /\ isotropic_sizes 2 2 k = S) PRoll true false false None /\
  solves_poisson q34g half2 (fun v _ b => pressure_solve_fast_diag tpu eigh (1 / 1000) v (Some b) (Some Fft)) /\ treat_alike q34g q34g half2 half2 p34bs p34bs (translation by12) 1 1 tailwind tailwind /\
  periodic_velocity q34g half2 p34bs q34v /\ periodic_velocity q34g half2 p34bs q34w /\ copied_velocity (gndim q34g) (translation by12) 1 q34v q34w.
Proof. exact (@learned_solver_translates_ex_lem). Qed.
