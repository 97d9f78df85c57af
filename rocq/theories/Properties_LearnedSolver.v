(** Generated by tools/gen.py from LearnedSolverProps.v: property theorems only. *)
From Verif Require Import Prelude NdArr Grids_model Spec SpecDiff SpecNS SpecML LinAlg Cplx FastDiag_model Laplacian_model PressureSolve_model Boundaries_model BoundariesPeriodic FD_model Interp_model Pressure_model Advection_model ArrayUtils_model TimeStep_model Diffusion_model Equations_model PRep FDProofs FDProps InterpProps ArrayUtilsProps PressureProps PressureSolveProps AdvectionProofs AdvectionProps EquationsProps EquationsMoreProps Networks_model NetworksProps LearnedProps.
From Verif Require Import Tiling_model SpecTile Stencil_model SpecStencil Viscosities_model LearnedInterp_model SpecLInt LearnedInterpDict StencilLayerProps LearnedInterpEx LearnedInterpProps LearnedSolver_model SpecLSolve.
From Verif Require Import LearnedSolverProps.
Local Open Scope Z_scope.
Set Implicit Arguments.

(** C76. Self-advection with a learned interpolation built from the state v, for every network and all implementation options: on every staggered periodic velocity w the convection term of component j is minus the divergence of a flux, the product of the averages of components i and j over stencils half a cell away, with weights that add up to one and depend on the network and on v only. *)
Theorem learned_convection_flux_form : forall solve svd g o bs v tags fn tower, learned_setting solve svd g v tags fn tower -> periodic_velocity g o bs v -> In tag_c tags -> In tag_u tags ->
  exists W, averaging_weights v tags fn W /\
  forall pm fuse_constraints fuse_patches constrain_with_conv layout dt w, options_fit (gshape g) (fun S => exists k, asked v tags k /\ fn k = S) pm fuse_constraints fuse_patches constrain_with_conv layout ->
    periodic_velocity g o bs w ->
    exists l, learned_convection solve svd g dt tags fn tower pm fuse_constraints fuse_patches constrain_with_conv layout v w = Ok l /\
      fields_at g w l (fun j ix => - nsum (gndim g) (fun i => (learned_flux g v fn W tag_c tag_u w i j ix - learned_flux g v fn W tag_c tag_u w i j (prev i ix)) / hstep g i))%R.
Proof. exact (@learned_convection_flux_form_lem). Qed.
Print Assumptions learned_convection_flux_form.

(** C76. It is a term of the equation that exerts no net force: whatever the network, the total of every component of the learned convection term is zero. *)
Theorem learned_convection_no_net_force : forall solve svd g o bs v tags fn tower pm fuse_constraints fuse_patches constrain_with_conv layout dt,
  learned_setting solve svd g v tags fn tower -> periodic_velocity g o bs v -> In tag_c tags -> In tag_u tags ->
  options_fit (gshape g) (fun S => exists k, asked v tags k /\ fn k = S) pm fuse_constraints fuse_patches constrain_with_conv layout ->
  any_term g o bs (learned_convection solve svd g dt tags fn tower pm fuse_constraints fuse_patches constrain_with_conv layout v) /\
  no_net_force g o bs (learned_convection solve svd g dt tags fn tower pm fuse_constraints fuse_patches constrain_with_conv layout v).
Proof. exact (@learned_convection_no_net_force_lem). Qed.
Print Assumptions learned_convection_no_net_force.

(** C76. One step of modular_navier_stokes_model with self-advection by learned interpolation, on top of the semi-implicit solver, for every network, every explicit Runge-Kutta tableau, viscosity, density, time step and forcing: if the pressure solver solves its Poisson equation, the step succeeds on every staggered periodic velocity and returns one whose divergence is zero in every cell; and if the forcing exerts no net force, the total of every component is conserved. *)
Theorem learned_solver_step : forall t solve svd psolve g o bs v tags fn tower pm fuse_constraints fuse_patches constrain_with_conv layout density viscosity dt forcing,
  learned_setting solve svd g v tags fn tower -> periodic_velocity g o bs v -> In tag_c tags -> In tag_u tags ->
  options_fit (gshape g) (fun S => exists k, asked v tags k /\ fn k = S) pm fuse_constraints fuse_patches constrain_with_conv layout ->
  length o = gndim g -> explicit_tableau t -> (viscosity <> None -> density <> 0%R) -> solves_poisson g o psolve -> any_term g o bs forcing ->
  exists v' d, modular_navier_stokes_model (fun convect f => semi_implicit_navier_stokes t density viscosity dt convect diffuse psolve f) forcing
      (learned_convection solve svd g dt tags fn tower pm fuse_constraints fuse_patches constrain_with_conv layout) [] v = Ok v' /\
    periodic_velocity g o bs v' /\ divergence v' = Ok d /\ is_field d g o (fun _ => 0%R) /\
    (no_net_force g o bs forcing -> forall i, momentum v' i = momentum v i).
Proof. exact (@learned_solver_step_lem). Qed.
Print Assumptions learned_solver_step.

(** C76. A run of any number of such steps, the interpolation being rebuilt from the state at every step, keeps the velocity divergence-free from the first step on and never changes the total of a component when the forcing exerts no net force. *)
Theorem learned_solver_run : forall n t solve svd psolve g o bs v tags fn tower pm fuse_constraints fuse_patches constrain_with_conv layout density viscosity dt forcing,
  learned_setting solve svd g v tags fn tower -> options_fit (gshape g) (fun S => exists k, asked v tags k /\ fn k = S) pm fuse_constraints fuse_patches constrain_with_conv layout ->
  periodic_velocity g o bs v -> In tag_c tags -> In tag_u tags ->
  length o = gndim g -> explicit_tableau t -> (viscosity <> None -> density <> 0%R) -> solves_poisson g o psolve -> any_term g o bs forcing ->
  let step := modular_navier_stokes_model (fun convect f => semi_implicit_navier_stokes t density viscosity dt convect diffuse psolve f) forcing
      (learned_convection solve svd g dt tags fn tower pm fuse_constraints fuse_patches constrain_with_conv layout) [] in
  exists v', Nat.iter n (fun r => bind r step) (Ok v) = Ok v' /\ periodic_velocity g o bs v' /\
    ((0 < n)%nat -> exists d, divergence v' = Ok d /\ is_field d g o (fun _ => 0%R)) /\
    (no_net_force g o bs forcing -> forall i, momentum v' i = momentum v i).
Proof. exact (@learned_solver_run_lem). Qed.
Print Assumptions learned_solver_run.

(** The hypotheses are met by a concrete case. *)
Example learned_convection_flux_form_ex : forall F, learned_setting cramer (cand_svd []) q34g q34v [tag_c; tag_u] (isotropic_sizes 2 2) (li_tower F) /\ periodic_velocity q34g half2 p34bs q34v /\
  options_fit (gshape q34g) (fun S => exists k, asked q34v [tag_c; tag_u] k /\ isotropic_sizes 2 2 k = S) PRoll true false false None.
Proof. exact (@learned_convection_flux_form_ex_lem). Qed.

(** The hypotheses are met by a concrete case. *)
Example learned_convection_no_net_force_ex : forall F, exists l x, learned_convection cramer (cand_svd []) q34g 1 [tag_c; tag_u] (isotropic_sizes 2 2) (li_tower F) PRoll true false false None q34v q34v = Ok l /\ nth_error l 1 = Some x /\ total (gdata x) = 0%R.
Proof. exact (@learned_convection_no_net_force_ex_lem). Qed.

(** The hypotheses are met by a concrete case. *)
Example learned_solver_step_ex : forall tpu eigh F, exists v', modular_navier_stokes_model (fun convect f => semi_implicit_navier_stokes (mktab [[1 / 2]; [0; 1 / 2]; [0; 0; 1]] [1 / 6; 1 / 3; 1 / 3; 1 / 6])%R 2 (Some 3%R) 1 convect diffuse (fun v _ b => pressure_solve_fast_diag tpu eigh (1 / 1000) v (Some b) (Some Fft)) f) push
      (learned_convection cramer (cand_svd []) q34g 1 [tag_c; tag_u] (isotropic_sizes 2 2) (li_tower F) PRoll true false false None) [] q34v = Ok v' /\ periodic_velocity q34g half2 p34bs v'.
Proof. exact (@learned_solver_step_ex_lem). Qed.

(** The hypotheses are met by a concrete case. *)
Example learned_solver_run_ex : forall tpu eigh F, (forall w, periodic_velocity q34g half2 p34bs w -> learned_setting cramer (cand_svd []) q34g w [tag_c; tag_u] (isotropic_sizes 2 2) (li_tower F) /\
     options_fit (gshape q34g) (fun S => exists k, asked w [tag_c; tag_u] k /\ isotropic_sizes 2 2 k = S) PRoll true false false None) /\ periodic_velocity q34g half2 p34bs q34v /\
  solves_poisson q34g half2 (fun v _ b => pressure_solve_fast_diag tpu eigh (1 / 1000) v (Some b) (Some Fft)) /\ any_term q34g half2 p34bs push.
Proof. exact (@learned_solver_run_ex_lem). Qed.
