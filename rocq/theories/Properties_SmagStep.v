(** Generated by tools/gen.py from SmagStepProps.v: property theorems only. *)
From Verif Require Import Prelude NdArr Grids_model Spec Boundaries_model FD_model PRep FDProofs FDProps Pressure_model Interp_model InterpProofs InterpProps Advection_model AdvectionProps Diffusion_model TilingProofs PressureProps FastDiag_model PressureSolve_model PressureSolveProps TimeStep_model Equations_model SpecNS EquationsProps EquationsMoreProps Forcings_model Subgrid_model SpecSub SubgridProps SubgridMoreProps ArrayUtilsProps SpecML Networks_model LearnedProps Viscosities_model SpecVisc ViscosityProps ViscosityFlowProps SpecSmagStep.
From Verif Require Import SmagStepProps.
Local Open Scope Z_scope.
Set Implicit Arguments.

(** C68. eddy_viscosity_model around the plain Smagorinsky viscosity of ml/viscosities, whatever the viscosity scale (which that function ignores): for every staggered periodic velocity with one set of boundary conditions it is a legitimate term of the equation, exerts no net force, and never does positive work on the flow; and the result does not depend on the scale. *)
Theorem smagorinsky_eddy_viscosity : forall g o b specs_viscosity scale cs, (0 < gndim g)%nat -> length o = gndim g ->
  let f := eddy_viscosity_model specs_viscosity scale (fun s => ml_smagorinsky_viscosity linear_fn cs s) in
  any_term g o (repeat b (gndim g)) f /\ no_net_force g o (repeat b (gndim g)) f /\ takes_energy g o (repeat b (gndim g)) f /\
  (forall specs_viscosity' scale' v, f v = eddy_viscosity_model specs_viscosity' scale' (fun s => ml_smagorinsky_viscosity linear_fn cs s) v).
Proof. exact (@smagorinsky_eddy_viscosity_lem). Qed.
Print Assumptions smagorinsky_eddy_viscosity.

(** The hypotheses are met by a concrete case. *)
Example smagorinsky_eddy_viscosity_ex : (0 < gndim p34g)%nat /\ length half2 = gndim p34g /\ periodic_velocity p34g half2 (repeat (periodic_bc 2) (gndim p34g)) p34v.
Proof. exact (@smagorinsky_eddy_viscosity_ex_lem). Qed.

(** C48. One step of implicit_smagorinsky_navier_stokes with the default convection, for every Smagorinsky constant, density, viscosity >= 0, time step >= 0, forcing and pressure solver, and every inner solver that, when it returns, returns a solution of the implicit equation: the explicitly advanced velocity v + dt (convection + forcing / density) is projected first, giving vp; whenever the step returns, the returned velocity is staggered and periodic like v, each component's total is that of v plus dt / density times the total force (so without forcing momentum is conserved), and its kinetic energy does not exceed that of vp. *)
Theorem implicit_smagorinsky_step : forall cg g o b density nu dt cs solve forcing Fo v v',
  (0 < gndim g)%nat -> length o = gndim g -> periodic_velocity g o (repeat b (gndim g)) v -> pressure_solver g o solve -> (0 <= nu)%R -> (0 <= dt)%R ->
  (forall f, forcing = Some f -> exists lf, f v = Ok lf /\ fields_at g v lf Fo) ->
  inner_solver g o b (evm_linear_op b nu dt (evm_model (smagorinsky_viscosity linear_fn cs))) cg ->
  implicit_smagorinsky_navier_stokes cg density nu dt cs (default_convect dt) solve forcing v = Ok v' ->
  exists lc C star vp, default_convect dt v = Ok lc /\ fields_at g v lc C /\ periodic_velocity g o (repeat b (gndim g)) star /\
    (forall i u, nth_error star i = Some u -> exists w, nth_error v i = Some w /\ is_field (garray u) g (goff (garray w)) (fun ix => vval v i ix + dt * (C i ix + match forcing with Some _ => Fo i ix / density | None => 0 end))%R) /\
    projection solve star = Ok vp /\
    periodic_velocity g o (repeat b (gndim g)) v' /\
    (forall i, (i < gndim g)%nat -> momentum v' i = momentum v i + match forcing with Some _ => dt / density * asum (gshape g) (Fo i) | None => 0 end)%R /\
    (kinetic g (vval v') <= kinetic g (vval vp))%R.
Proof. exact (@implicit_smagorinsky_step_lem). Qed.
Print Assumptions implicit_smagorinsky_step.

(** The hypotheses are met by a concrete case. *)
Example implicit_smagorinsky_step_ex : forall tpu eigh, exists v' Fo,
  (0 < gndim p34g)%nat /\ length half2 = gndim p34g /\ periodic_velocity p34g half2 (repeat (periodic_bc 2) (gndim p34g)) p34v /\
  pressure_solver p34g half2 (fun v _ b => pressure_solve_fast_diag tpu eigh (1 / 1000) v (Some b) (Some Fft)) /\ (0 <= 3)%R /\ (0 <= 1)%R /\
  (forall f, Some push = Some f -> exists lf, f p34v = Ok lf /\ fields_at p34g p34v lf Fo) /\
  inner_solver p34g half2 (periodic_bc 2) (evm_linear_op (periodic_bc 2) 3 1 (evm_model (smagorinsky_viscosity linear_fn 0))) (p34_cg tpu eigh) /\
  implicit_smagorinsky_navier_stokes (p34_cg tpu eigh) 1 3 1 0 (default_convect 1) (fun v _ b => pressure_solve_fast_diag tpu eigh (1 / 1000) v (Some b) (Some Fft)) (Some push) p34v = Ok v'.
Proof. exact (@implicit_smagorinsky_step_ex_lem). Qed.
