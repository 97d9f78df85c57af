(** Generated by tools/gen.py from EnergyStepProps.v: property theorems only. *)
From Verif Require Import Prelude NdArr Grids_model Spec Boundaries_model BoundariesPeriodic FD_model Interp_model Advection_model Pressure_model PRep FDProofs FDProps InterpProps AdvectionProofs AdvectionProps ConvectProps PressureProps PressureSolveProps ProjectionProps FastDiag_model Laplacian_model PressureSolve_model Diffusion_model TimeStep_model Equations_model SpecNS EquationsProps AccuracyProps SpecEnergy.
From Verif Require Import EnergyStepProps.
Local Open Scope R_scope.
Set Implicit Arguments.

(** C87. One forward_euler step of semi_implicit_navier_stokes from a discretely divergence-free staggered periodic velocity, for any convection, diffusion, forcing, pressure solver and time step: the kinetic energy changes by exactly 2 dt times the work of convection, diffusion and force, plus the energy of the change of the velocity - the pressure does no work. *)
Theorem euler_step_energy : forall g o bs density viscosity dt convect diffuse solve forcing v lc C D Fo d,
  (0 < gndim g)%nat -> length o = gndim g -> pressure_solver g o solve -> periodic_velocity g o bs v ->
  divergence v = Ok d -> (forall ix, inb (gshape g) ix -> get (gdata d) ix = 0) -> (viscosity <> None -> density <> 0) ->
  convect v = Ok lc -> fields_at g v lc C ->
  (forall nu i u, viscosity = Some nu -> nth_error v i = Some u -> exists w, diffuse u (nu / density) = Ok w /\ is_field w g (goff (garray u)) (D i)) ->
  (forall f, forcing = Some f -> exists lf, f v = Ok lf /\ fields_at g v lf Fo) ->
  exists v', semi_implicit_navier_stokes (mktab [] [1]) density viscosity dt convect diffuse solve forcing v = Ok v' /\ periodic_velocity g o bs v' /\
    kinetic g (velocity_at v') = kinetic g (velocity_at v)
      + 2 * dt * work g v (fun i ix => C i ix + match viscosity with Some _ => D i ix | None => 0 end + match forcing with Some _ => Fo i ix / density | None => 0 end)
      + kinetic g (fun i ix => velocity_at v' i ix - velocity_at v i ix).
Proof. exact (@euler_step_energy_lem). Qed.
Print Assumptions euler_step_energy.

(** C87. With the library's energy-conserving convection convect_linear, no forcing and an exact pressure solver: a forward_euler step from a divergence-free periodic velocity succeeds, is divergence-free again, and changes the kinetic energy by exactly minus 2 dt viscosity/density times the squared velocity gradients (physical dissipation) plus the energy of the change of the velocity (numerical heating). *)
Theorem euler_linear_energy : forall g o bs density viscosity dt solve v d,
  (0 < gndim g)%nat -> length o = gndim g -> solves_poisson g o solve -> periodic_velocity g o bs v ->
  divergence v = Ok d -> (forall ix, inb (gshape g) ix -> get (gdata d) ix = 0) -> (viscosity <> None -> density <> 0) ->
  exists v' d', semi_implicit_navier_stokes (mktab [] [1]) density viscosity dt convect_linear diffuse solve None v = Ok v' /\ periodic_velocity g o bs v' /\
    divergence v' = Ok d' /\ (forall ix, inb (gshape g) ix -> get (gdata d') ix = 0) /\
    kinetic g (velocity_at v') = kinetic g (velocity_at v) - 2 * dt * match viscosity with Some nu => nu / density * gradient_energy g v | None => 0 end
      + kinetic g (fun i ix => velocity_at v' i ix - velocity_at v i ix).
Proof. exact (@euler_linear_energy_lem). Qed.
Print Assumptions euler_linear_energy.

(** C87. So an inviscid, unforced flow computed with forward_euler, energy-conserving convection and exact projections never loses kinetic energy: over any number of steps, with any time steps, the energy never decreases, and it stays the same over a step only if no velocity changes. *)
Theorem inviscid_euler_gains : forall g o bs density (dt : nat -> R) solve (run : nat -> list gvar) d,
  (0 < gndim g)%nat -> length o = gndim g -> solves_poisson g o solve -> periodic_velocity g o bs (run 0%nat) ->
  divergence (run 0%nat) = Ok d -> (forall ix, inb (gshape g) ix -> get (gdata d) ix = 0) ->
  (forall n, semi_implicit_navier_stokes (mktab [] [1]) density None (dt n) convect_linear diffuse solve None (run n) = Ok (run (S n))) ->
  (forall n m, (n <= m)%nat -> kinetic g (velocity_at (run n)) <= kinetic g (velocity_at (run m))) /\
  (forall n, kinetic g (velocity_at (run (S n))) = kinetic g (velocity_at (run n)) -> forall i ix, (i < gndim g)%nat -> inb (gshape g) ix -> velocity_at (run (S n)) i ix = velocity_at (run n) i ix).
Proof. exact (@inviscid_euler_gains_lem). Qed.
Print Assumptions inviscid_euler_gains.

(** The hypotheses are met by a concrete case. *)
Example euler_step_energy_ex : forall tpu eigh, (0 < gndim p34g)%nat /\ length half2 = gndim p34g /\ pressure_solver p34g half2 (fun v _ b => pressure_solve_fast_diag tpu eigh (1 / 1000) v (Some b) (Some Fft)) /\
  (periodic_velocity p34g half2 [periodic_bc 2; periodic_bc 2] (projected34 tpu eigh) /\ exists d, divergence (projected34 tpu eigh) = Ok d /\ forall ix, inb (gshape p34g) ix -> get (gdata d) ix = 0) /\
  (exists lc C, default_convect 1 (projected34 tpu eigh) = Ok lc /\ fields_at p34g (projected34 tpu eigh) lc C) /\ exists lf Fo, push (projected34 tpu eigh) = Ok lf /\ fields_at p34g (projected34 tpu eigh) lf Fo.
Proof. exact (@euler_step_energy_ex_lem). Qed.

(** The hypotheses are met by a concrete case. *)
Example euler_linear_energy_ex : forall tpu eigh, (0 < gndim p34g)%nat /\ length half2 = gndim p34g /\ solves_poisson p34g half2 (fun v _ b => pressure_solve_fast_diag tpu eigh (1 / 1000) v (Some b) (Some Fft)) /\
  periodic_velocity p34g half2 [periodic_bc 2; periodic_bc 2] (projected34 tpu eigh) /\ exists d, divergence (projected34 tpu eigh) = Ok d /\ forall ix, inb (gshape p34g) ix -> get (gdata d) ix = 0.
Proof. exact (@euler_linear_energy_ex_lem). Qed.

(** The hypotheses are met by a concrete case. *)
Example inviscid_euler_gains_ex : forall tpu eigh, (0 < gndim p34g)%nat /\ length half2 = gndim p34g /\ solves_poisson p34g half2 (fun v _ b => pressure_solve_fast_diag tpu eigh (1 / 1000) v (Some b) (Some Fft)) /\
  periodic_velocity p34g half2 [periodic_bc 2; periodic_bc 2] (heated tpu eigh 0) /\ (exists d, divergence (heated tpu eigh 0) = Ok d /\ forall ix, inb (gshape p34g) ix -> get (gdata d) ix = 0) /\
  forall n, semi_implicit_navier_stokes (mktab [] [1]) 2 None 1 convect_linear diffuse (fun v _ b => pressure_solve_fast_diag tpu eigh (1 / 1000) v (Some b) (Some Fft)) None (heated tpu eigh n) = Ok (heated tpu eigh (S n)).
Proof. exact (@inviscid_euler_gains_ex_lem). Qed.
