(** Generated by tools/gen.py from LearnedProps.v: property theorems only. *)
From Verif Require Import Prelude NdArr Grids_model Spec SpecDiff SpecNS SpecML LinAlg Cplx FastDiag_model Laplacian_model PressureSolve_model Boundaries_model BoundariesPeriodic FD_model Interp_model Pressure_model Advection_model ArrayUtils_model TimeStep_model Diffusion_model Equations_model PRep FDProofs FDProps InterpProps ArrayUtilsProps PressureProps PressureSolveProps AdvectionProofs AdvectionProps EquationsProps EquationsMoreProps Networks_model NetworksProps.
From Verif Require Import LearnedProps.
Local Open Scope Z_scope.
Set Implicit Arguments.

(** C62. self_advection with any two learned interpolations: as long as they return values at the offsets they are asked for, the convection term exists for every staggered periodic velocity, has one field per component at that component's offset, and the total of every component is zero: learned advection cannot create momentum, whatever values the networks produce. *)
Theorem learned_advection_conserves : forall g o bs ui ci dt v, (0 < gndim g)%nat -> periodic_velocity g o bs v ->
  any_interpolation g ui -> any_interpolation g ci ->
  exists l F, self_advection ui ci dt v = Ok l /\ fields_at g v l F /\ forall i x, nth_error l i = Some x -> total (gdata x) = 0%R.
Proof. exact (@learned_advection_conserves_lem). Qed.
Print Assumptions learned_advection_conserves.

(** The hypotheses are met by a concrete case. *)
Example learned_advection_conserves_ex : (0 < gndim p34g)%nat /\ periodic_velocity p34g half2 [periodic_bc 2; periodic_bc 2] p34v /\ any_interpolation p34g nonsense_interp.
Proof. exact (@learned_advection_conserves_ex_lem). Qed.

(** C62. modular_navier_stokes_model on top of the semi-implicit solver, with any learned convection, forcing and acceleration modules (the modules may depend on the state in any way; they only have to return one field per component at that component's offset), any explicit Runge-Kutta tableau, viscosity, density and time step: if the pressure module solves its Poisson equation, the step succeeds on every staggered periodic velocity and the new velocity has zero divergence in every cell; and if no module exerts a net force, the total of every component is conserved. *)
Theorem modular_semi_implicit : forall t g o bs density viscosity dt solve forcing convection accelerations v,
  (0 < gndim g)%nat -> length o = gndim g -> explicit_tableau t -> (viscosity <> None -> density <> 0%R) ->
  solves_poisson g o solve -> periodic_velocity g o bs v ->
  any_term g o bs (convection v) -> any_term g o bs forcing -> (forall m, In m accelerations -> any_term g o bs (m v)) ->
  exists v' d, modular_navier_stokes_model (fun convect f => semi_implicit_navier_stokes t density viscosity dt convect diffuse solve f) forcing convection accelerations v = Ok v' /\
    periodic_velocity g o bs v' /\ divergence v' = Ok d /\ is_field d g o (fun _ => 0%R) /\
    (no_net_force g o bs (convection v) -> no_net_force g o bs forcing -> (forall m, In m accelerations -> no_net_force g o bs (m v)) ->
     forall i, momentum v' i = momentum v i).
Proof. exact (@modular_semi_implicit_lem). Qed.
Print Assumptions modular_semi_implicit.

(** C62. The same for modular_navier_stokes_model on top of its default solver, implicit diffusion, when the diffusion solver solves its equation with viscosity * dt >= 0. *)
Theorem modular_implicit : forall g o bs density viscosity dt diffusion_solve solve forcing convection accelerations v,
  (0 < gndim g)%nat -> length o = gndim g -> solves_poisson g o solve -> periodic_velocity g o bs v -> (0 <= dt * viscosity)%R ->
  (forall u, periodic_velocity g o bs u -> exists u', diffusion_solve u viscosity dt = Ok u' /\ Forall2 (implicitly_diffused (dt * viscosity)) u u') ->
  any_term g o bs (convection v) -> any_term g o bs forcing -> (forall m, In m accelerations -> any_term g o bs (m v)) ->
  exists v' d, modular_navier_stokes_model (fun convect f => implicit_diffusion_navier_stokes density viscosity dt convect diffusion_solve solve f) forcing convection accelerations v = Ok v' /\
    periodic_velocity g o bs v' /\ divergence v' = Ok d /\ is_field d g o (fun _ => 0%R) /\
    (no_net_force g o bs (convection v) -> no_net_force g o bs forcing -> (forall m, In m accelerations -> no_net_force g o bs (m v)) ->
     forall i, momentum v' i = momentum v i).
Proof. exact (@modular_implicit_lem). Qed.
Print Assumptions modular_implicit.

(** The hypotheses are met by a concrete case. *)
Example modular_semi_implicit_ex : forall tpu eigh,
  (0 < gndim p34g)%nat /\ length half2 = gndim p34g /\ explicit_tableau (mktab [[1 / 2]; [0; 1 / 2]; [0; 0; 1]] [1 / 6; 1 / 3; 1 / 3; 1 / 6])%R /\
  solves_poisson p34g half2 (fun v _ b => pressure_solve_fast_diag tpu eigh (1 / 1000) v (Some b) (Some Fft)) /\
  periodic_velocity p34g half2 p34bs p34v /\ any_term p34g half2 p34bs (self_advection nonsense_interp nonsense_interp 1) /\ no_net_force p34g half2 p34bs (self_advection nonsense_interp nonsense_interp 1) /\
  any_term p34g half2 p34bs push.
Proof. exact (@modular_semi_implicit_ex_lem). Qed.

(** The hypotheses are met by a concrete case. *)
Example modular_implicit_ex : forall tpu eigh,
  (0 < gndim p34g)%nat /\ length half2 = gndim p34g /\
  solves_poisson p34g half2 (fun v _ b => pressure_solve_fast_diag tpu eigh (1 / 1000) v (Some b) (Some Fft)) /\
  periodic_velocity p34g half2 p34bs p34v /\ (0 <= 1 * 3)%R /\
  (forall u, periodic_velocity p34g half2 p34bs u -> exists u', p34_ds tpu eigh u 3 1 = Ok u' /\ Forall2 (implicitly_diffused (1 * 3)) u u') /\
  any_term p34g half2 p34bs (self_advection nonsense_interp nonsense_interp 1) /\ no_net_force p34g half2 p34bs (self_advection nonsense_interp nonsense_interp 1) /\
  any_term p34g half2 p34bs push.
Proof. exact (@modular_implicit_ex_lem). Qed.

(** C62. learned_corrector, learned_corrector_v2 and learned_corrector_v3 around any base solver, with a flux_corrector_network as the corrector: for every network and every time step, whenever the base step returns a staggered periodic velocity, the corrected step returns one too, and the total of every component is exactly that of the base step: the learned correction cannot add or remove momentum. *)
Theorem learned_correctors_keep_momentum : forall g dt base tower pre v next, (0 < gndim g)%nat -> any_network g tower ->
  base v = Ok next -> periodic_velocity g (cell_center g) (repeat (periodic_bc (gndim g)) (gndim g)) next ->
  let keeps (r : result (list gvar)) := exists v', r = Ok v' /\ periodic_velocity g (cell_center g) (repeat (periodic_bc (gndim g)) (gndim g)) v' /\ forall i, momentum v' i = momentum next i in
  ((exists x c, pre next = Ok x /\ shp x = gshape g ++ [c]) -> keeps (learned_corrector base (flux_corrector_network g tower pre) v)) /\
  ((exists x c, pre v = Ok x /\ shp x = gshape g ++ [c]) -> keeps (learned_corrector_v2 dt base (flux_corrector_network g tower pre) v)) /\
  ((exists x c, pre (v ++ next) = Ok x /\ shp x = gshape g ++ [c]) -> keeps (learned_corrector_v3 dt base (flux_corrector_network g tower pre) v)).
Proof. exact (@learned_correctors_keep_momentum_lem). Qed.
Print Assumptions learned_correctors_keep_momentum.

(** The hypotheses are met by a concrete case. *)
Example learned_correctors_keep_momentum_ex : exists next, (0 < gndim p34g)%nat /\ any_network p34g (toy_tower p34g) /\
  (fun v : list gvar => Ok v) p34v = Ok next /\ periodic_velocity p34g (cell_center p34g) (repeat (periodic_bc (gndim p34g)) (gndim p34g)) next /\
  (exists x c, stack_aligned_field next = Ok x /\ shp x = gshape p34g ++ [c]) /\ (exists x c, stack_aligned_field (p34v ++ next) = Ok x /\ shp x = gshape p34g ++ [c]) /\ momentum next 0 = 4%R.
Proof. exact (@learned_correctors_keep_momentum_ex_lem). Qed.

(** C62. A learned corrector does not keep the velocity divergence-free: there is a network for which learned_corrector, applied with velocity_corrector_network to a base step that returns a velocity of zero divergence, returns a velocity whose divergence is not zero (no projection follows the correction). *)
Theorem learned_corrector_divergence_refuted : exists tower v d v' d',
  periodic_velocity p34g half2 [periodic_bc 2; periodic_bc 2] v /\ divergence v = Ok d /\ is_field d p34g half2 (fun _ => 0%R) /\
  any_network p34g tower /\ learned_corrector (fun v => Ok v) (velocity_corrector_network p34g tower) v = Ok v' /\
  divergence v' = Ok d' /\ get (gdata d') [0; 0] <> 0%R.
Proof. exact (@learned_corrector_divergence_refuted_lem). Qed.
Print Assumptions learned_corrector_divergence_refuted.
