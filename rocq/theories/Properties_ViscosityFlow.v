(** Generated by tools/gen.py from ViscosityFlowProps.v: property theorems only. *)
From Verif Require Import Prelude NdArr Grids_model Spec Boundaries_model FD_model PRep FDProofs FDProps Pressure_model Interp_model InterpProofs InterpProps Advection_model AdvectionProps Diffusion_model TilingProofs PressureProps FastDiag_model PressureSolve_model PressureSolveProps TimeStep_model Equations_model SpecNS EquationsProps EquationsMoreProps Forcings_model Subgrid_model SpecSub SubgridProps SubgridMoreProps ArrayUtilsProps SpecML Networks_model LearnedProps Viscosities_model SpecVisc ViscosityProps.
From Verif Require Import ViscosityFlowProps.
Local Open Scope Z_scope.
Set Implicit Arguments.

(** C68. eddy_viscosity_model around any of the three learned viscosities, for every network, viscosity scale and order of offsets: it is a legitimate term of the equation (one field per component at that component's points) for every staggered periodic velocity, it exerts no net force, and, when the scale is nonnegative and the network's outputs are, it never does positive work on the flow. *)
Theorem learned_eddy_viscosity : forall g o bs unique tower specs_viscosity scale model, (0 < gndim g)%nat -> length o = gndim g -> lists_distinct unique -> any_network g tower ->
  In model [learned_scalar_viscosity g linear_fn unique tower; learned_scalar_viscosity_from_gradients g linear_fn unique tower; learned_tensor_viscosity g unique tower] ->
  any_term g o bs (eddy_viscosity_model specs_viscosity scale model) /\
  no_net_force g o bs (eddy_viscosity_model specs_viscosity scale model) /\
  ((0 <= match scale with Some s => s | None => specs_viscosity end)%R -> nonnegative_outputs tower -> takes_energy g o bs (eddy_viscosity_model specs_viscosity scale model)).
Proof. exact (@learned_eddy_viscosity_lem). Qed.
Print Assumptions learned_eddy_viscosity.

(** C68. implicit_evm_solve_with_diffusion with any eddy-viscosity term that exerts no net force, for every viscosity and time step: whenever the inner solver returns a solution v' of v' - dt * (acceleration(v') + viscosity * laplacian(v')) = v, the result keeps grid, offsets and boundary conditions and the total of every component; and if viscosity and time step are nonnegative and the term never does positive work, the kinetic energy does not grow. *)
Theorem implicit_evm_solve : forall cg g o b model nu dt v x y, (0 < gndim g)%nat -> length o = gndim g -> periodic_velocity g o (repeat b (gndim g)) v ->
  any_term g o (repeat b (gndim g)) model -> no_net_force g o (repeat b (gndim g)) model ->
  cg (evm_linear_op b nu dt model) (map garray v) = Ok x -> (exists X, fields_at g v x X) -> evm_linear_op b nu dt model x = Ok y -> fields_at g v y (vval v) ->
  exists v', implicit_evm_solve_with_diffusion cg model v nu dt = Ok v' /\ periodic_velocity g o (repeat b (gndim g)) v' /\ (forall i, momentum v' i = momentum v i) /\
    ((0 <= nu)%R -> (0 <= dt)%R -> takes_energy g o (repeat b (gndim g)) model -> (kinetic g (vval v') <= kinetic g (vval v))%R).
Proof. exact (@implicit_evm_solve_lem). Qed.
Print Assumptions implicit_evm_solve.

(** C68. The implicit solve of ml/diffusions with a learned eddy viscosity: momentum is kept for every network; energy does not grow when the network's outputs, the viscosity and the time step are nonnegative. *)
Theorem implicit_learned_viscosity : forall cg g o b unique tower specs_viscosity model nu dt v x y,
  (0 < gndim g)%nat -> length o = gndim g -> periodic_velocity g o (repeat b (gndim g)) v -> lists_distinct unique -> any_network g tower ->
  In model [learned_scalar_viscosity g linear_fn unique tower; learned_scalar_viscosity_from_gradients g linear_fn unique tower; learned_tensor_viscosity g unique tower] ->
  cg (evm_linear_op b nu dt (eddy_viscosity_model specs_viscosity None model)) (map garray v) = Ok x -> (exists X, fields_at g v x X) ->
  evm_linear_op b nu dt (eddy_viscosity_model specs_viscosity None model) x = Ok y -> fields_at g v y (vval v) ->
  exists v', ml_implicit_evm_solve_with_diffusion cg specs_viscosity model v nu dt = Ok v' /\ periodic_velocity g o (repeat b (gndim g)) v' /\ (forall i, momentum v' i = momentum v i) /\
    ((0 <= nu)%R -> (0 <= dt)%R -> (0 <= specs_viscosity)%R -> nonnegative_outputs tower -> (kinetic g (vval v') <= kinetic g (vval v))%R).
Proof. exact (@implicit_learned_viscosity_lem). Qed.
Print Assumptions implicit_learned_viscosity.

(** C68. A whole step of modular_navier_stokes_model with a learned eddy viscosity as its acceleration module, on the semi-implicit solver with any tableau, any learned convection and forcing, and a pressure module that solves its equation: the step succeeds, the result is divergence-free in every cell, and if convection and forcing exert no net force the total of every component is conserved, for every network. *)
Theorem modular_learned_viscosity : forall t g o bs density viscosity dt solve forcing convection unique tower specs_viscosity scale model v,
  (0 < gndim g)%nat -> length o = gndim g -> explicit_tableau t -> (viscosity <> None -> density <> 0%R) -> solves_poisson g o solve -> periodic_velocity g o bs v ->
  any_term g o bs (convection v) -> any_term g o bs forcing -> lists_distinct unique -> any_network g tower ->
  In model [learned_scalar_viscosity g linear_fn unique tower; learned_scalar_viscosity_from_gradients g linear_fn unique tower; learned_tensor_viscosity g unique tower] ->
  exists v' d, modular_navier_stokes_model (fun convect f => semi_implicit_navier_stokes t density viscosity dt convect diffuse solve f) forcing convection
                 [fun _ => eddy_viscosity_model specs_viscosity scale model] v = Ok v' /\
    periodic_velocity g o bs v' /\ divergence v' = Ok d /\ is_field d g o (fun _ => 0%R) /\
    (no_net_force g o bs (convection v) -> no_net_force g o bs forcing -> forall i, momentum v' i = momentum v i).
Proof. exact (@modular_learned_viscosity_lem). Qed.
Print Assumptions modular_learned_viscosity.

(** The hypotheses are met by a concrete case. *)
Example learned_eddy_viscosity_ex : (0 < gndim p34g)%nat /\ length half2 = gndim p34g /\ lists_distinct dedup /\ any_network p34g (square_net p34g) /\ nonnegative_outputs (square_net p34g) /\
  periodic_velocity p34g half2 (repeat (periodic_bc 2) (gndim p34g)) p34v /\
  forall model, In model [learned_scalar_viscosity p34g linear_fn dedup (square_net p34g); learned_scalar_viscosity_from_gradients p34g linear_fn dedup (square_net p34g); learned_tensor_viscosity p34g dedup (square_net p34g)] ->
  exists l, eddy_viscosity_model 1 None model p34v = Ok l /\ (work p34g p34v l <= 0)%R.
Proof. exact (@learned_eddy_viscosity_ex_lem). Qed.

(** The hypotheses are met by a concrete case. *)
Example implicit_learned_viscosity_ex : exists cg v x y,
  (0 < gndim p34g)%nat /\ length half2 = gndim p34g /\ periodic_velocity p34g half2 (repeat (periodic_bc 2) (gndim p34g)) v /\ lists_distinct dedup /\ any_network p34g (square_net p34g) /\ nonnegative_outputs (square_net p34g) /\
  cg (evm_linear_op (periodic_bc 2) 1 1 (eddy_viscosity_model 1 None (learned_tensor_viscosity p34g dedup (square_net p34g)))) (map garray v) = Ok x /\ (exists X, fields_at p34g v x X) /\
  evm_linear_op (periodic_bc 2) 1 1 (eddy_viscosity_model 1 None (learned_tensor_viscosity p34g dedup (square_net p34g))) x = Ok y /\ fields_at p34g v y (vval v) /\ x = map garray p34v.
Proof. exact (@implicit_learned_viscosity_ex_lem). Qed.

(** The hypotheses are met by a concrete case. *)
Example implicit_evm_solve_ex : exists cg v x y model,
  periodic_velocity p34g half2 (repeat (periodic_bc 2) (gndim p34g)) v /\ any_term p34g half2 (repeat (periodic_bc 2) (gndim p34g)) model /\ no_net_force p34g half2 (repeat (periodic_bc 2) (gndim p34g)) model /\
  takes_energy p34g half2 (repeat (periodic_bc 2) (gndim p34g)) model /\
  cg (evm_linear_op (periodic_bc 2) 1 1 model) (map garray v) = Ok x /\ (exists X, fields_at p34g v x X) /\ evm_linear_op (periodic_bc 2) 1 1 model x = Ok y /\ fields_at p34g v y (vval v).
Proof. exact (@implicit_evm_solve_ex_lem). Qed.

(** The hypotheses are met by a concrete case. *)
Example modular_learned_viscosity_ex : forall tpu eigh,
  (0 < gndim p34g)%nat /\ length half2 = gndim p34g /\ explicit_tableau (mktab [[1 / 2]; [0; 1 / 2]; [0; 0; 1]] [1 / 6; 1 / 3; 1 / 3; 1 / 6])%R /\
  solves_poisson p34g half2 (fun v _ b => pressure_solve_fast_diag tpu eigh (1 / 1000) v (Some b) (Some Fft)) /\ periodic_velocity p34g half2 (repeat (periodic_bc 2) (gndim p34g)) p34v /\
  any_term p34g half2 (repeat (periodic_bc 2) (gndim p34g)) push /\ lists_distinct dedup /\ any_network p34g (square_net p34g).
Proof. exact (@modular_learned_viscosity_ex_lem). Qed.
