(** Generated by tools/gen.py from EquationsProps.v: property theorems only. *)
From Verif Require Import Prelude NdArr Grids_model Spec SpecLin SpecDiag SpecDiff LinAlg Cplx Boundaries_model BoundariesPeriodic FD_model LaplacianProps PRep FDProofs FDProps WallBC WallBCProps ImposeProps WallFD Pressure_model PressureProps WallFDProps ProjectionProps Interp_model InterpProofs InterpProps UpwindProps TvdProps Advection_model AdvectionProofs AdvectionProps FastDiag_model Laplacian_model PressureSolve_model PressureSolveProps Diffusion_model DiffusionProps TimeStep_model Equations_model SpecNS.
From Verif Require Import EquationsProps.
Local Open Scope Z_scope.
Set Implicit Arguments.

(** C49. The explicit terms of Navier-Stokes are, for each component and at its offset, convection + (if a viscosity is given) diffusion with coefficient viscosity/density + (if there is a forcing) force/density, with the component's boundary conditions, for any convection, diffusion and forcing functions that return one field per component. *)
Theorem explicit_terms_combination : forall g density viscosity convect diffuse forcing v lc C D Fo,
  (forall u, In u v -> length (btypes (gbc u)) = gndim g) ->
  (viscosity <> None -> density <> 0%R) ->
  convect v = Ok lc -> fields_at g v lc C ->
  (forall nu i u, viscosity = Some nu -> nth_error v i = Some u -> exists w, diffuse u (nu / density)%R = Ok w /\ is_field w g (goff (garray u)) (D i)) ->
  (forall f, forcing = Some f -> exists lf, f v = Ok lf /\ fields_at g v lf Fo) ->
  exists l, navier_stokes_explicit_terms density viscosity convect diffuse forcing v = Ok l /\ map gbc l = map gbc v /\
    fields_at g v (map garray l) (fun i ix =>
      C i ix + match viscosity with Some _ => D i ix | None => 0 end + match forcing with Some _ => Fo i ix / density | None => 0 end)%R.
Proof. exact (@explicit_terms_combination_lem). Qed.
Print Assumptions explicit_terms_combination.

(** C49. With the default convection (van Leer) and diffusion, the explicit terms of a staggered periodic velocity always exist, keep grid, offsets and boundary conditions, and the total of each component is the total of the force divided by the density (zero without forcing): convection and diffusion do not create momentum. *)
Theorem explicit_terms_momentum : forall g o bs density viscosity forcing dt v,
  (0 < gndim g)%nat -> length o = gndim g -> periodic_velocity g o bs v -> (viscosity <> None -> density <> 0%R) ->
  (forall f, forcing = Some f -> exists lf Fo, f v = Ok lf /\ fields_at g v lf Fo) ->
  exists l, navier_stokes_explicit_terms density viscosity (default_convect dt) diffuse forcing v = Ok l /\ periodic_velocity g o bs l /\
    (forall i, (i < gndim g)%nat -> forcing = None -> momentum l i = 0%R) /\
    (forall i f lf w, forcing = Some f -> f v = Ok lf -> nth_error lf i = Some w -> momentum l i = (total (gdata w) / density)%R).
Proof. exact (@explicit_terms_momentum_lem). Qed.
Print Assumptions explicit_terms_momentum.

(** C49. A force with the wrong number of components, or one of whose components is at another offset or on another grid than the acceleration it is added to, is rejected with ValueError instead of being added. *)
Theorem misplaced_force_rejected : forall density convect diffuse f v lc lf,
  convect v = Ok lc -> f v = Ok lf ->
  (length lf <> length lc \/ exists i c w, nth_error lc i = Some c /\ nth_error lf i = Some w /\ (~ off_eq (goff c) (goff w) \/ ggrid c <> ggrid w)) ->
  navier_stokes_explicit_terms density None convect diffuse (Some f) v = Err EValue.
Proof. exact (@misplaced_force_rejected_lem). Qed.
Print Assumptions misplaced_force_rejected.

(** C49. One step of semi_implicit_navier_stokes without forcing, for every explicit Runge-Kutta tableau (forward Euler, midpoint, Heun, RK4, ...), viscosity, density and time step: whatever fields the pressure solver returns, the step succeeds on every staggered periodic velocity, keeps grid, offsets and boundary conditions, and conserves the total of every velocity component. *)
Theorem semi_implicit_conserves_momentum : forall t g o bs density viscosity dt solve v,
  (0 < gndim g)%nat -> length o = gndim g -> explicit_tableau t -> (viscosity <> None -> density <> 0%R) ->
  pressure_solver g o solve -> periodic_velocity g o bs v ->
  exists v', semi_implicit_navier_stokes t density viscosity dt (default_convect dt) diffuse solve None v = Ok v' /\
    periodic_velocity g o bs v' /\ forall i, momentum v' i = momentum v i.
Proof. exact (@semi_implicit_conserves_momentum_lem). Qed.
Print Assumptions semi_implicit_conserves_momentum.

(** C49. One step of semi_implicit_navier_stokes, for every explicit Runge-Kutta tableau, viscosity, density, time step and forcing that returns one field per component: if the pressure solver solves its Poisson equation, the step succeeds and the new velocity has zero divergence in every cell, whatever the divergence of the old one. *)
Theorem semi_implicit_divergence_free : forall t g o bs density viscosity dt solve forcing v,
  (0 < gndim g)%nat -> length o = gndim g -> explicit_tableau t -> (viscosity <> None -> density <> 0%R) ->
  solves_poisson g o solve -> periodic_velocity g o bs v ->
  (forall f w, forcing = Some f -> periodic_velocity g o bs w -> exists lf Fo, f w = Ok lf /\ fields_at g w lf Fo) ->
  exists v' d, semi_implicit_navier_stokes t density viscosity dt (default_convect dt) diffuse solve forcing v = Ok v' /\
    periodic_velocity g o bs v' /\ divergence v' = Ok d /\ is_field d g o (fun _ => 0%R).
Proof. exact (@semi_implicit_divergence_free_lem). Qed.
Print Assumptions semi_implicit_divergence_free.

(** C49. solve_fast_diag, the default pressure solver, is a solver of the Poisson equation for staggered periodic velocities in any dimension (at least 3 cells per axis, cutoff small against the squared axis lengths, usable implementation): it returns a cell-centred field whose laplacian is exactly the divergence of the velocity. *)
Theorem default_pressure_solver : forall tpu eigh cutoff imp g,
  (0 < gndim g)%nat -> wfg g -> (0 <= cutoff)%R ->
  (forall a, (a < gndim g)%nat -> (3 <= nth a (gshape g) 0)%nat /\ (cutoff * (INR (nth a (gshape g) 0%nat) * hstep g a) ^ 2 < 2)%R) ->
  (forall b Ls, perbc g b -> laplacian_matrix_w_boundaries g (repeat (1 # 2)%Q (gndim g)) b = Ok Ls -> implementation_ready eigh Ls true imp) ->
  solves_poisson g (repeat (1 # 2)%Q (gndim g)) (fun v _ b => pressure_solve_fast_diag tpu eigh cutoff v (Some b) imp).
Proof. exact (@default_pressure_solver_lem). Qed.
Print Assumptions default_pressure_solver.

(** The hypotheses are met by a concrete case. *)
Example explicit_terms_combination_ex : exists lc C D lf Fo,
  (forall u, In u p34v -> length (btypes (gbc u)) = gndim p34g) /\ (Some 3%R <> None -> 2 <> 0)%R /\
  default_convect 1 p34v = Ok lc /\ fields_at p34g p34v lc C /\
  (forall nu i u, Some 3%R = Some nu -> nth_error p34v i = Some u -> exists w, diffuse u (nu / 2)%R = Ok w /\ is_field w p34g (goff (garray u)) (D i)) /\
  push p34v = Ok lf /\ fields_at p34g p34v lf Fo.
Proof. exact (@explicit_terms_combination_ex_lem). Qed.

(** The hypotheses are met by a concrete case. *)
Example explicit_terms_momentum_ex : exists lf Fo,
  (0 < gndim p34g)%nat /\ length half2 = gndim p34g /\ periodic_velocity p34g half2 [periodic_bc 2; periodic_bc 2] p34v /\ (Some 3%R <> None -> 2 <> 0)%R /\
  push p34v = Ok lf /\ fields_at p34g p34v lf Fo /\ momentum p34v 0 = 4%R /\ momentum p34v 1 = 9%R.
Proof. exact (@explicit_terms_momentum_ex_lem). Qed.

(** The hypotheses are met by a concrete case. *)
Example misplaced_force_rejected_ex : exists lc,
  default_convect 1 p34v = Ok lc /\
  (fun _ : list gvar => Ok [mkga (afull [3%nat; 4%nat] 1%R) half2 p34g; mkga (afull [3%nat; 4%nat] 1%R) half2 p34g]) p34v = Ok [mkga (afull [3%nat; 4%nat] 1%R) half2 p34g; mkga (afull [3%nat; 4%nat] 1%R) half2 p34g] /\
  exists i c w, nth_error lc i = Some c /\ nth_error [mkga (afull [3%nat; 4%nat] 1%R) half2 p34g; mkga (afull [3%nat; 4%nat] 1%R) half2 p34g] i = Some w /\ ~ off_eq (goff c) (goff w).
Proof. exact (@misplaced_force_rejected_ex_lem). Qed.

(** The hypotheses are met by a concrete case. *)
Example semi_implicit_conserves_momentum_ex : forall tpu eigh,
  (0 < gndim p34g)%nat /\ length half2 = gndim p34g /\ explicit_tableau (mktab [[1 / 2]; [0; 1 / 2]; [0; 0; 1]] [1 / 6; 1 / 3; 1 / 3; 1 / 6])%R /\
  pressure_solver p34g half2 (fun v _ b => pressure_solve_fast_diag tpu eigh (1 / 1000) v (Some b) (Some Fft)) /\
  periodic_velocity p34g half2 [periodic_bc 2; periodic_bc 2] p34v.
Proof. exact (@semi_implicit_conserves_momentum_ex_lem). Qed.

(** The hypotheses are met by a concrete case. *)
Example semi_implicit_divergence_free_ex : forall tpu eigh,
  (0 < gndim p34g)%nat /\ length half2 = gndim p34g /\ explicit_tableau (mktab [[1 / 2]; [0; 1 / 2]; [0; 0; 1]] [1 / 6; 1 / 3; 1 / 3; 1 / 6])%R /\
  solves_poisson p34g half2 (fun v _ b => pressure_solve_fast_diag tpu eigh (1 / 1000) v (Some b) (Some Fft)) /\
  periodic_velocity p34g half2 [periodic_bc 2; periodic_bc 2] p34v /\
  (forall f w, Some push = Some f -> periodic_velocity p34g half2 [periodic_bc 2; periodic_bc 2] w -> exists lf Fo, f w = Ok lf /\ fields_at p34g w lf Fo) /\
  exists d, divergence p34v = Ok d /\ get (gdata d) [0; 0] = 1%R.
Proof. exact (@semi_implicit_divergence_free_ex_lem). Qed.

(** The hypotheses are met by a concrete case. *)
Example default_pressure_solver_ex : forall eigh,
  (0 < gndim p34g)%nat /\ wfg p34g /\ (0 <= 1 / 1000)%R /\
  (forall a, (a < gndim p34g)%nat -> (3 <= nth a (gshape p34g) 0)%nat /\ (1 / 1000 * (INR (nth a (gshape p34g) 0%nat) * hstep p34g a) ^ 2 < 2)%R) /\
  (forall b Ls, perbc p34g b -> laplacian_matrix_w_boundaries p34g (repeat (1 # 2)%Q (gndim p34g)) b = Ok Ls -> implementation_ready eigh Ls true (Some Fft)).
Proof. exact (@default_pressure_solver_ex_lem). Qed.
