(** Generated by tools/gen.py from SymMoreProps.v: property theorems only. *)
From Verif Require Import Prelude NdArr Grids_model Spec SpecLin SpecDiag SpecDiff LinAlg Cplx Boundaries_model BoundariesPeriodic FD_model LaplacianProps PRep FDProofs FDProps WallBC WallBCProps ImposeProps WallFD Pressure_model PressureProps WallFDProps ProjectionProps Interp_model InterpProofs InterpProps UpwindProps TvdProps Advection_model AdvectionProofs AdvectionProps FastDiag_model Laplacian_model PressureSolve_model PressureSolveProps Diffusion_model DiffusionProps ImplicitDiffusionProps QRProps TimeStep_model Equations_model SpecNS EquationsProps EquationsMoreProps LearnedProps SpecRollout RolloutProps SpecSym SymBase SymEx SymProps SymVelProps SymStepProps.
From Verif Require Import SymMoreProps.
Local Open Scope Z_scope.
Set Implicit Arguments.

(** C64. The same for implicit_diffusion_navier_stokes (nonnegative dt * viscosity, viscosity k s times as large), with any exact diffusion and pressure solvers on either side: after every number of steps the two velocities are k times copies of each other. *)
Theorem implicit_diffusion_of_copies : forall steps g g' p s o o' bs bs' k dt dt' rho rho' nu nu' convect convect' forcing forcing' ds ds' solve solve' v v',
  copied_grid p s g g' -> (0 < s)%R -> (0 < gndim g)%nat -> copied_offset (gndim g) p o o' -> (0 < k)%R -> (dt' * k = dt * s)%R ->
  (forcing <> None -> rho <> 0%R /\ rho' <> 0%R) -> (nu' = k * s * nu)%R -> (0 <= dt * nu)%R ->
  treat_alike g g' o o' bs bs' p k (k * k / s) convect convect' -> optional_alike g g' o o' bs bs' p k (k * k / s * (rho' / rho)) forcing forcing' ->
  solves_poisson g o solve -> solves_poisson g' o' solve' ->
  (forall u, periodic_velocity g o bs u -> exists u', ds u nu dt = Ok u' /\ Forall2 (implicitly_diffused (dt * nu)) u u') ->
  (forall u, periodic_velocity g' o' bs' u -> exists u', ds' u nu' dt' = Ok u' /\ Forall2 (implicitly_diffused (dt' * nu')) u u') ->
  periodic_velocity g o bs v -> periodic_velocity g' o' bs' v' -> copied_velocity (gndim g) p k v v' ->
  exists w w', iterate steps (implicit_diffusion_navier_stokes rho nu dt convect ds solve forcing) v = Ok w /\
    iterate steps (implicit_diffusion_navier_stokes rho' nu' dt' convect' ds' solve' forcing') v' = Ok w' /\
    periodic_velocity g o bs w /\ periodic_velocity g' o' bs' w' /\ copied_velocity (gndim g) p k w w'.
Proof. exact (@implicit_diffusion_of_copies_lem). Qed.
Print Assumptions implicit_diffusion_of_copies.

(** C64. The velocity computed does not depend on the pressure solver: with two exact solvers of the Poisson problem, any number of steps of semi_implicit_navier_stokes (any explicit tableau, default convection, any forcing that depends on the values only) gives the same fields: same grid, offsets, boundary conditions and values. *)
Theorem solver_does_not_matter : forall steps t g o bs dt rho nu forcing solve solve' v,
  explicit_tableau t -> (0 < gndim g)%nat -> length o = gndim g -> (nu <> None \/ forcing <> None -> rho <> 0%R) ->
  optional_alike g g o o bs bs (translation (fun _ => 0)) 1 1 forcing forcing ->
  solves_poisson g o solve -> solves_poisson g o solve' -> periodic_velocity g o bs v ->
  exists w w', iterate steps (semi_implicit_navier_stokes t rho nu dt (default_convect dt) diffuse solve forcing) v = Ok w /\
    iterate steps (semi_implicit_navier_stokes t rho nu dt (default_convect dt) diffuse solve' forcing) v = Ok w' /\
    Forall2 (fun u u' => gbc u = gbc u' /\ same_field (garray u) (garray u')) w w'.
Proof. exact (@solver_does_not_matter_lem). Qed.
Print Assumptions solver_does_not_matter.

(** C64. Translation invariance: moving the initial velocity by any number of cells along every axis moves the solution of semi_implicit_navier_stokes (any explicit tableau, default convection, forcing that is itself translation invariant, any exact pressure solver) by the same, after every number of steps. *)
Theorem solution_moves_with_the_data : forall steps t g o bs dt rho nu forcing solve L v v',
  explicit_tableau t -> (0 < gndim g)%nat -> length o = gndim g -> (nu <> None \/ forcing <> None -> rho <> 0%R) ->
  optional_alike g g o o bs bs (translation L) 1 1 forcing forcing ->
  solves_poisson g o solve -> periodic_velocity g o bs v -> periodic_velocity g o bs v' ->
  (forall i ix, (i < gndim g)%nat -> length ix = gndim g -> vval v' i ix = vval v i (subix L ix)) ->
  exists w w', iterate steps (semi_implicit_navier_stokes t rho nu dt (default_convect dt) diffuse solve forcing) v = Ok w /\
    iterate steps (semi_implicit_navier_stokes t rho nu dt (default_convect dt) diffuse solve forcing) v' = Ok w' /\
    forall i ix, (i < gndim g)%nat -> length ix = gndim g -> vval w' i ix = vval w i (subix L ix).
Proof. exact (@solution_moves_with_the_data_lem). Qed.
Print Assumptions solution_moves_with_the_data.

(** The hypotheses are met by a concrete case. *)
Example implicit_diffusion_of_copies_ex : forall tpu eigh, let pb := [periodic_bc 2; periodic_bc 2] in let dt := 6%R in let dt' := 4%R in
  copied_grid swapped 2 p34g p43g /\ (0 < gndim p34g)%nat /\ copied_offset (gndim p34g) swapped half2 half2 /\ (dt' * 3 = dt * 2)%R /\
  (30 = 3 * 2 * 5)%R /\ (0 <= dt * 5)%R /\
  treat_alike p34g p43g half2 half2 pb pb swapped 3 (3 * 3 / 2) (default_convect dt) (default_convect dt') /\
  optional_alike p34g p43g half2 half2 pb pb swapped 3 (3 * 3 / 2 * (2 / 3)) (Some tailwind) (Some tailwind) /\
  solves_poisson p34g half2 (fun v _ b => pressure_solve_fast_diag tpu eigh (1 / 1000) v (Some b) (Some Fft)) /\
  solves_poisson p43g half2 (fun v _ b => pressure_solve_fast_diag tpu eigh (1 / 1000) v (Some b) (Some Fft)) /\
  (forall u, periodic_velocity p34g half2 pb u -> exists u', p34_ds tpu eigh u 5 dt = Ok u' /\ Forall2 (implicitly_diffused (dt * 5)) u u') /\
  (forall u, periodic_velocity p43g half2 pb u -> exists u', p34_ds tpu eigh u 30 dt' = Ok u' /\ Forall2 (implicitly_diffused (dt' * 30)) u u') /\
  periodic_velocity p34g half2 pb p34v /\ periodic_velocity p43g half2 pb p43v /\ copied_velocity (gndim p34g) swapped 3 p34v p43v.
Proof. exact (@implicit_diffusion_of_copies_ex_lem). Qed.

(** The hypotheses are met by a concrete case. *)
Example solver_does_not_matter_ex : forall tpu eigh cutoff, (0 <= cutoff <= 1 / 1000)%R -> let pb := [periodic_bc 2; periodic_bc 2] in
  (0 < gndim p34g)%nat /\ length half2 = gndim p34g /\
  optional_alike p34g p34g half2 half2 pb pb (translation (fun _ => 0)) 1 1 (Some tailwind) (Some tailwind) /\
  solves_poisson p34g half2 (fun v _ b => pressure_solve_fast_diag tpu eigh (1 / 1000) v (Some b) (Some Fft)) /\
  solves_poisson p34g half2 (fun v _ b => pressure_solve_fast_diag tpu eigh cutoff v (Some b) (Some Fft)) /\
  periodic_velocity p34g half2 pb p34v.
Proof. exact (@solver_does_not_matter_ex_lem). Qed.

(** The hypotheses are met by a concrete case. *)
Example solution_moves_with_the_data_ex : forall tpu eigh, let pb := [periodic_bc 2; periodic_bc 2] in
  optional_alike p34g p34g half2 half2 pb pb (translation (fun _ => 1)) 1 1 (Some tailwind) (Some tailwind) /\
  solves_poisson p34g half2 (fun v _ b => pressure_solve_fast_diag tpu eigh (1 / 1000) v (Some b) (Some Fft)) /\
  periodic_velocity p34g half2 pb p34v /\ periodic_velocity p34g half2 pb p34moved /\
  (forall i ix, (i < gndim p34g)%nat -> length ix = gndim p34g -> vval p34moved i ix = vval p34v i (subix (fun _ => 1) ix)).
Proof. exact (@solution_moves_with_the_data_ex_lem). Qed.
