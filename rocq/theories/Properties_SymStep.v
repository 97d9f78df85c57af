(** Generated by tools/gen.py from SymStepProps.v: property theorems only. *)
From Verif Require Import Prelude NdArr Grids_model Spec SpecLin SpecDiag SpecDiff LinAlg Cplx Boundaries_model BoundariesPeriodic FD_model LaplacianProps PRep FDProofs FDProps WallBC WallBCProps ImposeProps WallFD Pressure_model PressureProps WallFDProps ProjectionProps Interp_model InterpProofs InterpProps UpwindProps TvdProps Advection_model AdvectionProofs AdvectionProps FastDiag_model Laplacian_model PressureSolve_model PressureSolveProps Diffusion_model DiffusionProps ImplicitDiffusionProps QRProps TimeStep_model Equations_model SpecNS EquationsProps EquationsMoreProps LearnedProps SpecRollout RolloutProps SpecSym SymBase SymEx SymProps SymVelProps.
From Verif Require Import SymStepProps.
Local Open Scope Z_scope.
Set Implicit Arguments.

(** C64. Projection commutes with copying, whatever exact pressure solvers are used on either side: if v' is k times a translated, axis-relabelled copy of v (cells s times as wide), its projection is k times the copied projection of v. *)
Theorem projection_of_copies : forall g g' p s o o' bs bs' k solve solve' v v', copied_grid p s g g' -> (0 < s)%R -> (0 < gndim g)%nat -> copied_offset (gndim g) p o o' ->
  solves_poisson g o solve -> solves_poisson g' o' solve' ->
  periodic_velocity g o bs v -> periodic_velocity g' o' bs' v' -> copied_velocity (gndim g) p k v v' ->
  exists w w', projection solve v = Ok w /\ projection solve' v' = Ok w' /\ copied_velocity (gndim g) p k w w'.
Proof. exact (@projection_of_copies_lem). Qed.
Print Assumptions projection_of_copies.

(** C64. Dynamic similarity, isotropy and translation invariance of semi_implicit_navier_stokes, for any number of steps of any explicit Runge-Kutta tableau: take a velocity that is k > 0 times a translated, axis-relabelled copy of another on a grid with cells s > 0 times as wide, the time step s/k times as long, the kinematic viscosity k s times as large (same Reynolds number), convections and forcings that treat copies alike (the library's schemes do) and any exact pressure solvers; then both runs succeed and after every number of steps the velocities are still k times copies of each other. *)
Theorem semi_implicit_of_copies : forall steps t g g' p s o o' bs bs' k dt dt' rho rho' nu nu' convect convect' forcing forcing' solve solve' v v',
  explicit_tableau t -> copied_grid p s g g' -> (0 < s)%R -> (0 < gndim g)%nat -> copied_offset (gndim g) p o o' -> (0 < k)%R -> (dt' * k = dt * s)%R ->
  (nu <> None \/ forcing <> None -> rho <> 0%R /\ rho' <> 0%R) -> viscosities_in_ratio (k * s) rho rho' nu nu' ->
  treat_alike g g' o o' bs bs' p k (k * k / s) convect convect' -> optional_alike g g' o o' bs bs' p k (k * k / s * (rho' / rho)) forcing forcing' ->
  solves_poisson g o solve -> solves_poisson g' o' solve' ->
  periodic_velocity g o bs v -> periodic_velocity g' o' bs' v' -> copied_velocity (gndim g) p k v v' ->
  exists w w', iterate steps (semi_implicit_navier_stokes t rho nu dt convect diffuse solve forcing) v = Ok w /\
    iterate steps (semi_implicit_navier_stokes t rho' nu' dt' convect' diffuse solve' forcing') v' = Ok w' /\
    periodic_velocity g o bs w /\ periodic_velocity g' o' bs' w' /\ copied_velocity (gndim g) p k w w'.
Proof. exact (@semi_implicit_of_copies_lem). Qed.
Print Assumptions semi_implicit_of_copies.

(** The hypotheses are met by a concrete case. *)
Example projection_of_copies_ex : forall tpu eigh tpu' eigh', copied_grid swapped 2 p34g p43g /\ (0 < gndim p34g)%nat /\ copied_offset (gndim p34g) swapped half2 half2 /\
  solves_poisson p34g half2 (fun v _ b => pressure_solve_fast_diag tpu eigh (1 / 1000) v (Some b) (Some Fft)) /\
  solves_poisson p43g half2 (fun v _ b => pressure_solve_fast_diag tpu' eigh' (1 / 1000) v (Some b) (Some Fft)) /\
  periodic_velocity p34g half2 [periodic_bc 2; periodic_bc 2] p34v /\ periodic_velocity p43g half2 [periodic_bc 2; periodic_bc 2] p43v /\ copied_velocity (gndim p34g) swapped 3 p34v p43v.
Proof. exact (@projection_of_copies_ex_lem). Qed.

(** The hypotheses are met by a concrete case. *)
Example semi_implicit_of_copies_ex : forall tpu eigh, let pb := [periodic_bc 2; periodic_bc 2] in let dt := 6%R in let dt' := 4%R in
  explicit_tableau (mktab [[1 / 2]; [0; 1 / 2]; [0; 0; 1]] [1 / 6; 1 / 3; 1 / 3; 1 / 6])%R /\
  copied_grid swapped 2 p34g p43g /\ (0 < gndim p34g)%nat /\ copied_offset (gndim p34g) swapped half2 half2 /\ (dt' * 3 = dt * 2)%R /\
  viscosities_in_ratio (3 * 2) 3 2 (Some 1%R) (Some 4%R) /\
  treat_alike p34g p43g half2 half2 pb pb swapped 3 (3 * 3 / 2) (default_convect dt) (default_convect dt') /\
  optional_alike p34g p43g half2 half2 pb pb swapped 3 (3 * 3 / 2 * (2 / 3)) (Some tailwind) (Some tailwind) /\
  solves_poisson p34g half2 (fun v _ b => pressure_solve_fast_diag tpu eigh (1 / 1000) v (Some b) (Some Fft)) /\
  solves_poisson p43g half2 (fun v _ b => pressure_solve_fast_diag tpu eigh (1 / 1000) v (Some b) (Some Fft)) /\
  periodic_velocity p34g half2 pb p34v /\ periodic_velocity p43g half2 pb p43v /\ copied_velocity (gndim p34g) swapped 3 p34v p43v.
Proof. exact (@semi_implicit_of_copies_ex_lem). Qed.
