(** Generated by tools/gen.py from SymVelProps.v: property theorems only. *)
From Verif Require Import Prelude NdArr Grids_model Spec SpecLin SpecDiag SpecDiff LinAlg Cplx Boundaries_model BoundariesPeriodic FD_model LaplacianProps PRep FDProofs FDProps WallBC WallBCProps ImposeProps WallFD Pressure_model PressureProps WallFDProps ProjectionProps Interp_model InterpProofs InterpProps UpwindProps TvdProps Advection_model AdvectionProofs AdvectionProps FastDiag_model Laplacian_model PressureSolve_model PressureSolveProps Diffusion_model DiffusionProps ImplicitDiffusionProps QRProps TimeStep_model Equations_model SpecNS EquationsProps EquationsMoreProps LearnedProps SpecRollout SpecSym SymBase SymEx SymProps.
From Verif Require Import SymVelProps.
Local Open Scope Z_scope.
Set Implicit Arguments.

(** C64. Convection of a velocity by itself treats copies alike: if one velocity is k times a translated, axis-relabelled copy of another on a grid with cells s times as wide (and the time step is s/k times the other's), the convection of one is k^2/s times the copied convection of the other, for linear, upwind and flux-limited convection (any limiter); the default convection of the Navier-Stokes solvers is the last with van Leer's limiter. *)
Theorem convection_treats_copies_alike : forall g g' o o' bs bs' p s k dt dt', copied_grid p s g g' -> (0 < s)%R -> (0 < gndim g)%nat -> copied_offset (gndim g) p o o' ->
  (0 < k)%R -> (dt' * k = dt * s)%R ->
  treat_alike g g' o o' bs bs' p k (k * k / s) (fun v => mapM (fun u => advect_linear u v dt) v) (fun v => mapM (fun u => advect_linear u v dt') v) /\
  treat_alike g g' o o' bs bs' p k (k * k / s) (fun v => mapM (fun u => advect_upwind u v dt) v) (fun v => mapM (fun u => advect_upwind u v dt') v) /\
  (forall phi, treat_alike g g' o o' bs bs' p k (k * k / s)
     (fun v => mapM (fun u => advect_general u v linear_fn (apply_tvd_limiter lax_wendroff phi) dt) v)
     (fun v => mapM (fun u => advect_general u v linear_fn (apply_tvd_limiter lax_wendroff phi) dt') v)) /\
  treat_alike g g' o o' bs bs' p k (k * k / s) (default_convect dt) (default_convect dt').
Proof. exact (@convection_treats_copies_alike_lem). Qed.
Print Assumptions convection_treats_copies_alike.

(** The hypotheses are met by a concrete case. *)
Example convection_treats_copies_alike_ex : copied_grid swapped 2 p34g p43g /\ (0 < gndim p34g)%nat /\ copied_offset (gndim p34g) swapped half2 half2 /\ (4 * 3 = 6 * 2)%R /\
  periodic_velocity p34g half2 [periodic_bc 2; periodic_bc 2] p34v /\ periodic_velocity p43g half2 [periodic_bc 2; periodic_bc 2] p43v /\ copied_velocity (gndim p34g) swapped 3 p34v p43v.
Proof. exact (@convection_treats_copies_alike_ex_lem). Qed.
