(** Generated by tools/gen.py from ReflectStepProps.v: property theorems only. *)
From Verif Require Import Prelude NdArr Grids_model Spec SpecLin SpecDiag SpecDiff LinAlg Cplx Boundaries_model BoundariesPeriodic FD_model LaplacianProps PRep FDProofs FDProps WallBC WallBCProps ImposeProps WallFD Pressure_model PressureProps WallFDProps ProjectionProps Interp_model InterpProofs InterpProps UpwindProps TvdProps Advection_model AdvectionProofs AdvectionProps FastDiag_model Laplacian_model PressureSolve_model PressureSolveProps Diffusion_model DiffusionProps ImplicitDiffusionProps QRProps TimeStep_model Equations_model SpecNS EquationsProps EquationsMoreProps LearnedProps SpecRollout SpecSym SymBase SymEx SymProps SymVelProps SymStepProps SymMoreProps SpecReflect ReflectBase ReflectProps.
From Verif Require Import ReflectStepProps.
Local Open Scope Z_scope.
Set Implicit Arguments.

(** C77. Projection commutes with mirrors, whatever exact pressure solvers are used on the two sides: the projection of the mirror image of a velocity is the mirror image of its projection. *)
Theorem projection_of_mirror_images : forall g a k o bs solve solve' v v', (a < gndim g)%nat -> length o = gndim g -> solves_poisson g o solve -> solves_poisson g o solve' ->
  periodic_velocity g o bs v -> periodic_velocity g o bs v' -> mirrored_velocity (gndim g) a k v v' ->
  exists w w', projection solve v = Ok w /\ projection solve' v' = Ok w' /\ mirrored_velocity (gndim g) a k w w'.
Proof. exact (@projection_of_mirror_images_lem). Qed.
Print Assumptions projection_of_mirror_images.

(** C77. Convection of a velocity by itself commutes with mirrors: the convection of the mirror image is the mirror image of the convection, for linear, upwind and flux-limited convection with any limiter, and for the default convection of the Navier-Stokes solvers. *)
Theorem convection_of_mirror_images : forall g a k o bs dt, (a < gndim g)%nat -> length o = gndim g ->
  mirror_alike g o bs a k (fun v => mapM (fun u => advect_linear u v dt) v) (fun v => mapM (fun u => advect_linear u v dt) v) /\
  mirror_alike g o bs a k (fun v => mapM (fun u => advect_upwind u v dt) v) (fun v => mapM (fun u => advect_upwind u v dt) v) /\
  (forall phi, mirror_alike g o bs a k (fun v => mapM (fun u => advect_general u v linear_fn (apply_tvd_limiter lax_wendroff phi) dt) v)
     (fun v => mapM (fun u => advect_general u v linear_fn (apply_tvd_limiter lax_wendroff phi) dt) v)) /\
  mirror_alike g o bs a k (default_convect dt) (default_convect dt).
Proof. exact (@convection_of_mirror_images_lem). Qed.
Print Assumptions convection_of_mirror_images.

(** The hypotheses are met by a concrete case. *)
Example projection_of_mirror_images_ex : forall tpu eigh tpu' eigh', (0 < gndim p34g)%nat /\ length half2 = gndim p34g /\
  solves_poisson p34g half2 (fun v _ b => pressure_solve_fast_diag tpu eigh (1 / 1000) v (Some b) (Some Fft)) /\
  solves_poisson p34g half2 (fun v _ b => pressure_solve_fast_diag tpu' eigh' (1 / 1000) v (Some b) (Some Fft)) /\
  periodic_velocity p34g half2 [periodic_bc 2; periodic_bc 2] p34v /\ periodic_velocity p34g half2 [periodic_bc 2; periodic_bc 2] p34mirror /\ mirrored_velocity (gndim p34g) 0 2 p34v p34mirror.
Proof. exact (@projection_of_mirror_images_ex_lem). Qed.

(** The hypotheses are met by a concrete case. *)
Example convection_of_mirror_images_ex : (0 < gndim p34g)%nat /\ length half2 = gndim p34g /\
  periodic_velocity p34g half2 [periodic_bc 2; periodic_bc 2] p34v /\ periodic_velocity p34g half2 [periodic_bc 2; periodic_bc 2] p34mirror /\ mirrored_velocity (gndim p34g) 0 2 p34v p34mirror.
Proof. exact (@convection_of_mirror_images_ex_lem). Qed.
