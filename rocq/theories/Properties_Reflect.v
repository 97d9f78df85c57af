(** Generated by tools/gen.py from ReflectProps.v: property theorems only. *)
From Verif Require Import Prelude NdArr Grids_model Spec SpecLin SpecDiag SpecDiff LinAlg Cplx Boundaries_model BoundariesPeriodic FD_model LaplacianProps PRep FDProofs FDProps WallBC WallBCProps ImposeProps WallFD Pressure_model PressureProps WallFDProps ProjectionProps Interp_model InterpProofs InterpProps UpwindProps TvdProps Advection_model AdvectionProofs AdvectionProps FastDiag_model Laplacian_model PressureSolve_model PressureSolveProps Diffusion_model DiffusionProps ImplicitDiffusionProps QRProps TimeStep_model Equations_model SpecNS EquationsProps EquationsMoreProps LearnedProps SpecRollout SpecSym SymBase SymEx SymProps SymVelProps SymStepProps SymMoreProps SpecReflect ReflectBase.
From Verif Require Import ReflectProps.
Local Open Scope Z_scope.
Set Implicit Arguments.

(** C77. Advection commutes with mirrors: if a scalar kept at the centres along the mirror's axis and the velocity advecting it are both replaced by their mirror images (the velocity component across the mirror also changes sign), the tendency of the scalar is replaced by its mirror image, at every cell, for linear and upwind advection and for flux-limited advection with any limiter: there is no preferred direction in the schemes. *)
Theorem advection_of_mirror_images : forall g a k o c c' v v' dt, (a < gndim g)%nat -> length o = gndim g -> periodic_field c -> periodic_field c' -> ggrid (garray c) = g -> ggrid (garray c') = g ->
  off_eq (goff (garray c)) (goff (garray c')) -> (nth a (goff (garray c)) 0 == nth a o 0)%Q ->
  periodic_vec g v -> periodic_vec g v' -> homogeneous_vec v -> homogeneous_vec v' -> face_aligned o v -> face_aligned o v' ->
  mirrored_values (gndim g) a k (pval (garray c)) (pval (garray c')) -> mirrored_velocity (gndim g) a k v v' ->
  (exists w w', advect_linear c v dt = Ok w /\ advect_linear c' v' dt = Ok w' /\ mirrored_values (gndim g) a k (pval w) (pval w')) /\
  (exists w w', advect_upwind c v dt = Ok w /\ advect_upwind c' v' dt = Ok w' /\ mirrored_values (gndim g) a k (pval w) (pval w')) /\
  (forall phi, exists w w', advect_general c v linear_fn (apply_tvd_limiter lax_wendroff phi) dt = Ok w /\
     advect_general c' v' linear_fn (apply_tvd_limiter lax_wendroff phi) dt = Ok w' /\ mirrored_values (gndim g) a k (pval w) (pval w')).
Proof. exact (@advection_of_mirror_images_lem). Qed.
Print Assumptions advection_of_mirror_images.

(** The hypotheses are met by a concrete case. *)
Example advection_of_mirror_images_ex : (0 < gndim p34g)%nat /\ length half2 = gndim p34g /\
  periodic_field (nth 1 p34v dgv) /\ periodic_field (nth 1 p34mirror dgv) /\ off_eq (goff (garray (nth 1 p34v dgv))) (goff (garray (nth 1 p34mirror dgv))) /\
  (nth 0 (goff (garray (nth 1%nat p34v dgv))) 0 == nth 0 half2 0)%Q /\
  periodic_velocity p34g half2 [periodic_bc 2; periodic_bc 2] p34v /\ periodic_velocity p34g half2 [periodic_bc 2; periodic_bc 2] p34mirror /\
  mirrored_values (gndim p34g) 0 2 (pval (garray (nth 1 p34v dgv))) (pval (garray (nth 1 p34mirror dgv))) /\ mirrored_velocity (gndim p34g) 0 2 p34v p34mirror.
Proof. exact (@advection_of_mirror_images_ex_lem). Qed.
