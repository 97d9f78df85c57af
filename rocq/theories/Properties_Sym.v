(** Generated by tools/gen.py from SymProps.v: property theorems only. *)
From Verif Require Import Prelude NdArr Grids_model Spec SpecLin SpecDiag SpecDiff LinAlg Cplx Boundaries_model BoundariesPeriodic FD_model LaplacianProps PRep FDProofs FDProps WallBC WallBCProps ImposeProps WallFD Pressure_model PressureProps WallFDProps ProjectionProps Interp_model InterpProofs InterpProps UpwindProps TvdProps Advection_model AdvectionProofs AdvectionProps FastDiag_model Laplacian_model PressureSolve_model PressureSolveProps Diffusion_model DiffusionProps QRProps TimeStep_model Equations_model SpecNS EquationsProps EquationsMoreProps SpecSym SymBase SymEx.
From Verif Require Import SymProps.
Local Open Scope Z_scope.
Set Implicit Arguments.

(** C64. Advection commutes with relabelling the axes, translating, rescaling the scalar by any m, the velocity by k > 0 and the cell widths by s > 0 (with the time step rescaled by s/k so that Courant numbers are the same): the tendency of the copied scalar is m k/s times the copied tendency, at every cell, for linear and upwind advection and for flux-limited advection with any limiter. *)
Theorem advection_of_copies : forall g g' p s c c' v v' m k dt dt', copied_grid p s g g' -> (0 < s)%R -> (0 < gndim g)%nat ->
  periodic_field c -> periodic_field c' -> ggrid (garray c) = g -> ggrid (garray c') = g' ->
  periodic_vec g v -> periodic_vec g' v' -> homogeneous_vec v -> homogeneous_vec v' ->
  copied_offset (gndim g) p (goff (garray c)) (goff (garray c')) ->
  (forall i u u', nth_error v (to_axis p i) = Some u -> nth_error v' i = Some u' -> copied_offset (gndim g) p (goff (garray u)) (goff (garray u'))) ->
  copied_array p m (garray c) (garray c') -> copied_velocity (gndim g) p k v v' -> (0 < k)%R -> (dt' * k = dt * s)%R ->
  (exists w w', advect_linear c v dt = Ok w /\ advect_linear c' v' dt' = Ok w' /\ copied_array p (m * k / s) w w') /\
  (exists w w', advect_upwind c v dt = Ok w /\ advect_upwind c' v' dt' = Ok w' /\ copied_array p (m * k / s) w w') /\
  (forall phi, exists w w', advect_general c v linear_fn (apply_tvd_limiter lax_wendroff phi) dt = Ok w /\
     advect_general c' v' linear_fn (apply_tvd_limiter lax_wendroff phi) dt' = Ok w' /\ copied_array p (m * k / s) w w').
Proof. exact (@advection_of_copies_lem). Qed.
Print Assumptions advection_of_copies.

(** The hypotheses are met by a concrete case. *)
Example advection_of_copies_ex : copied_grid swapped 2 p34g p43g /\ (0 < gndim p34g)%nat /\
  periodic_field (nth 0 p34v dgv) /\ periodic_field (nth 1 p43v dgv) /\
  periodic_vec p34g p34v /\ periodic_vec p43g p43v /\ homogeneous_vec p34v /\ homogeneous_vec p43v /\
  copied_offset (gndim p34g) swapped (goff (garray (nth 0 p34v dgv))) (goff (garray (nth 1 p43v dgv))) /\
  (forall i u u', nth_error p34v (to_axis swapped i) = Some u -> nth_error p43v i = Some u' -> copied_offset (gndim p34g) swapped (goff (garray u)) (goff (garray u'))) /\
  copied_array swapped 3 (garray (nth 0 p34v dgv)) (garray (nth 1 p43v dgv)) /\ copied_velocity (gndim p34g) swapped 3 p34v p43v /\ (4 * 3 = 6 * 2)%R.
Proof. exact (@advection_of_copies_ex_lem). Qed.
