(** Generated by tools/gen.py from ImplicitDirichletProps.v: property theorems only. *)
From Verif Require Import Prelude NdArr Grids_model GridProps Spec SpecLin SpecDiff LinAlg Cplx Boundaries_model FD_model PRep FDProofs FDProps WallBC WallBCProps ImposeProps WallFD Pressure_model PressureProps WallFDProps FastDiag_model FastDiagProofs FastDiagProps FastDiagCalc SpecDiag FastDiagImplProps Laplacian_model LaplacianProofs LaplacianProps LapSign PressureSolve_model PressureSolveProps Diffusion_model DiffusionProps ImplicitDiffusionProps.
From Verif Require Import ImplicitDirichletProps.
Local Open Scope Z_scope.
Set Implicit Arguments.

(** C22. solve_fast_diag on 2-d grids with walls (any number of components, of any offsets): either Dirichlet walls of any two values along axis 1 with axis 0 periodic or of zero gradient, or periodic axes and walls of zero value or zero gradient in any combination (on a square grid if axis 0 has a Dirichlet wall); at least 3 cells (2 on an edge-aligned axis), nu * dt >= 0. It succeeds and every component of the result satisfies (1 - nu dt Laplacian) u_new = u exactly in every cell off the walls, the boundary values entering the Laplacian, and holds the walls' values on them. *)
Theorem implicit_diffusion_walls : forall tpu eigh imp v nu dt, (0 <= dt * nu)%R ->
  (forall u, In u v -> wf_garr (garray u) /\ cells_fill_domain (ggrid (garray u)) /\ length (btypes (gbc u)) = gndim (ggrid (garray u)) /\
     diffusable_2d u /\ (forall a, (a < 2)%nat -> enough_cells (ggrid (garray u)) (gbc u) (goff (garray u)) a) /\
     forall Ls, laplacian_matrix_w_boundaries (ggrid (garray u)) (goff (garray u)) (gbc u) = Ok Ls -> implementation_ready eigh Ls (has_all_periodic v) imp) ->
  exists v', diffusion_solve_fast_diag tpu eigh v nu dt imp = Ok v' /\ Forall2 (implicitly_diffused (dt * nu)) v v'.
Proof. exact (@implicit_diffusion_walls_lem). Qed.
Print Assumptions implicit_diffusion_walls.

(** The hypotheses are met by a concrete case. *)
Example implicit_diffusion_walls_ex :
  let u := v33 [(1 # 2)%Q; 1%Q] [(Neumann, Neumann); (Dirichlet, Dirichlet)] [(Some 0%R, Some 0%R); (Some 2%R, Some 5%R)] (fun ix => IZR (nth 0 ix 0)) in
  (0 <= 1 / 10 * 3)%R /\
  (wf_garr (garray u) /\ cells_fill_domain (ggrid (garray u)) /\ length (btypes (gbc u)) = gndim (ggrid (garray u)) /\
     diffusable_2d u /\ (forall a, (a < 2)%nat -> enough_cells (ggrid (garray u)) (gbc u) (goff (garray u)) a) /\
     forall Ls, laplacian_matrix_w_boundaries (ggrid (garray u)) (goff (garray u)) (gbc u) = Ok Ls -> implementation_ready exeigh Ls (has_all_periodic [u]) (Some Fft)).
Proof. exact (@implicit_diffusion_walls_ex_lem). Qed.

(** C22. A lid-driven cavity is solved wrongly: 3 x 3 cells, unit steps, the component along axis 0 (offset (1, 1/2)) at rest with value 0 on the walls of axis 0, 0 on the lower and 1 on the upper wall of axis 1. The call succeeds, but the result does not satisfy (1 - nu dt Laplacian) u_new = u in a cell next to a side wall, for every nu * dt > 0: the linear profile subtracted along axis 1 does not vanish on the side walls. *)
Theorem implicit_diffusion_cavity_refuted : forall tpu c, (0 < c)%R -> exists u', 
  let u := v33 [1%Q; (1 # 2)%Q] [(Dirichlet, Dirichlet); (Dirichlet, Dirichlet)] [(Some 0%R, Some 0%R); (Some 0%R, Some 1%R)] (fun _ => 0%R) in
  diffusion_solve_fast_diag tpu exeigh [u] c 1 None = Ok [u'] /\ ~ implicitly_diffused c u u' /\
  (get (gdata (garray u')) [0%Z; 1%Z] - c * nsum 2 (fun a => second_difference (gbc u) (garray u') a [0%Z; 1%Z]) <> get (gdata (garray u)) [0%Z; 1%Z])%R.
Proof. exact (@implicit_diffusion_cavity_refuted_lem). Qed.
Print Assumptions implicit_diffusion_cavity_refuted.

(** C22. Dirichlet walls with a nonzero value along axis 0 are handled wrongly without any error on square 2-d grids (the linear part is evaluated along the wrong axis, so a constant is subtracted): 3 x 3 cells, unit steps, cell-centred data at rest, values 0 and 1 on the walls of axis 0, zero gradient along axis 1; the result violates (1 - nu dt Laplacian) u_new = u next to the wall for every nu * dt > 0. *)
Theorem implicit_diffusion_axis0_refuted : forall tpu c, (0 < c)%R -> exists u', 
  let u := v33 [(1 # 2)%Q; (1 # 2)%Q] [(Dirichlet, Dirichlet); (Neumann, Neumann)] [(Some 0%R, Some 1%R); (Some 0%R, Some 0%R)] (fun _ => 0%R) in
  diffusion_solve_fast_diag tpu exeigh [u] c 1 None = Ok [u'] /\ ~ implicitly_diffused c u u' /\
  (get (gdata (garray u')) [0%Z; 1%Z] - c * nsum 2 (fun a => second_difference (gbc u) (garray u') a [0%Z; 1%Z]) <> get (gdata (garray u)) [0%Z; 1%Z])%R.
Proof. exact (@implicit_diffusion_axis0_refuted_lem). Qed.
Print Assumptions implicit_diffusion_axis0_refuted.

(** C22. On 1-d grids solve_fast_diag never succeeds when an end of the axis is a Dirichlet wall, whatever the data, values, sizes and implementation. *)
Theorem implicit_diffusion_1d_dirichlet_refuted : forall tpu eigh imp u nu dt v', wf_garr (garray u) -> gndim (ggrid (garray u)) = 1%nat ->
  walled_axis (gbc u) (garray u) 0 -> dirichlet_side (gbc u) 0 ->
  diffusion_solve_fast_diag tpu eigh [u] nu dt imp <> Ok v'.
Proof. exact (@implicit_diffusion_1d_dirichlet_refuted_lem). Qed.
Print Assumptions implicit_diffusion_1d_dirichlet_refuted.
