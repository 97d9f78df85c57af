(** Generated by tools/gen.py from ImplicitDiffusionProps.v: property theorems only. *)
From Verif Require Import Prelude NdArr Grids_model Spec SpecLin SpecDiff LinAlg Cplx Boundaries_model FD_model PRep FDProofs FDProps WallBC WallBCProps ImposeProps WallFD Pressure_model PressureProps WallFDProps FastDiag_model FastDiagProofs FastDiagProps FastDiagCalc SpecDiag FastDiagImplProps Laplacian_model LaplacianProofs LaplacianProps LapSign PressureSolve_model PressureSolveProps Diffusion_model DiffusionProps.
From Verif Require Import ImplicitDiffusionProps.
Local Open Scope Z_scope.
Set Implicit Arguments.

(** C22. solve_fast_diag, in any dimension: when every component has all its axes periodic or cell-centred with zero gradient (at least 3 cells each) and nu * dt >= 0, it succeeds and every component of the result satisfies (1 - nu dt Laplacian) u_new = u exactly, in every cell, with the grid, offset and boundary conditions of u; for every implementation when all components are periodic. *)
Theorem implicit_diffusion_insulated : forall tpu eigh imp v nu dt, (0 <= dt * nu)%R ->
  (forall u, In u v -> wf_garr (garray u) /\ (0 < gndim (ggrid (garray u)))%nat /\ length (btypes (gbc u)) = gndim (ggrid (garray u)) /\
     (forall a, (a < gndim (ggrid (garray u)))%nat -> insulated_axis (gbc u) (garray u) a /\ (3 <= nth a (gshape (ggrid (garray u))) 0)%nat) /\
     forall Ls, laplacian_matrix_w_boundaries (ggrid (garray u)) (goff (garray u)) (gbc u) = Ok Ls -> implementation_ready eigh Ls (has_all_periodic v) imp) ->
  exists v', diffusion_solve_fast_diag tpu eigh v nu dt imp = Ok v' /\ Forall2 (implicitly_diffused (dt * nu)) v v' /\
    Forall (fun u => forall ix a, inb (gshape (ggrid (garray u))) ix -> (a < gndim (ggrid (garray u)))%nat -> wall_value (gbc u) (garray u) a ix = None) v.
Proof. exact (@implicit_diffusion_insulated_lem). Qed.
Print Assumptions implicit_diffusion_insulated.

(** The hypotheses are met by a concrete case. *)
Example implicit_diffusion_insulated_ex : forall eigh, (0 <= (1 / 10) * 3)%R /\
  (forall u, In u p34v -> wf_garr (garray u) /\ (0 < gndim (ggrid (garray u)))%nat /\ length (btypes (gbc u)) = gndim (ggrid (garray u)) /\
     (forall a, (a < gndim (ggrid (garray u)))%nat -> insulated_axis (gbc u) (garray u) a /\ (3 <= nth a (gshape (ggrid (garray u))) 0)%nat) /\
     forall Ls, laplacian_matrix_w_boundaries (ggrid (garray u)) (goff (garray u)) (gbc u) = Ok Ls -> implementation_ready eigh Ls (has_all_periodic p34v) (Some Rfft)).
Proof. exact (@implicit_diffusion_insulated_ex_lem). Qed.
