(** Generated by tools/gen.py from ImplicitUniqueProps.v: property theorems only. *)
From Verif Require Import Prelude NdArr Grids_model GridProps Spec SpecLin SpecDiff LinAlg Cplx Boundaries_model FD_model PRep FDProofs FDProps WallBC WallBCProps ImposeProps WallFD Pressure_model PressureProps WallFDProps FastDiag_model FastDiagProofs FastDiagProps FastDiagCalc SpecDiag FastDiagImplProps Laplacian_model LaplacianProofs LaplacianProps LapSign PressureSolve_model PressureSolveProps Diffusion_model DiffusionProps ImplicitDiffusionProps ImplicitDirichletProps.
From Coq Require Import Classical_Prop.
From Verif Require Import ImplicitUniqueProps.
Local Open Scope Z_scope.
Set Implicit Arguments.

(** C22. The implicit step is determined: with nu * dt >= 0, axes periodic or walled (cell-centred with any Dirichlet/Neumann values, or edge-aligned between Dirichlet walls) of at least 3 cells (2 when edge-aligned), two fields that both satisfy the implicit equation for the same u agree in every cell; so whichever implementation is chosen and whichever solver, the answers coincide. *)
Theorem implicit_diffusion_unique : forall c u u1 u2, (0 <= c)%R -> wf_garr (garray u) ->
  (forall a, (a < gndim (ggrid (garray u)))%nat -> walled_axis (gbc u) (garray u) a /\ enough_cells (ggrid (garray u)) (gbc u) (goff (garray u)) a) ->
  implicitly_diffused c u u1 -> implicitly_diffused c u u2 ->
  forall ix, inb (gshape (ggrid (garray u))) ix -> get (gdata (garray u1)) ix = get (gdata (garray u2)) ix.
Proof. exact (@implicit_diffusion_unique_lem). Qed.
Print Assumptions implicit_diffusion_unique.

(** The hypotheses are met by a concrete case. *)
Example implicit_diffusion_unique_ex : exists u u1, (0 <= 1)%R /\ wf_garr (garray u) /\
  (forall a, (a < gndim (ggrid (garray u)))%nat -> walled_axis (gbc u) (garray u) a /\ enough_cells (ggrid (garray u)) (gbc u) (goff (garray u)) a) /\
  implicitly_diffused 1 u u1 /\ get (gdata (garray u1)) [2; 2] = 5%R.
Proof. exact (@implicit_diffusion_unique_ex_lem). Qed.

(** C22. solve_cg raises ValueError unless every component is periodic on every axis; otherwise, if conjugate gradients return for each component (same grid, offset and shape) a field on which the operator they were given takes the value u, every component of the result satisfies (1 - nu dt Laplacian) u_new = u. *)
Theorem diffusion_solve_cg_solves : forall cg v nu dt,
  (has_all_periodic v = false -> diffusion_solve_cg cg v nu dt = Err EValue) /\
  ((forall u, In u v -> periodic_field u) ->
   (forall u, In u v -> exists x, cg (diffusion_op (gbc u) (dt * nu)) (garray u) (garray u) = Ok x /\
      ggrid x = ggrid (garray u) /\ off_eq (goff x) (goff (garray u)) /\ shp (gdata x) = gshape (ggrid (garray u)) /\
      forall y, diffusion_op (gbc u) (dt * nu) x = Ok y -> same_field y (garray u)) ->
   exists v', diffusion_solve_cg cg v nu dt = Ok v' /\ Forall2 (implicitly_diffused (dt * nu)) v v').
Proof. exact (@diffusion_solve_cg_solves_lem). Qed.
Print Assumptions diffusion_solve_cg_solves.

(** The hypotheses are met by a concrete case. *)
Example diffusion_solve_cg_solves_ex : let u := v33 [(1 # 2)%Q; 1%Q] [(Periodic, Periodic); (Periodic, Periodic)] [(None, None); (None, None)] (fun _ => 7%R) in
  let cg := fun (op : garr -> result garr) (b x0 : garr) => Ok x0 in
  periodic_field u /\ exists x, cg (diffusion_op (gbc u) (1 * 2)) (garray u) (garray u) = Ok x /\
      ggrid x = ggrid (garray u) /\ off_eq (goff x) (goff (garray u)) /\ shp (gdata x) = gshape (ggrid (garray u)) /\
      forall y, diffusion_op (gbc u) (1 * 2) x = Ok y -> same_field y (garray u).
Proof. exact (@diffusion_solve_cg_solves_ex_lem). Qed.
