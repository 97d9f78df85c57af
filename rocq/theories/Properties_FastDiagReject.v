(** Generated by tools/gen.py from FastDiagRejectProps.v: property theorems only. *)
From Verif Require Import Prelude NdArr Grids_model LinAlg Cplx Boundaries_model FD_model WallBC FastDiag_model Laplacian_model ResizeProps LearnedInterpMoreProps Diffusion_model.
From Verif Require Import FastDiagRejectProps.
Local Open Scope Z_scope.
Set Implicit Arguments.

(** C22. solve_fast_diag refuses inhomogeneous Neumann walls: on every grid, if some axis of some component has a Neumann side and a nonzero boundary value on either of its sides, the call never succeeds, whatever the data, the other boundary conditions, nu, dt and the implementation. *)
Theorem implicit_diffusion_rejects_flux : forall tpu eigh imp (v : list gvar) (u : gvar) (nu dt : R) (axis : nat) (x : R),
  In u v -> (axis < gndim (ggrid (garray u)))%nat -> (fst (btype (gbc u) axis) = Neumann \/ snd (btype (gbc u) axis) = Neumann) ->
  (fst (bval (gbc u) axis) = Some x \/ snd (bval (gbc u) axis) = Some x) -> x <> 0%R -> ~ is_ok (diffusion_solve_fast_diag tpu eigh v nu dt imp).
Proof. exact (@implicit_diffusion_rejects_flux_lem). Qed.
Print Assumptions implicit_diffusion_rejects_flux.

(** The hypotheses are met by a concrete case. *)
Example implicit_diffusion_rejects_flux_ex : (0 < gndim (ggrid (garray heated_rod)))%nat /\ btype (gbc heated_rod) 0 = (Neumann, Neumann) /\ bval (gbc heated_rod) 0 = (Some 0%R, Some 1%R).
Proof. exact (@implicit_diffusion_rejects_flux_ex_lem). Qed.
