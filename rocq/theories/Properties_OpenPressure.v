(** Generated by tools/gen.py from OpenPressureProps.v: property theorems only. *)
From Verif Require Import Prelude NdArr Grids_model Spec SpecLin LinAlg Cplx Boundaries_model FD_model PRep FDProofs FDProps WallBC WallBCProps ImposeProps WallFD Pressure_model PressureProps WallFDProps FastDiag_model FastDiagProofs FastDiagProps FastDiagCalc SpecDiag FastDiagImplProps Laplacian_model LaplacianProofs LaplacianProps LapSign Poincare PressureSolve_model ProjectionProps PressureSolveProps SpecOpen.
From Verif Require Import OpenPressureProps.
Local Open Scope Z_scope.
Set Implicit Arguments.

(** C85. Open boundaries: for every velocity that is not periodic along all axes, and explicitly given pressure conditions (periodic, Dirichlet or Neumann, zero values) with at least one Dirichlet side and no axis with walls on both sides, solve_fast_diag returns a solution of the pressure equation: the laplacian of its result under these conditions is the divergence of the velocity, without subtracting a mean. *)
Theorem open_pressure_solves_poisson : forall tpu eigh cutoff imp g v dv pb Ls a0,
  (0 < gndim g)%nat -> (forall a, (a < gndim g)%nat -> (3 <= nth a (gshape g) 0)%nat) ->
  not_all_periodic v -> divergence v = Ok dv -> wf_garr dv -> ggrid dv = g -> off_eq (goff dv) (repeat (1 # 2)%Q (gndim g)) ->
  pressure_conditions g pb -> (a0 < gndim g)%nat -> open_side pb a0 -> (forall a, (a < gndim g)%nat -> ~ closed_axis pb a) ->
  laplacian_matrix_w_boundaries g (repeat (1 # 2)%Q (gndim g)) pb = Ok Ls -> Forall (fun A => eigen_decomposition A (eigh A)) Ls ->
  (0 <= cutoff)%R -> (cutoff * (INR (nth a0 (gshape g) 0%nat) * hstep g a0) ^ 2 < 1)%R ->
  exists q lq, pressure_solve_fast_diag tpu eigh cutoff v (Some pb) imp = Ok q /\
    wf_garr q /\ ggrid q = g /\ off_eq (goff q) (repeat (1 # 2)%Q (gndim g)) /\ laplacian (mkgv q pb) = Ok lq /\
    forall ix, inb (gshape g) ix -> get (gdata lq) ix = get (gdata dv) ix.
Proof. exact (@open_pressure_solves_poisson_lem). Qed.
Print Assumptions open_pressure_solves_poisson.

(** C85. An open boundary together with an axis between two walls: although the pressure equation then has a unique solution for every right-hand side, solve_fast_diag subtracts the mean of the divergence first, so the laplacian of its result is the divergence minus its mean. *)
Theorem open_pressure_mean_deficit : forall tpu eigh cutoff imp g v dv pb Ls a0 a1,
  (0 < gndim g)%nat -> (forall a, (a < gndim g)%nat -> (3 <= nth a (gshape g) 0)%nat) ->
  not_all_periodic v -> divergence v = Ok dv -> wf_garr dv -> ggrid dv = g -> off_eq (goff dv) (repeat (1 # 2)%Q (gndim g)) ->
  pressure_conditions g pb -> (a0 < gndim g)%nat -> open_side pb a0 -> (a1 < gndim g)%nat -> closed_axis pb a1 ->
  laplacian_matrix_w_boundaries g (repeat (1 # 2)%Q (gndim g)) pb = Ok Ls -> Forall (fun A => eigen_decomposition A (eigh A)) Ls ->
  (0 <= cutoff)%R -> (cutoff * (INR (nth a0 (gshape g) 0%nat) * hstep g a0) ^ 2 < 1)%R ->
  exists q lq, pressure_solve_fast_diag tpu eigh cutoff v (Some pb) imp = Ok q /\
    wf_garr q /\ ggrid q = g /\ off_eq (goff q) (repeat (1 # 2)%Q (gndim g)) /\ laplacian (mkgv q pb) = Ok lq /\
    forall ix, inb (gshape g) ix -> get (gdata lq) ix = (get (gdata dv) ix - total (gdata dv) / INR (asize (gshape g)))%R.
Proof. exact (@open_pressure_mean_deficit_lem). Qed.
Print Assumptions open_pressure_mean_deficit.

(** C85. With an open side the pressure equation has at most one solution: two cell-centred pressures with the same laplacian under these conditions are equal, so every solver that solves it returns the same pressure. *)
Theorem open_pressure_unique : forall g pb a0 p1 p2 l1 l2,
  (forall a, (a < gndim g)%nat -> (3 <= nth a (gshape g) 0)%nat) ->
  pressure_conditions g pb -> (a0 < gndim g)%nat -> open_side pb a0 ->
  wf_garr p1 -> ggrid p1 = g -> off_eq (goff p1) (repeat (1 # 2)%Q (gndim g)) ->
  wf_garr p2 -> ggrid p2 = g -> off_eq (goff p2) (repeat (1 # 2)%Q (gndim g)) ->
  laplacian (mkgv p1 pb) = Ok l1 -> laplacian (mkgv p2 pb) = Ok l2 ->
  (forall ix, inb (gshape g) ix -> get (gdata l1) ix = get (gdata l2) ix) ->
  forall ix, inb (gshape g) ix -> get (gdata p1) ix = get (gdata p2) ix.
Proof. exact (@open_pressure_unique_lem). Qed.
Print Assumptions open_pressure_unique.

(** The hypotheses are met by a concrete case. *)
Example open_pressure_solves_poisson_ex : exists dv Ls,
  (0 < gndim opg)%nat /\ (forall a, (a < gndim opg)%nat -> (3 <= nth a (gshape opg) 0)%nat) /\
  not_all_periodic opv /\ divergence opv = Ok dv /\ wf_garr dv /\ ggrid dv = opg /\ off_eq (goff dv) (repeat (1 # 2)%Q (gndim opg)) /\
  pressure_conditions opg op_open /\ (1 < gndim opg)%nat /\ open_side op_open 1 /\ (forall a, (a < gndim opg)%nat -> ~ closed_axis op_open a) /\
  laplacian_matrix_w_boundaries opg (repeat (1 # 2)%Q (gndim opg)) op_open = Ok Ls /\ Forall (fun A => eigen_decomposition A (opeigh A)) Ls /\
  (0 <= 1 / 1000)%R /\ (1 / 1000 * (INR (nth 1 (gshape opg) 0%nat) * hstep opg 1) ^ 2 < 1)%R.
Proof. exact (@open_pressure_solves_poisson_ex_lem). Qed.

(** The hypotheses are met by a concrete case. *)
Example open_pressure_mean_deficit_ex : exists dv Ls,
  (0 < gndim opg)%nat /\ (forall a, (a < gndim opg)%nat -> (3 <= nth a (gshape opg) 0)%nat) /\
  not_all_periodic opv /\ divergence opv = Ok dv /\ wf_garr dv /\ ggrid dv = opg /\ off_eq (goff dv) (repeat (1 # 2)%Q (gndim opg)) /\
  pressure_conditions opg op_mixed /\ (1 < gndim opg)%nat /\ open_side op_mixed 1 /\ (0 < gndim opg)%nat /\ closed_axis op_mixed 0 /\
  laplacian_matrix_w_boundaries opg (repeat (1 # 2)%Q (gndim opg)) op_mixed = Ok Ls /\ Forall (fun A => eigen_decomposition A (opeigh A)) Ls /\
  (0 <= 1 / 1000)%R /\ (1 / 1000 * (INR (nth 1 (gshape opg) 0%nat) * hstep opg 1) ^ 2 < 1)%R /\ total (gdata dv) = 3%R.
Proof. exact (@open_pressure_mean_deficit_ex_lem). Qed.

(** The hypotheses are met by a concrete case. *)
Example open_pressure_unique_ex : exists l1,
  (forall a, (a < gndim opg)%nat -> (3 <= nth a (gshape opg) 0)%nat) /\ pressure_conditions opg op_mixed /\ (1 < gndim opg)%nat /\ open_side op_mixed 1 /\
  let p := mkga (mkarr [3%nat; 3%nat] (fun ix => IZR (nth 0 ix 0 + nth 1 ix 0))) [(1 # 2)%Q; (1 # 2)%Q] opg in
  wf_garr p /\ ggrid p = opg /\ off_eq (goff p) (repeat (1 # 2)%Q (gndim opg)) /\ laplacian (mkgv p op_mixed) = Ok l1.
Proof. exact (@open_pressure_unique_ex_lem). Qed.

(** C85. The docstring of solve_fast_diag promises a solution of the pressure equation for every pressure_bc. That is false: with walls across one axis and open ends along the other, where a unique solution exists, fluid leaving the box makes the result solve a different equation. *)
Theorem fast_diag_any_pressure_bc_refuted : exists g v dv pb eigh cutoff q lq,
  wfg g /\ box_velocity g (fun _ => false) v /\ pressure_conditions g pb /\ (exists a, (a < gndim g)%nat /\ open_side pb a) /\
  divergence v = Ok dv /\ pressure_solve_fast_diag false eigh cutoff v (Some pb) None = Ok q /\ laplacian (mkgv q pb) = Ok lq /\
  (exists Ls, laplacian_matrix_w_boundaries g (repeat (1 # 2)%Q (gndim g)) pb = Ok Ls /\ Forall (fun A => eigen_decomposition A (eigh A)) Ls) /\
  forall ix, inb (gshape g) ix -> get (gdata lq) ix = (get (gdata dv) ix - 1 / 3)%R.
Proof. exact (@fast_diag_any_pressure_bc_refuted_lem). Qed.
Print Assumptions fast_diag_any_pressure_bc_refuted.
