(** Generated by tools/gen.py from SemiLagProps.v: property theorems only. *)
From Coq Require Import Qreals.
From Verif Require Import Prelude NdArr Grids_model Spec Boundaries_model BoundariesPeriodic FD_model PRep FDProofs GridProps FDProps WallBC WallBCProps ImposeProps Pressure_model PressureProps Interp_model InterpProofs InterpProps UpwindProps TvdProps Advection_model AdvectionProofs AdvectionProps.
From Verif Require Import SemiLagProps.
Local Open Scope Z_scope.
Set Implicit Arguments.

(** C31. A semi-Lagrangian step on a periodic grid starting at the origin returns, with the scalar's offset and boundary conditions, the periodic multilinear interpolant of the scalar at the point each cell's fluid came from (index minus dt * velocity / step on every axis). *)
Theorem semilagrangian_spec : forall c v dt, periodic_field c -> (0 < gndim (ggrid (garray c)))%nat ->
  periodic_vec (ggrid (garray c)) v -> Forall (fun d => fst d = 0%R) (gdomain (ggrid (garray c))) ->
  exists w, advect_step_semilagrangian c v dt = Ok w /\ gbc w = gbc c /\
    is_field (garray w) (ggrid (garray c)) (goff (garray c)) (fun ix => multilinear (pval (garray c)) (departure c v dt ix)).
Proof. exact (@semilagrangian_spec_lem). Qed.
Print Assumptions semilagrangian_spec.

(** The hypotheses are met by a concrete case. *)
Example semilagrangian_spec_ex : periodic_field ipc /\ (0 < gndim (ggrid (garray ipc)))%nat /\ periodic_vec (ggrid (garray ipc)) ipv /\ Forall (fun d => fst d = 0%R) (gdomain (ggrid (garray ipc))).
Proof. exact (@semilagrangian_spec_ex_lem). Qed.

(** C31. A semi-Lagrangian step is unconditionally bounded: whatever the velocity and the time step, the result stays within any bounds of the scalar (constants are preserved). *)
Theorem semilagrangian_bounded : forall c v dt w m M, periodic_field c -> (0 < gndim (ggrid (garray c)))%nat ->
  periodic_vec (ggrid (garray c)) v -> Forall (fun d => fst d = 0%R) (gdomain (ggrid (garray c))) ->
  advect_step_semilagrangian c v dt = Ok w ->
  (forall ix, inb (gshape (ggrid (garray c))) ix -> (m <= get (gdata (garray c)) ix <= M)%R) ->
  forall ix, inb (gshape (ggrid (garray c))) ix -> (m <= get (gdata (garray w)) ix <= M)%R.
Proof. exact (@semilagrangian_bounded_lem). Qed.
Print Assumptions semilagrangian_bounded.

(** The hypotheses are met by a concrete case. *)
Example semilagrangian_bounded_ex : (exists w, advect_step_semilagrangian ipc ipv 5 = Ok w) /\ (forall ix, inb (gshape (ggrid (garray ipc))) ix -> (0 <= get (gdata (garray ipc)) ix <= 31)%R).
Proof. exact (@semilagrangian_bounded_ex_lem). Qed.

(** C31. When the fluid of a cell moves by a whole number of cells k_a along every axis (in particular when it does not move), a semi-Lagrangian step copies the value of the cell k cells upstream, wrapping around. *)
Theorem semilagrangian_whole_cells : forall c v dt w k ix, periodic_field c -> (0 < gndim (ggrid (garray c)))%nat ->
  periodic_vec (ggrid (garray c)) v -> Forall (fun d => fst d = 0%R) (gdomain (ggrid (garray c))) ->
  advect_step_semilagrangian c v dt = Ok w -> inb (gshape (ggrid (garray c))) ix ->
  (forall a, (a < gndim (ggrid (garray c)))%nat -> (dt * point_velocity c v a ix = IZR (k a) * hstep (ggrid (garray c)) a)%R) ->
  get (gdata (garray w)) ix = pval (garray c) (subix k ix).
Proof. exact (@semilagrangian_whole_cells_lem). Qed.
Print Assumptions semilagrangian_whole_cells.

(** The hypotheses are met by a concrete case. *)
Example semilagrangian_whole_cells_ex : exists w, advect_step_semilagrangian slc [slu] 4 = Ok w /\ get (gdata (garray w)) [4] = 1%R.
Proof. exact (@semilagrangian_whole_cells_ex_lem). Qed.

(** C31. Semi-Lagrangian advection raises ValueError unless the grid starts at the origin on every axis. *)
Theorem semilagrangian_origin : forall c v dt, (exists d, In d (gdomain (ggrid (garray c))) /\ fst d <> 0%R) ->
  (forall u, In u v -> ggrid (garray u) = ggrid (garray c)) ->
  advect_step_semilagrangian c v dt = Err EValue.
Proof. exact (@semilagrangian_origin_lem). Qed.
Print Assumptions semilagrangian_origin.

(** The hypotheses are met by a concrete case. *)
Example semilagrangian_origin_ex : exists d, In d (gdomain (mkgrid [5%nat] [1%R] [(1%R, 6%R)])) /\ fst d <> 0%R.
Proof. exact (@semilagrangian_origin_ex_lem). Qed.

(** C31. A semi-Lagrangian step with a spatially constant velocity preserves the sum of the scalar over all cells. *)
Theorem semilagrangian_constant_velocity_conserves : forall c v dt w U, periodic_field c -> (0 < gndim (ggrid (garray c)))%nat ->
  periodic_vec (ggrid (garray c)) v -> Forall (fun d => fst d = 0%R) (gdomain (ggrid (garray c))) ->
  (forall a u, nth_error v a = Some u -> constant_field u (U a)) ->
  advect_step_semilagrangian c v dt = Ok w ->
  total (gdata (garray w)) = total (gdata (garray c)).
Proof. exact (@semilagrangian_constant_velocity_conserves_lem). Qed.
Print Assumptions semilagrangian_constant_velocity_conserves.

(** The hypotheses are met by a concrete case. *)
Example semilagrangian_constant_velocity_conserves_ex : periodic_field slc /\ periodic_vec (ggrid (garray slc)) [slu] /\ (exists w, advect_step_semilagrangian slc [slu] 3 = Ok w) /\
  (forall a u, nth_error [slu] a = Some u -> constant_field u (-1/2)) /\ total (gdata (garray slc)) = 30%R.
Proof. exact (@semilagrangian_constant_velocity_conserves_ex_lem). Qed.
