(** Generated by tools/gen.py from MonotoneProps.v: property theorems only. *)
From Coq Require Import Qreals.
From Verif Require Import Prelude NdArr Grids_model Spec Boundaries_model BoundariesPeriodic FD_model PRep FDProofs FDProps WallBC WallBCProps ImposeProps Pressure_model PressureProps Interp_model InterpProofs InterpProps UpwindProps TvdProps Advection_model AdvectionProofs AdvectionProps.
From Verif Require Import MonotoneProps.
Local Open Scope Z_scope.
Set Implicit Arguments.

(** C30. Maximum principle of upwind advection: on any periodic grid, for any velocity whose (interpolated) face values have zero net outflow from every cell, and any time step with dt * sum over axes of (outgoing speeds of the cell) / step <= 1, the advanced scalar c + dt * advect_upwind(c, v) stays within any bounds of c. *)
Theorem upwind_max_principle : forall c v dt w m M, periodic_field c -> (0 < gndim (ggrid (garray c)))%nat ->
  periodic_vec (ggrid (garray c)) v -> homogeneous_vec v ->
  (forall a, (a < gndim (ggrid (garray c)))%nat -> (0 < hstep (ggrid (garray c)) a)%R) -> (0 <= dt)%R ->
  (forall ix, inb (gshape (ggrid (garray c))) ix -> outflow (ggrid (garray c)) (face_velocity c v) ix = 0%R) ->
  (forall ix, inb (gshape (ggrid (garray c))) ix ->
     (dt * nsum (gndim (ggrid (garray c))) (fun a => (Rmax (face_velocity c v a ix) 0 + Rmax (- face_velocity c v a (prev a ix)) 0)
                                    / hstep (ggrid (garray c)) a) <= 1)%R) ->
  advect_upwind c v dt = Ok w ->
  (forall ix, inb (gshape (ggrid (garray c))) ix -> (m <= get (gdata (garray c)) ix <= M)%R) ->
  forall ix, inb (gshape (ggrid (garray c))) ix ->
    (m <= get (gdata (garray c)) ix + dt * get (gdata w) ix <= M)%R.
Proof. exact (@upwind_max_principle_lem). Qed.
Print Assumptions upwind_max_principle.

(** C30. stable_time_step of the advection module returns a time step for which max_velocity * dt <= max_courant * step on every axis, with equality on the finest one. *)
Theorem advection_cfl : forall vm cm g dt, (0 < vm)%R -> (0 <= cm)%R -> advection_stable_time_step vm cm g = Ok dt ->
  (forall a, (a < length (gstep g))%nat -> (vm * dt <= cm * hstep g a)%R) /\
  (exists a, (a < length (gstep g))%nat /\ (vm * dt = cm * hstep g a)%R).
Proof. exact (@advection_cfl_lem). Qed.
Print Assumptions advection_cfl.

(** The hypotheses are met by a concrete case. *)
Example advection_cfl_ex : (0 < 3)%R /\ (0 <= / 2)%R /\ advection_stable_time_step 3 (/ 2) ipg = Ok (/ 2 * Rmin 1 2 / 3)%R.
Proof. exact (@advection_cfl_ex_lem). Qed.

(** C30. With the time step of stable_time_step and a Courant number of at most one over the number of dimensions, forward-Euler upwind advection by a staggered, discretely divergence-free velocity bounded by max_velocity creates no new extrema. *)
Theorem upwind_stable_step : forall c v dt vm cm w d m M, periodic_field c -> (0 < gndim (ggrid (garray c)))%nat ->
  periodic_vec (ggrid (garray c)) v -> homogeneous_vec v -> face_aligned (goff (garray c)) v ->
  (forall a, (a < gndim (ggrid (garray c)))%nat -> (0 < hstep (ggrid (garray c)) a)%R) ->
  (0 < vm)%R -> (0 <= cm)%R -> (INR (gndim (ggrid (garray c))) * cm <= 1)%R ->
  advection_stable_time_step vm cm (ggrid (garray c)) = Ok dt ->
  (forall u ix, In u v -> inb (gshape (ggrid (garray c))) ix -> (Rabs (get (gdata (garray u)) ix) <= vm)%R) ->
  divergence v = Ok d -> (forall ix, inb (gshape (ggrid (garray c))) ix -> get (gdata d) ix = 0%R) ->
  advect_upwind c v dt = Ok w ->
  (forall ix, inb (gshape (ggrid (garray c))) ix -> (m <= get (gdata (garray c)) ix <= M)%R) ->
  forall ix, inb (gshape (ggrid (garray c))) ix ->
    (m <= get (gdata (garray c)) ix + dt * get (gdata w) ix <= M)%R.
Proof. exact (@upwind_stable_step_lem). Qed.
Print Assumptions upwind_stable_step.

(** The hypotheses are met by a concrete case. *)
Example upwind_max_principle_ex :
  periodic_field ipc /\ (0 < gndim (ggrid (garray ipc)))%nat /\ periodic_vec (ggrid (garray ipc)) ipv /\ homogeneous_vec ipv /\
  (forall a, (a < gndim (ggrid (garray ipc)))%nat -> (0 < hstep (ggrid (garray ipc)) a)%R) /\
  (forall ix, inb (gshape (ggrid (garray ipc))) ix -> outflow (ggrid (garray ipc)) (face_velocity ipc ipv) ix = 0%R) /\
  (forall ix, inb (gshape (ggrid (garray ipc))) ix ->
     (/ 4 * nsum (gndim (ggrid (garray ipc))) (fun a => (Rmax (face_velocity ipc ipv a ix) 0 + Rmax (- face_velocity ipc ipv a (prev a ix)) 0)
                                    / hstep (ggrid (garray ipc)) a) <= 1)%R) /\
  (exists w, advect_upwind ipc ipv (/ 4) = Ok w) /\
  (forall ix, inb (gshape (ggrid (garray ipc))) ix -> (0 <= get (gdata (garray ipc)) ix <= 31)%R).
Proof. exact (@upwind_max_principle_ex_lem). Qed.

(** The hypotheses are met by a concrete case. *)
Example upwind_stable_step_ex :
  face_aligned (goff (garray ipc)) ipv /\ (0 < 1)%R /\ (0 <= / 2)%R /\ (INR (gndim (ggrid (garray ipc))) * / 2 <= 1)%R /\
  (exists dt, advection_stable_time_step 1 (/ 2) (ggrid (garray ipc)) = Ok dt) /\
  (forall u ix, In u ipv -> inb (gshape (ggrid (garray ipc))) ix -> (Rabs (get (gdata (garray u)) ix) <= 1)%R) /\
  exists d, divergence ipv = Ok d /\ (forall ix, inb (gshape (ggrid (garray ipc))) ix -> get (gdata d) ix = 0%R).
Proof. exact (@upwind_stable_step_ex_lem). Qed.

(** C30. In one dimension, with a constant velocity U of either sign and |U| dt <= step, one forward-Euler step of advection limited by any limiter in Sweby's region (0 <= phi <= min(2, 2r), phi = 0 for r <= 0) does not increase the total variation of a periodic scalar. *)
Theorem limited_advection_tvd : forall phi c u U dt w c', sweby_limiter phi -> periodic_field c -> gndim (ggrid (garray c)) = 1%nat ->
  periodic_field u -> ggrid (garray u) = ggrid (garray c) -> bhom (gbc u) = true -> constant_field u U ->
  (0 < hstep (ggrid (garray c)) 0)%R -> (0 <= dt)%R -> (Rabs U * dt <= hstep (ggrid (garray c)) 0)%R ->
  advect_general c [u] linear_fn (apply_tvd_limiter lax_wendroff phi) dt = Ok w ->
  is_field c' (ggrid (garray c)) (goff (garray c)) (fun ix => get (gdata (garray c)) ix + dt * get (gdata w) ix)%R ->
  (total_variation c' <= total_variation (garray c))%R.
Proof. exact (@limited_advection_tvd_lem). Qed.
Print Assumptions limited_advection_tvd.

(** C30. The same for van Leer limited advection (advect_van_leer_using_limiters) and for upwind advection. *)
Theorem van_leer_and_upwind_tvd : forall c u U dt w c', periodic_field c -> gndim (ggrid (garray c)) = 1%nat ->
  periodic_field u -> ggrid (garray u) = ggrid (garray c) -> bhom (gbc u) = true -> constant_field u U ->
  (0 < hstep (ggrid (garray c)) 0)%R -> (0 <= dt)%R -> (Rabs U * dt <= hstep (ggrid (garray c)) 0)%R ->
  advect_van_leer_using_limiters c [u] dt = Ok w \/ advect_upwind c [u] dt = Ok w ->
  is_field c' (ggrid (garray c)) (goff (garray c)) (fun ix => get (gdata (garray c)) ix + dt * get (gdata w) ix)%R ->
  (total_variation c' <= total_variation (garray c))%R.
Proof. exact (@van_leer_and_upwind_tvd_lem). Qed.
Print Assumptions van_leer_and_upwind_tvd.

(** The hypotheses are met by a concrete case. *)
Example limited_advection_tvd_ex :
  sweby_limiter van_leer_limiter /\ periodic_field tvc /\ gndim (ggrid (garray tvc)) = 1%nat /\ periodic_field tvu /\
  ggrid (garray tvu) = ggrid (garray tvc) /\ bhom (gbc tvu) = true /\ constant_field tvu (-1/2) /\
  (0 < hstep (ggrid (garray tvc)) 0)%R /\ (Rabs (-1/2) * 2 <= hstep (ggrid (garray tvc)) 0)%R /\
  exists w, advect_van_leer_using_limiters tvc [tvu] 2 = Ok w.
Proof. exact (@limited_advection_tvd_ex_lem). Qed.

(** The hypotheses are met by a concrete case. *)
Example van_leer_and_upwind_tvd_ex : exists w, advect_upwind tvc [tvu] 2 = Ok w /\ total_variation (garray tvc) = 8%R.
Proof. exact (@van_leer_and_upwind_tvd_ex_lem). Qed.
