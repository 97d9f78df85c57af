(** Generated by tools/gen.py from LaxWendroffProps.v: property theorems only. *)
From Verif Require Import Prelude NdArr Grids_model Spec SpecLin SpecDiff Boundaries_model BoundariesPeriodic FD_model Interp_model Advection_model Diffusion_model PRep FDProofs FDProps InterpProps UpwindProps AdvectionProofs AdvectionProps MonotoneProps DiffusionProps Poincare SpecNS SpecAcc AccBase AccuracyProps SpecConv ConvergeProps QRProps SpecLax.
From Verif Require Import LaxWendroffProps.
Local Open Scope R_scope.
Set Implicit Arguments.

(** C86. Advection with the Lax-Wendroff interpolation of a periodic scalar by periodic velocities returns, at the scalar's offset, minus the net outflow of (mean of the two cells at the face minus half the Courant number times their difference) times (velocity linearly interpolated to the face); the coefficients do not depend on the direction of the flow. *)
Theorem lax_wendroff_flux_form : forall c v dt, periodic_field c -> (0 < gndim (ggrid (garray c)))%nat ->
  periodic_vec (ggrid (garray c)) v -> homogeneous_vec v ->
  exists w, advect_general c v linear_fn lax_wendroff dt = Ok w /\ is_field w (ggrid (garray c)) (goff (garray c))
    (fun ix => - outflow (ggrid (garray c)) (fun a jx =>
       ((pval (garray c) jx + pval (garray c) (next a jx)) / 2 - dt / hstep (ggrid (garray c)) a * face_velocity c v a jx / 2 * (pval (garray c) (next a jx) - pval (garray c) jx))
       * face_velocity c v a jx) ix).
Proof. exact (@lax_wendroff_flux_form_lem). Qed.
Print Assumptions lax_wendroff_flux_form.

(** The hypotheses are met by a concrete case. *)
Example lax_wendroff_flux_form_ex :
  periodic_field ipc /\ (0 < gndim (ggrid (garray ipc)))%nat /\ periodic_vec (ggrid (garray ipc)) ipv /\ homogeneous_vec ipv.
Proof. exact (@lax_wendroff_flux_form_ex_lem). Qed.

(** C86. In a uniform flow of speed V along one axis, one forward-Euler step of Lax-Wendroff advection never fails, stays periodic and is the classical scheme: c - C/2 (next - prev) + C^2/2 (next - 2 c + prev) in every cell, with the Courant number C = V dt / h; other axes play no role. *)
Theorem lax_wendroff_uniform_step : forall c v dt V ax c', let g := ggrid (garray c) in
  periodic_field c -> (ax < gndim g)%nat -> uniform_flow g ax V v ->
  is_ok (advect_general c v linear_fn lax_wendroff dt) /\
  (euler_step (fun c => advect_general c v linear_fn lax_wendroff dt) dt c c' ->
   periodic_field c' /\ is_field (garray c') g (goff (garray c)) (fun ix => lax_wendroff_update ax (V * dt / hstep g ax) (pval (garray c)) ix)).
Proof. exact (@lax_wendroff_uniform_step_lem). Qed.
Print Assumptions lax_wendroff_uniform_step.

(** C86. Lax-Wendroff transport in a uniform flow dissipates exactly C^2 (1 - C^2) / 4 times the sum of the squared second differences: the sum of squares of the scalar is unchanged for |C| = 1 or C = 0 and, for every Courant number of size at most 1, never grows over any number of steps. *)
Theorem lax_wendroff_energy : forall v dt V ax (run : nat -> gvar), let g := ggrid (garray (run 0%nat)) in let C := V * dt / hstep g ax in
  periodic_field (run 0%nat) -> (ax < gndim g)%nat -> uniform_flow g ax V v ->
  (forall n, euler_step (fun c => advect_general c v linear_fn lax_wendroff dt) dt (run n) (run (S n))) ->
  (forall n, sum_squares (garray (run (S n))) + C ^ 2 * (1 - C ^ 2) / 4 * asum (gshape g) (fun ix => (pval (garray (run n)) (next ax ix) - 2 * pval (garray (run n)) ix + pval (garray (run n)) (prev ax ix)) ^ 2)
     = sum_squares (garray (run n))) /\
  (Rabs C <= 1 -> forall n m, (n <= m)%nat -> sum_squares (garray (run m)) <= sum_squares (garray (run n))).
Proof. exact (@lax_wendroff_energy_lem). Qed.
Print Assumptions lax_wendroff_energy.

(** C86. At Courant number 1 or -1 a Lax-Wendroff step in a uniform flow is exact: the whole field moves by one cell in the direction of the flow. *)
Theorem lax_wendroff_exact_shift : forall c v dt V ax c', let g := ggrid (garray c) in
  periodic_field c -> (ax < gndim g)%nat -> uniform_flow g ax V v -> euler_step (fun c => advect_general c v linear_fn lax_wendroff dt) dt c c' ->
  (V * dt = hstep g ax -> is_field (garray c') g (goff (garray c)) (fun ix => pval (garray c) (prev ax ix))) /\
  (V * dt = - hstep g ax -> is_field (garray c') g (goff (garray c)) (fun ix => pval (garray c) (next ax ix))).
Proof. exact (@lax_wendroff_exact_shift_lem). Qed.
Print Assumptions lax_wendroff_exact_shift.

(** C86. Lax-Wendroff transport in a uniform flow is second-order accurate: started from the values of a periodic function f with third derivatives bounded by M, for every Courant number of size at most 1, the result after n steps differs from the exactly transported function f(x - V n dt) by at most n dt |V| M h^2 / 2 in root mean square, on grids of every size and dimension. *)
Theorem lax_wendroff_converges : forall v dt V ax f M (run : nat -> gvar), let g := ggrid (garray (run 0%nat)) in let o := goff (garray (run 0%nat)) in
  periodic_field (run 0%nat) -> (ax < gndim g)%nat -> uniform_flow g ax V v -> 0 <= dt -> Rabs (V * dt) <= hstep g ax ->
  box_periodic g f -> bounded_derivatives (gndim g) 3 M f -> samples (garray (run 0%nat)) f ->
  (forall n, euler_step (fun c => advect_general c v linear_fn lax_wendroff dt) dt (run n) (run (S n))) ->
  forall n, rms_within (INR n * dt * (Rabs V * M * hstep g ax ^ 2 / 2)) (garray (run n)) g o (fun x => f (moved_along ax (- (V * (INR n * dt))) x)).
Proof. exact (@lax_wendroff_converges_lem). Qed.
Print Assumptions lax_wendroff_converges.

(** The hypotheses are met by a concrete case. *)
Example lax_wendroff_uniform_step_ex : periodic_field tgc /\ (0 < gndim (ggrid (garray tgc)))%nat /\ uniform_flow (ggrid (garray tgc)) 0 1 driftv /\
  exists c', euler_step (fun c => advect_general c driftv linear_fn lax_wendroff (PI / 8)) (PI / 8) tgc c'.
Proof. exact (@lax_wendroff_uniform_step_ex_lem). Qed.

(** The hypotheses are met by a concrete case. *)
Example lax_wendroff_energy_ex : exists run : nat -> gvar, run 0%nat = tgc /\ periodic_field (run 0%nat) /\ uniform_flow (ggrid (garray (run 0%nat))) 0 1 driftv /\
  (forall n, euler_step (fun c => advect_general c driftv linear_fn lax_wendroff (PI / 8)) (PI / 8) (run n) (run (S n))) /\ Rabs (1 * (PI / 8) / hstep tgg 0) <= 1.
Proof. exact (@lax_wendroff_energy_ex_lem). Qed.

(** The hypotheses are met by a concrete case. *)
Example lax_wendroff_exact_shift_ex : periodic_field tgc /\ uniform_flow (ggrid (garray tgc)) 0 1 driftv /\ 1 * (PI / 4) = hstep (ggrid (garray tgc)) 0 /\
  exists c', euler_step (fun c => advect_general c driftv linear_fn lax_wendroff (PI / 4)) (PI / 4) tgc c'.
Proof. exact (@lax_wendroff_exact_shift_ex_lem). Qed.

(** The hypotheses are met by a concrete case. *)
Example lax_wendroff_converges_ex : exists run : nat -> gvar, let g := ggrid (garray (run 0%nat)) in run 0%nat = tgc /\ periodic_field (run 0%nat) /\ (0 < gndim g)%nat /\ uniform_flow g 0 1 driftv /\ 0 <= PI / 8 /\ Rabs (1 * (PI / 8)) <= hstep g 0 /\
  box_periodic g (wave 0 0) /\ bounded_derivatives (gndim g) 3 1 (wave 0 0) /\ samples (garray (run 0%nat)) (wave 0 0) /\
  (forall n, euler_step (fun c => advect_general c driftv linear_fn lax_wendroff (PI / 8)) (PI / 8) (run n) (run (S n))).
Proof. exact (@lax_wendroff_converges_ex_lem). Qed.

(** C86. Unlike the upwind scheme, Lax-Wendroff transport does not respect bounds: at Courant number 1/2 a step profile with values 0 and 1 yields the value 9/8 after one step, so "values stay between the old minimum and maximum" is false for it (which is why the flux limiters exist). *)
Theorem lax_wendroff_monotone_refuted : ~ (forall c v dt V ax c' m M, let g := ggrid (garray c) in
  periodic_field c -> (ax < gndim g)%nat -> uniform_flow g ax V v -> 0 <= dt -> Rabs (V * dt) <= hstep g ax -> euler_step (fun c => advect_general c v linear_fn lax_wendroff dt) dt c c' ->
  (forall ix, inb (gshape g) ix -> m <= get (gdata (garray c)) ix <= M) -> forall ix, inb (gshape g) ix -> m <= get (gdata (garray c')) ix <= M).
Proof. exact (@lax_wendroff_monotone_refuted_lem). Qed.
Print Assumptions lax_wendroff_monotone_refuted.
