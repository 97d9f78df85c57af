(** Generated by tools/gen.py from ConvergeProps.v: property theorems only. *)
From Verif Require Import Prelude NdArr Grids_model Spec SpecLin SpecDiff Boundaries_model BoundariesPeriodic FD_model Interp_model Advection_model Diffusion_model PRep FDProofs FDProps InterpProps AdvectionProofs AdvectionProps MonotoneProps DiffusionProps SpecNS SpecAcc AccBase AccuracyProps SpecConv.
From Verif Require Import ConvergeProps.
Local Open Scope R_scope.
Set Implicit Arguments.

(** C81. Explicit diffusion converges to the heat equation. On every periodic grid in any dimension with positive cell widths, at any offset, for nu > 0 and any time step up to stable_time_step(nu, grid): if the run starts from the values of u(0) and every state is its predecessor plus dt * diffuse(predecessor, nu), where u is a smooth box-periodic solution of du/dt = nu laplacian(u) for t >= 0 with spatial derivatives up to fourth order bounded by M and second time derivative bounded by K, then after any number n of steps the state is within n dt (K dt / 2 + nu M (h_1^2 + ... + h_d^2) / 12) of u(n dt) in every cell. *)
Theorem explicit_diffusion_converges : forall (run : nat -> gvar) (nu dt dtmax M K : R) (u : R -> list R -> R) (ux uxx : R -> nat -> list R -> R),
  let g := ggrid (garray (run 0%nat)) in let o := goff (garray (run 0%nat)) in
  periodic_field (run 0%nat) -> (0 < gndim g)%nat -> (forall a, (a < gndim g)%nat -> 0 < hstep g a) -> 0 < nu -> stable_time_step nu g = Ok (Some dtmax) -> 0 <= dt <= dtmax ->
  samples (garray (run 0%nat)) (u 0) -> (forall n, euler_step (fun c => diffuse c nu) dt (run n) (run (S n))) ->
  (forall t, 0 <= t -> box_periodic g (u t) /\ bounded_derivatives (gndim g) 4 M (u t)) ->
  (forall t a, 0 <= t -> (a < gndim g)%nat -> partial_derivative (gndim g) a (u t) (ux t a) /\ partial_derivative (gndim g) a (ux t a) (uxx t a)) ->
  has_rate (gndim g) K u (fun t x => nu * nsum (gndim g) (fun a => uxx t a x)) ->
  forall n, within (INR n * dt * (K * dt / 2 + nu * M / 12 * h2 g)) (garray (run n)) g o (u (INR n * dt)).
Proof. exact (@explicit_diffusion_converges_lem). Qed.
Print Assumptions explicit_diffusion_converges.

(** C81. Upwind transport converges. On every periodic grid in any dimension with positive cell widths: a scalar is carried by a staggered velocity (any velocity for every step, with homogeneous boundary conditions, discretely divergence-free, at most vm in size) with the time step of advection's stable_time_step(vm, cm, grid), cm at most one over the number of dimensions. If the run starts from the values of u(0), every state is its predecessor plus dt * advect_upwind(predecessor, velocity at that time), and the velocities hold the values of a smooth flow V with du/dt = - div(V u) for t >= 0 (derivatives of u and V up to third order bounded by Mc and Mv, second time derivative of u by K), then after any number n of steps the state is within n dt (K dt / 2 + Mv Mc ((1/3 + d/2) (h_1^2 + ... + h_d^2) + h_1 + ... + h_d)) of u(n dt) in every cell. *)
Theorem upwind_transport_converges : forall (run : nat -> gvar) (v : nat -> list gvar) (vm cm dt Mc Mv K : R) (u : R -> list R -> R) (ux V Vx : R -> nat -> list R -> R),
  let g := ggrid (garray (run 0%nat)) in let o := goff (garray (run 0%nat)) in
  periodic_field (run 0%nat) -> (0 < gndim g)%nat -> (forall a, (a < gndim g)%nat -> 0 < hstep g a) ->
  0 < vm -> 0 <= cm -> INR (gndim g) * cm <= 1 -> advection_stable_time_step vm cm g = Ok dt ->
  (forall n, periodic_vec g (v n) /\ homogeneous_vec (v n) /\ face_aligned o (v n) /\ (forall w ix, In w (v n) -> inb (gshape g) ix -> Rabs (get (gdata (garray w)) ix) <= vm) /\
     (exists dv, divergence (v n) = Ok dv /\ forall ix, inb (gshape g) ix -> get (gdata dv) ix = 0) /\ smooth_velocity g 3 Mv (v n) (V (INR n * dt))) ->
  samples (garray (run 0%nat)) (u 0) -> (forall n, euler_step (fun c => advect_upwind c (v n) dt) dt (run n) (run (S n))) ->
  (forall t, 0 <= t -> box_periodic g (u t) /\ bounded_derivatives (gndim g) 3 Mc (u t)) ->
  (forall t a, 0 <= t -> (a < gndim g)%nat -> partial_derivative (gndim g) a (u t) (ux t a) /\ partial_derivative (gndim g) a (V t a) (Vx t a)) ->
  has_rate (gndim g) K u (fun t x => - nsum (gndim g) (fun a => Vx t a x * u t x + V t a x * ux t a x)) ->
  forall n, within (INR n * dt * (K * dt / 2 + Mv * Mc * ((1 / 3 + INR (gndim g) / 2) * h2 g + nsum (gndim g) (fun a => hstep g a)))) (garray (run n)) g o (u (INR n * dt)).
Proof. exact (@upwind_transport_converges_lem). Qed.
Print Assumptions upwind_transport_converges.

(** The hypotheses are met by a concrete case. *)
Example explicit_diffusion_converges_ex : exists (run : nat -> gvar) (dtmax : R), let g := ggrid (garray (run 0%nat)) in
  run 0%nat = tgc /\ periodic_field (run 0%nat) /\ (0 < gndim g)%nat /\ (forall a, (a < gndim g)%nat -> 0 < hstep g a) /\ 0 < 1 /\ stable_time_step 1 g = Ok (Some dtmax) /\ 0 < dtmax <= dtmax /\
  samples (garray (run 0%nat)) (fading 0) /\ (forall n, euler_step (fun c => diffuse c 1) dtmax (run n) (run (S n))) /\
  (forall t, 0 <= t -> box_periodic g (fading t) /\ bounded_derivatives (gndim g) 4 1 (fading t)) /\
  (forall t a, 0 <= t -> (a < gndim g)%nat -> partial_derivative (gndim g) a (fading t) (fading_x t a) /\ partial_derivative (gndim g) a (fading_x t a) (fading_xx t a)) /\
  has_rate (gndim g) 4 fading (fun t x => 1 * nsum (gndim g) (fun a => fading_xx t a x)).
Proof. exact (@explicit_diffusion_converges_ex_lem). Qed.

(** The hypotheses are met by a concrete case. *)
Example upwind_transport_converges_ex : exists (run : nat -> gvar), let g := ggrid (garray (run 0%nat)) in let o := goff (garray (run 0%nat)) in
  run 0%nat = tgc /\ periodic_field (run 0%nat) /\ (0 < gndim g)%nat /\ (forall a, (a < gndim g)%nat -> 0 < hstep g a) /\
  0 < 1 /\ 0 <= 1 / 2 /\ INR (gndim g) * (1 / 2) <= 1 /\ advection_stable_time_step 1 (1 / 2) g = Ok (PI / 8) /\
  (periodic_vec g driftv /\ homogeneous_vec driftv /\ face_aligned o driftv /\ (forall w ix, In w driftv -> inb (gshape g) ix -> Rabs (get (gdata (garray w)) ix) <= 1) /\
     (exists dv, divergence driftv = Ok dv /\ forall ix, inb (gshape g) ix -> get (gdata dv) ix = 0) /\ smooth_velocity g 3 1 driftv drift) /\
  samples (garray (run 0%nat)) (moving 0) /\ (forall n, euler_step (fun c => advect_upwind c driftv (PI / 8)) (PI / 8) (run n) (run (S n))) /\
  (forall t, 0 <= t -> box_periodic g (moving t) /\ bounded_derivatives (gndim g) 3 1 (moving t)) /\
  (forall t a, 0 <= t -> (a < gndim g)%nat -> partial_derivative (gndim g) a (moving t) (dwave a (- t) 0) /\ partial_derivative (gndim g) a (drift a) (fun _ => 0)) /\
  has_rate (gndim g) 1 moving (fun t x => - nsum (gndim g) (fun a => 0 * moving t x + drift a x * dwave a (- t) 0 x)).
Proof. exact (@upwind_transport_converges_ex_lem). Qed.
