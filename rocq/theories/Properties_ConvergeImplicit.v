(** Generated by tools/gen.py from ConvergeImplicitProps.v: property theorems only. *)
From Verif Require Import Prelude NdArr LinAlg Grids_model Spec SpecLin SpecDiff SpecDiag Boundaries_model BoundariesPeriodic FD_model Laplacian_model FastDiag_model Interp_model Advection_model Diffusion_model PRep FDProofs FDProps PeriodicBCProps InterpProps AdvectionProofs AdvectionProps MonotoneProps DiffusionProps ImplicitDiffusionProps SpecNS SpecAcc AccBase AccuracyProps SpecConv ConvergeProps.
From Verif Require Import ConvergeImplicitProps.
Local Open Scope R_scope.
Set Implicit Arguments.

(** C81. Implicit diffusion converges for every time step. On every periodic grid in any dimension with positive cell widths and at least 3 cells per axis, for nu >= 0 and any time step dt >= 0 (no stability limit), any implementation whose requirements hold: if the run starts from the values of u(0) and every state is the result of diffusion.solve_fast_diag on its predecessor, where u is a smooth box-periodic solution of du/dt = nu laplacian(u) for t >= 0 (spatial derivatives up to fourth order bounded by M, second time derivative by K), then after any number n of steps the state is within n dt (K dt / 2 + nu M (h_1^2 + ... + h_d^2) / 12) of u(n dt) in every cell. *)
Theorem implicit_diffusion_converges : forall (tpu : bool) (eigh : arr R -> arr R * arr R) (imp : option impl) (run : nat -> gvar) (nu dt M K : R) (u : R -> list R -> R) (ux uxx : R -> nat -> list R -> R),
  let g := ggrid (garray (run 0%nat)) in let o := goff (garray (run 0%nat)) in
  periodic_field (run 0%nat) -> (0 < gndim g)%nat -> (forall a, (a < gndim g)%nat -> 0 < hstep g a /\ (3 <= nth a (gshape g) 0)%nat) -> 0 <= nu -> 0 <= dt ->
  (forall n Ls, laplacian_matrix_w_boundaries g (goff (garray (run n))) (gbc (run n)) = Ok Ls -> implementation_ready eigh Ls (has_all_periodic [run n]) imp) ->
  samples (garray (run 0%nat)) (u 0) -> (forall n, diffusion_solve_fast_diag tpu eigh [run n] nu dt imp = Ok [run (S n)]) ->
  (forall t, 0 <= t -> box_periodic g (u t) /\ bounded_derivatives (gndim g) 4 M (u t)) ->
  (forall t a, 0 <= t -> (a < gndim g)%nat -> partial_derivative (gndim g) a (u t) (ux t a) /\ partial_derivative (gndim g) a (ux t a) (uxx t a)) ->
  has_rate (gndim g) K u (fun t x => nu * nsum (gndim g) (fun a => uxx t a x)) ->
  forall n, within (INR n * dt * (K * dt / 2 + nu * M / 12 * h2 g)) (garray (run n)) g o (u (INR n * dt)).
Proof. exact (@implicit_diffusion_converges_lem). Qed.
Print Assumptions implicit_diffusion_converges.

(** The hypotheses are met by a concrete case. *)
Example implicit_diffusion_converges_ex : forall tpu eigh, exists (run : nat -> gvar), let g := ggrid (garray (run 0%nat)) in
  run 0%nat = tgc /\ periodic_field (run 0%nat) /\ (0 < gndim g)%nat /\ (forall a, (a < gndim g)%nat -> 0 < hstep g a /\ (3 <= nth a (gshape g) 0)%nat) /\ 0 <= 1 /\ 0 <= 10 /\
  (forall n Ls, laplacian_matrix_w_boundaries g (goff (garray (run n))) (gbc (run n)) = Ok Ls -> implementation_ready eigh Ls (has_all_periodic [run n]) (Some Fft)) /\
  samples (garray (run 0%nat)) (fading 0) /\ (forall n, diffusion_solve_fast_diag tpu eigh [run n] 1 10 (Some Fft) = Ok [run (S n)]) /\
  (forall t, 0 <= t -> box_periodic g (fading t) /\ bounded_derivatives (gndim g) 4 1 (fading t)) /\
  (forall t a, 0 <= t -> (a < gndim g)%nat -> partial_derivative (gndim g) a (fading t) (fading_x t a) /\ partial_derivative (gndim g) a (fading_x t a) (fading_xx t a)) /\
  has_rate (gndim g) 4 fading (fun t x => 1 * nsum (gndim g) (fun a => fading_xx t a x)).
Proof. exact (@implicit_diffusion_converges_ex_lem). Qed.
