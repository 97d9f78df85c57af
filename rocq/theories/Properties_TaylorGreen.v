(** Generated by tools/gen.py from TaylorGreenProps.v: property theorems only. *)
From Verif Require Import Prelude NdArr LinAlg Cplx Grids_model Spec Boundaries_model FD_model PRep FDProofs FDProps GridProps FastDiag_model Advection_model Equations_model PressureProps PressureSolveProps SpecNS EquationsProps EquationsMoreProps FilterProps Forcings_model SpecForce ForcingsProps.
From Coq Require Import Qreals.
From Verif Require Import TaylorGreenProps.
Local Open Scope Z_scope.
Set Implicit Arguments.

(** C47. TaylorGreen(shape, density, viscosity, kx, ky).velocity(t, offsets), for all positive shapes and two-entry offsets, is on the grid of that shape over [0, 2 pi] x [0, 2 pi] (point a of axis d at 2 pi (a + offset) / n_d) and consists of exp(-2 nu t) cos(kx x) sin(ky y) and -exp(-2 nu t) sin(kx x) cos(ky y) at the requested offsets; without offsets, at the cell faces. *)
Theorem taylor_green_velocity_spec : forall n m density nu kx ky t o0 o1, (0 < n)%nat -> (0 < m)%nat -> length o0 = 2%nat -> length o1 = 2%nat ->
  exists g u v, taylor_green_grid [n; m] = Ok g /\ wfg g /\ gshape g = [n; m] /\
    (forall o a ix, (a < 2)%nat -> coord g o a ix = 2 * PI * (IZR (nth a ix 0%Z) + Q2R (nth a o 0%Q)) / INR (nth a [n; m] 0%nat))%R /\
    taylor_green_velocity [n; m] density nu kx ky t (Some [o0; o1]) = Ok [u; v] /\ perbc g (gbc u) /\ perbc g (gbc v) /\
    is_field (garray u) g o0 (fun ix => exp (-2 * nu * t) * cos (kx * coord g o0 0 ix) * sin (ky * coord g o0 1 ix))%R /\
    is_field (garray v) g o1 (fun ix => - (exp (-2 * nu * t) * sin (kx * coord g o1 0 ix) * cos (ky * coord g o1 1 ix)))%R /\
    taylor_green_velocity [n; m] density nu kx ky t None = taylor_green_velocity [n; m] density nu kx ky t (Some (cell_faces g)).
Proof. exact (@taylor_green_velocity_spec_lem). Qed.
Print Assumptions taylor_green_velocity_spec.

(** C47. taylor_green_forcing on every 2- or 3-dimensional grid returns a force that does not depend on the velocity, on the cell faces: scale times the Taylor-Green pattern whose angles run once around each of the first two axes whatever the domain, constant along the third axis, with third component zero; in any other dimension it raises. *)
Theorem taylor_green_forcing_spec : forall g scale k, wfg g ->
  (gndim g = 2%nat \/ gndim g = 3%nat ->
   exists F f, taylor_green_forcing g scale k = Ok F /\ (forall v, F v = Ok f) /\ length f = gndim g /\
    forall i w, nth_error f i = Some w -> is_field w g (offs i (1 # 2) (cell_center g)) (taylor_green_force g scale k i)) /\
  (gndim g = 1%nat \/ (3 < gndim g)%nat -> exists e, taylor_green_forcing g scale k = Err e).
Proof. exact (@taylor_green_forcing_spec_lem). Qed.
Print Assumptions taylor_green_forcing_spec.

(** C47. For every integer wave number, the discrete divergence of the Taylor-Green force is, at every cell, 2 scale sin(k X) sin(k Y) (sin(k pi / m) / h_y - sin(k pi / n) / h_x) at the cell's centre angles X, Y; so on grids with equally many equal cells along the first two axes it is discretely divergence free, and its components always sum to zero. *)
Theorem taylor_green_forcing_divergence : forall g scale z, wfg g -> gndim g = 2%nat \/ gndim g = 3%nat ->
  exists F f d, taylor_green_forcing g scale (IZR z) = Ok F /\ (forall v, F v = Ok f) /\ (forall w, In w f -> total (gdata w) = 0%R) /\
    divergence (as_periodic g f) = Ok d /\
    is_field d g (cell_center g) (fun ix => 2 * scale * sin (IZR z * angle g 0 (1 / 2) ix) * sin (IZR z * angle g 1 (1 / 2) ix) *
      (sin (IZR z * PI / INR (nth 1 (gshape g) 0%nat)) / hstep g 1 - sin (IZR z * PI / INR (nth 0 (gshape g) 0%nat)) / hstep g 0))%R /\
    (nth 0 (gshape g) 0%nat = nth 1 (gshape g) 0%nat -> hstep g 0 = hstep g 1 -> is_field d g (cell_center g) (fun _ => 0%R)).
Proof. exact (@taylor_green_forcing_divergence_lem). Qed.
Print Assumptions taylor_green_forcing_divergence.

(** C47. On anisotropic grids the Taylor-Green force is not discretely divergence free. *)
Theorem taylor_green_forcing_divergence_free_refuted :
  ~ (forall g scale z F f d, wfg g -> gndim g = 2%nat -> taylor_green_forcing g scale (IZR z) = Ok F -> F [] = Ok f -> divergence (as_periodic g f) = Ok d ->
      is_field d g (cell_center g) (fun _ => 0%R)).
Proof. exact (@taylor_green_forcing_divergence_free_refuted_lem). Qed.
Print Assumptions taylor_green_forcing_divergence_free_refuted.

(** C47. With the default kx = ky = 1, TaylorGreen.velocity samples, at all times, shapes and offsets, an exact solution of the incompressible Navier-Stokes equations whose kinematic viscosity is the given one, for every viscosity. *)
Theorem taylor_green_exact_solution : forall density nu,
  exists U V P, samples (fun shape t offsets => taylor_green_velocity shape density nu 1 1 t offsets) U V /\ solves_navier_stokes nu U V P /\
    forall t x y, (U t (x + 2 * PI) y = U t x y /\ U t x (y + 2 * PI) = U t x y /\ V t (x + 2 * PI) y = V t x y /\ V t x (y + 2 * PI) = V t x y)%R.
Proof. exact (@taylor_green_exact_solution_lem). Qed.
Print Assumptions taylor_green_exact_solution.

(** C47. With kx different from ky the velocity TaylorGreen samples is not incompressible: no pair of differentiable fields with those samples (kx = 1, ky = 2) has zero divergence. *)
Theorem taylor_green_incompressible_refuted :
  ~ (forall density nu kx ky, exists U V Ux Uy Vx Vy, samples (fun shape t offsets => taylor_green_velocity shape density nu kx ky t offsets) U V /\
       d_x U Ux /\ d_y U Uy /\ d_x V Vx /\ d_y V Vy /\ forall t x y, (Ux t x y + Vy t x y = 0)%R).
Proof. exact (@taylor_green_incompressible_refuted_lem). Qed.
Print Assumptions taylor_green_incompressible_refuted.

(** C47. With equal wave numbers kx = ky other than 1 (here 2) the decay rate is wrong: no differentiable velocity and pressure with those samples solve the Navier-Stokes equations with the given viscosity. *)
Theorem taylor_green_decay_refuted :
  ~ (forall density nu k, exists U V P, samples (fun shape t offsets => taylor_green_velocity shape density nu k k t offsets) U V /\ solves_navier_stokes nu U V P).
Proof. exact (@taylor_green_decay_refuted_lem). Qed.
Print Assumptions taylor_green_decay_refuted.

(** The hypotheses are met by a concrete case. *)
Example taylor_green_velocity_spec_ex : (0 < 3)%nat /\ (0 < 4)%nat /\ length [1; 1 # 2]%Q = 2%nat /\ length [1 # 2; 1]%Q = 2%nat.
Proof. exact (@taylor_green_velocity_spec_ex_lem). Qed.

(** The hypotheses are met by a concrete case. *)
Example taylor_green_forcing_spec_ex : let g := mkgrid [3; 4; 2]%nat [1; 2; 3]%R [(0, 3); (1, 9); (0, 6)]%R in wfg p34g /\ gndim p34g = 2%nat /\ wfg g /\ gndim g = 3%nat.
Proof. exact (@taylor_green_forcing_spec_ex_lem). Qed.

(** The hypotheses are met by a concrete case. *)
Example taylor_green_forcing_divergence_ex : let g := mkgrid [4; 4; 2]%nat [2; 2; 3]%R [(0, 8); (1, 9); (0, 6)]%R in
  wfg g /\ gndim g = 3%nat /\ nth 0 (gshape g) 0%nat = nth 1 (gshape g) 0%nat /\ hstep g 0 = hstep g 1 /\ sin (1 * angle g 0 (1 / 2) [0; 0; 0]) <> 0%R.
Proof. exact (@taylor_green_forcing_divergence_ex_lem). Qed.

(** The hypotheses are met by a concrete case. *)
Example taylor_green_exact_solution_ex : exists u v, taylor_green_velocity [3%nat; 4%nat] 1 (1 / 10) 1 1 2 (Some [[1; 1 # 2]; [1 # 2; 1]]%Q) = Ok [u; v] /\ get (gdata (garray u)) [2; 1] = (exp (-2 * (1 / 10) * 2) * sin (3 * PI / 4))%R.
Proof. exact (@taylor_green_exact_solution_ex_lem). Qed.
