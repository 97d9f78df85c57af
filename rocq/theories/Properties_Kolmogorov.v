(** Generated by tools/gen.py from KolmogorovProps.v: property theorems only. *)
From Verif Require Import Prelude NdArr LinAlg Cplx Grids_model Boundaries_model FastDiag_model TimeStep_model Forcings_model FourierProofs FourierLine Spectral_model SpectralProps SpectralUtilProps FourierPlane SpecFourier NS2DBase NS2DProps SpectralStep_model SpecStep StepRel NS2DConserve NS2DMoreProps NS2DWaveProps SpectralRunProps NS2DRunProps ForcedNS_model NS2DForceProps SpecKS SteadyProps.
From Verif Require Import KolmogorovProps.
Local Open Scope Z_scope.
Set Implicit Arguments.

(** C65. Runs of ForcedNavierStokes2D from rest, or from any multiple a cos(4 y) of the laminar vorticity, stay in that family: for every grid on which the forcing is periodic and resolved, every viscosity, smooth flag, spectral scheme, dt and number of steps, the run has the same outcome as the same scheme applied to the scalar problem da/dt = -4 - (16 viscosity + 1/10) a (the -4 explicit, the rest implicit): it fails with the same error, or succeeds with the spectrum of a cos(4 y) with the scalar result for a. In exact arithmetic the flow never becomes turbulent by itself. *)
Theorem kolmogorov_relaxation : forall (g : grid) (n m : nat) (hx hy : R) (dx : R * R) (lo hi : R) (kap : Z) (viscosity : R) (smooth : option bool) (k : spectral_scheme) (dt : R) (steps : nat) (a : R),
  grid2 g n m hx hy -> gdomain g = [dx; (lo, hi)] -> 0 < 2 * kap < Z.of_nat m -> (4 * (INR m * hy) = 2 * PI * IZR kap)%R ->
  let cosine := fun a : R => mkarr [n; m] (fun ix => a * cos (4 * (lo + IZR (nth 1 ix 0%Z) * hy)))%R in let damping := (16 * viscosity + 1 / 10)%R in
  res_rel (fun V y => shp V = [n; (m / 2 + 1)%nat] /\ forall i b, 0 <= i < Z.of_nat n -> 0 <= b <= Z.of_nat (m / 2) -> get V [i; b] = get (rfftn (cosine (y tt))) [i; b])
    (forced_ns2d_run g smooth viscosity k dt steps (rfftn (cosine a)))
    (spectral_steps k (fun _ _ => (-4)%R) (fun y x => - damping * y x)%R (fun y h x => y x / (1 + h * damping))%R dt steps (fun _ : unit => a)).
Proof. exact (@kolmogorov_relaxation_lem). Qed.
Print Assumptions kolmogorov_relaxation.

(** The hypotheses are met by a concrete case. *)
Example kolmogorov_relaxation_ex : exists V, forced_ns2d_run kol_grid (Some true) (1 / 1000) CrankNicolsonRK2 (1 / 100) 50 (rfftn (mkarr [4%nat; 16%nat] (fun ix => 0 * cos (4 * (0 + IZR (nth 1 ix 0%Z) * (PI / 8))))%R)) = Ok V.
Proof. exact (@kolmogorov_relaxation_ex_lem). Qed.

(** C65. The laminar Kolmogorov flow stays: started from the vorticity -4 cos(4 y) / (16 viscosity + 1/10), every number of steps of ForcedNavierStokes2D with backward_forward_euler, crank_nicolson_rk2, crank_nicolson_rk3 or imex_rk_sil3, for every dt >= 0, viscosity >= 0 and smooth flag, succeeds and returns the same spectrum. *)
Theorem laminar_kolmogorov_stays : forall (g : grid) (n m : nat) (hx hy : R) (dx : R * R) (lo hi : R) (kap : Z) (viscosity : R) (smooth : option bool) (k : spectral_scheme) (dt : R) (steps : nat),
  grid2 g n m hx hy -> gdomain g = [dx; (lo, hi)] -> 0 < 2 * kap < Z.of_nat m -> (4 * (INR m * hy) = 2 * PI * IZR kap)%R -> (0 <= viscosity)%R -> (0 <= dt)%R ->
  In k [BackwardForwardEuler; CrankNicolsonRK2; rk3_scheme; Imex sil3_tableau] ->
  let w := mkarr [n; m] (fun ix => - 4 / (16 * viscosity + 1 / 10) * cos (4 * (lo + IZR (nth 1 ix 0%Z) * hy)))%R in
  exists V, forced_ns2d_run g smooth viscosity k dt steps (rfftn w) = Ok V /\ shp V = [n; (m / 2 + 1)%nat] /\
    forall i b, 0 <= i < Z.of_nat n -> 0 <= b <= Z.of_nat (m / 2) -> get V [i; b] = get (rfftn w) [i; b].
Proof. exact (@laminar_kolmogorov_stays_lem). Qed.
Print Assumptions laminar_kolmogorov_stays.

(** The hypotheses are met by a concrete case. *)
Example laminar_kolmogorov_stays_ex : grid2 kol_grid 4 16 1 (PI / 8) /\ gdomain kol_grid = [(0%R, 4%R); (0%R, (2 * PI)%R)] /\ 0 < 2 * 4 < Z.of_nat 16 /\ (4 * (INR 16 * (PI / 8)) = 2 * PI * IZR 4)%R /\ (0 <= 1 / 1000)%R.
Proof. exact (@laminar_kolmogorov_stays_ex_lem). Qed.
