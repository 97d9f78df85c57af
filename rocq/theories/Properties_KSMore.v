(** Generated by tools/gen.py from KSMoreProps.v: property theorems only. *)
From Verif Require Import Prelude NdArr Spec LinAlg Cplx Grids_model FastDiag_model TimeStep_model FourierProofs FourierLine Spectral_model SpectralProps SpectralUtilProps SpectralPadProps FourierShift RealShift SpecFourier TimeStepProps SpectralStep_model SpecStep SpecKS StepRel SpectralRunProps NS2DBase NS2DRunProps KSRunProps.
From Verif Require Import KSMoreProps.
Local Open Scope Z_scope.
Set Implicit Arguments.

(** C67. Runs of the Kuramoto-Sivashinsky equation never change the mean: for every grid with an even number of points (a multiple of 4 with dealiasing), every initial spectrum, scheme, step size and number of steps, a run that succeeds returns a spectrum whose mean mode is exactly the initial one. *)
Theorem ks_mean_constant : forall (g : grid) (n : nat) (h : R) (smooth : bool) (k : spectral_scheme) (dt : R) (steps : nat) (U V : arr cplx),
  good_size smooth n -> grid1 g (2 * n) h -> shp U = [(n + 1)%nat] -> ks_run g smooth k dt steps U = Ok V -> shp V = shp U /\ get V [0] = get U [0].
Proof. exact (@ks_mean_constant_lem). Qed.
Print Assumptions ks_mean_constant.

(** The hypotheses are met by a concrete case. *)
Example ks_mean_constant_ex : exists V, good_size true 2 /\ grid1 ex_grid1 (2 * 2) (1/4) /\ shp (afull [3%nat] C1) = [(2 + 1)%nat] /\ ks_run ex_grid1 true CrankNicolsonRK2 1 3 (afull [3%nat] C1) = Ok V.
Proof. exact (@ks_mean_constant_ex_lem). Qed.

(** C67. The clock of the (forced) Burgers equation. On every grid of N = 4q points, for every forcing function returning N values, viscosity, initial spectrum, initial time t0, step size and number of steps, runs with backward_forward_euler, crank_nicolson_rk2, crank_nicolson_rk3 and imex_rk_sil3 succeed and end at time exactly t0 + steps * dt; with crank_nicolson_rk4 the final time is within steps * |dt| / 10^13 of it (its coefficients are decimals). *)
Theorem burgers_clock : forall (g : grid) (n : nat) (h nu dt t0 : R) (forcing : option (R -> arr R)) (steps : nat) (U : arr cplx),
  good_size true n -> grid1 g (2 * n) h -> (forall f t, forcing = Some f -> shp (f t) = [(2 * n)%nat]) -> shp U = [(n + 1)%nat] ->
  (forall k, In k [BackwardForwardEuler; CrankNicolsonRK2; rk3_scheme; Imex sil3_tableau] ->
     exists V, burgers_run g forcing nu k dt steps (U, t0) = Ok (V, t0 + INR steps * dt)%R /\ shp V = shp U) /\
  (exists V t, burgers_run g forcing nu rk4_scheme dt steps (U, t0) = Ok (V, t) /\ shp V = shp U /\ (Rabs (t - (t0 + INR steps * dt)) <= INR steps * (Rabs dt / 10 ^ 13))%R).
Proof. exact (@burgers_clock_lem). Qed.
Print Assumptions burgers_clock.

(** The hypotheses are met by a concrete case. *)
Example burgers_clock_ex : good_size true 2 /\ grid1 ex_grid1 (2 * 2) (1/4) /\ (forall f t, Some (fun t : R => afull [4%nat] (sin t)) = Some f -> shp (f t) = [(2 * 2)%nat]) /\ shp (afull [3%nat] C1) = [(2 + 1)%nat].
Proof. exact (@burgers_clock_ex_lem). Qed.
