(** Generated by tools/gen.py from NS2DRunProps.v: property theorems only. *)
From Verif Require Import Prelude NdArr LinAlg Cplx Grids_model FastDiag_model TimeStep_model TimeStepProps FourierProofs FourierLine Spectral_model SpectralProps SpectralUtilProps FourierPlane SpecFourier NS2DBase NS2DProps SpectralStep_model SpecStep StepRel NS2DConserve NS2DMoreProps NS2DWaveProps SpectralRunProps.
From Verif Require Import NS2DRunProps.
Local Open Scope Z_scope.
Set Implicit Arguments.

(** C65. Unconditional stability of the implicit parts: for a damped mode (lam <= 0) and any time step dt >= 0, however large, the amplification factor of backward_forward_euler, crank_nicolson_rk2, low_storage_runge_kutta_crank_nicolson (for non-decreasing alphas, e.g. crank_nicolson_rk3 and crank_nicolson_rk4) and imex_rk_sil3 exists and is at most one in modulus. *)
Theorem damped_modes_never_grow : forall (dt lam : R) (k : spectral_scheme), (0 <= dt)%R -> (lam <= 0)%R ->
  (k = BackwardForwardEuler \/ k = CrankNicolsonRK2 \/ k = Imex sil3_tableau \/
   exists al be ga, k = LowStorage al be ga /\ length al = S (length be) /\ length ga = length be /\ forall j, (j < length be)%nat -> (nth j al 0 <= nth (S j) al 0)%R) ->
  exists a, amplification k dt lam = Ok a /\ (Rabs a <= 1)%R.
Proof. exact (@damped_modes_never_grow_lem). Qed.
Print Assumptions damped_modes_never_grow.

(** The hypotheses are met by a concrete case. *)
Example damped_modes_never_grow_ex : (0 <= 100)%R /\ (-5 <= 0)%R /\ exists al be ga : list R, length al = S (length be) /\ length ga = length be /\ length be = 3%nat /\ forall j, (j < length be)%nat -> (nth j al 0 <= nth (S j) al 0)%R.
Proof. exact (@damped_modes_never_grow_ex_lem). Qed.

(** C65. Runs of the unforced NavierStokes2D equation stay inside the 2/3 band, and the mean vorticity does not feel the nonlinearity: on every grid with n >= 3 rows and an even number of columns, from every initial vorticity inside the band, for every spectral scheme, dt, viscosity, drag and number of steps, the run has the same outcome as the scalar linear problem d(mean)/dt = -drag * mean for the mean mode: it fails with the same error or succeeds with that mean mode and a spectrum inside the band. Without drag the mean vorticity never changes. *)
Theorem ns2d_runs_mean : forall (g : grid) (n m : nat) (hx hy nu drag dt : R) (smooth : bool) (k : spectral_scheme) (steps : nat) (W : arr cplx),
  grid2 g n m hx hy -> (3 <= n)%nat -> Nat.Even m -> shp W = [n; (m / 2 + 1)%nat] -> band_limited n m W ->
  res_rel (fun V y => shp V = shp W /\ band_limited n m V /\ get V [0; 0] = mkC (y false) (y true))
    (ns2d_run g (Some smooth) None nu drag k dt steps W)
    (linear_run (fun _ : bool => (- drag)%R) k dt steps (fun c => if c then im (get W [0; 0]) else re (get W [0; 0]))) /\
  (drag = 0%R -> forall V, ns2d_run g (Some smooth) None nu drag k dt steps W = Ok V -> get V [0; 0] = get W [0; 0]).
Proof. exact (@ns2d_runs_mean_lem). Qed.
Print Assumptions ns2d_runs_mean.

(** The hypotheses are met by a concrete case. *)
Example ns2d_runs_mean_ex : grid2 sq_grid 6 6 1 1 /\ Nat.Even 6 /\ shp kept_wave = [6%nat; (6 / 2 + 1)%nat] /\ band_limited 6 6 kept_wave.
Proof. exact (@ns2d_runs_mean_ex_lem). Qed.

(** C65. Flows with a single wave length decay exactly: on every grid with at least two columns, if all wave vectors present in the initial vorticity (apart from the mean) have the same length, then for every spectral scheme, dt, viscosity, drag, smooth flag and number of steps, the unforced NavierStokes2D run has the same outcome as the decoupled linear problem in which every stored mode decays at its own rate -(viscosity |2 pi k|^2 + drag): after n steps every mode has been multiplied by the n-th power of the scheme's amplification factor, as computed by linear_run_powers and amplification_factors, with no interaction between modes. *)
Theorem single_wave_length_runs : forall (g : grid) (n m : nat) (hx hy k2 nu drag dt : R) (smooth : option bool) (k : spectral_scheme) (steps : nat) (W : arr cplx),
  grid2 g n m hx hy -> (2 <= m)%nat -> shp W = [n; (m / 2 + 1)%nat] -> one_wave_length n m (INR n * hx) (INR m * hy) k2 W ->
  res_rel (fun V y => shp V = shp W /\ one_wave_length n m (INR n * hx) (INR m * hy) k2 V /\
                      forall i b, 0 <= i < Z.of_nat n -> 0 <= b <= Z.of_nat (m / 2) -> get V [i; b] = mkC (y (false, (i, b))) (y (true, (i, b))))
    (ns2d_run g smooth None nu drag k dt steps W)
    (linear_run (fun x : bool * (Z * Z) => mode_rate n m (INR n * hx) (INR m * hy) nu drag (fst (snd x)) (snd (snd x))) k dt steps
                (fun x => let z := get W [fst (snd x); snd (snd x)] in if fst x then im z else re z)).
Proof. exact (@single_wave_length_runs_lem). Qed.
Print Assumptions single_wave_length_runs.

(** The hypotheses are met by a concrete case. *)
Example single_wave_length_runs_ex : grid2 sq_grid 6 6 1 1 /\ shp two_waves = [6%nat; (6 / 2 + 1)%nat] /\ one_wave_length 6 6 (INR 6 * 1) (INR 6 * 1) (2 / 36) two_waves /\ get two_waves [5; 1] = C1 /\ get two_waves [1; 1] = C1.
Proof. exact (@single_wave_length_runs_ex_lem). Qed.
