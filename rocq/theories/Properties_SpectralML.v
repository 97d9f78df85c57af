(** Generated by tools/gen.py from SpectralMLProps.v: property theorems only. *)
From Verif Require Import Prelude NdArr LinAlg Cplx Grids_model Boundaries_model FD_model Advection_model FastDiag_model TimeStep_model TimeStepProps Forcings_model FourierProofs FourierLine Spectral_model SpectralProps SpectralUtilProps FourierPlane SpecFourier NS2DBase NS2DProps SpectralStep_model SpecStep StepRel NS2DConserve NS2DMoreProps NS2DWaveProps SpectralRunProps NS2DRunProps ForcedNS_model NS2DForceProps SpecKS SpectralML_model SpecSpectralML.
From Verif Require Import SpectralMLProps.
Local Open Scope Z_scope.
Set Implicit Arguments.

(** C92. modular_spectral_step_fn with do_filter_step=True, for every scheme, forcing, viscosity, drag and dt, on every square grid with an even number n of points per side: whenever the step without the filter succeeds with spectrum x, so does the step with it, and its result is the spectrum of a real n x n field; its wave (a, b) is the wave of the real field of x times 10^(-6 ((a/n)^2 + (b/n)^2)^2); its mean vorticity is exactly that of x; and its enstrophy (the sum of squares of the vorticity field) is at most that of x. *)
Theorem filtered_step : forall (g : grid) (n : nat) (nu drag dt : R) (smooth : bool) forcing (k : spectral_scheme) (W x : arr cplx),
  (2 <= n)%nat -> Nat.Even n -> shp W = [n; (n / 2 + 1)%nat] ->
  modular_spectral_step g smooth forcing nu drag k dt false W = Ok x ->
  exists out, modular_spectral_step g smooth forcing nu drag k dt true W = Ok out /\ shp out = shp W /\
    (exists f, shp f = [n; n] /\ out = rfftn f) /\
    (forall i b, 0 <= i < Z.of_nat n -> 0 <= b <= Z.of_nat (n / 2) -> (0 < filter_factor n i b <= 1)%R /\ get out [i; b] = Cscal (filter_factor n i b) (get (rfftn (irfftn x)) [i; b])) /\
    get out [0; 0] = RtoC (re (get x [0; 0])) /\
    (asum [n; n] (fun ix => get (irfftn out) ix ^ 2) <= asum [n; n] (fun ix => get (irfftn x) ix ^ 2))%R.
Proof. exact (@filtered_step_lem). Qed.
Print Assumptions filtered_step.

(** C92. The filter needs a square grid: if the grid has n x m points with m even and n / 2 <> m / 2, the step with do_filter_step=True always fails. *)
Theorem filter_needs_square : forall (g : grid) (n m : nat) (nu drag dt : R) (smooth : bool) forcing (k : spectral_scheme) (W : arr cplx),
  Nat.Even m -> (0 < n)%nat -> (0 < m)%nat -> (n / 2 <> m / 2)%nat -> shp W = [n; (m / 2 + 1)%nat] -> ~ is_ok (modular_spectral_step g smooth forcing nu drag k dt true W).
Proof. exact (@filter_needs_square_lem). Qed.
Print Assumptions filter_needs_square.

(** The hypotheses are met by a concrete case. *)
Example filter_needs_square_ex : Nat.Even 6 /\ (4 / 2 <> 6 / 2)%nat /\ shp (mkarr [4%nat; 4%nat] (fun _ => C1)) = [4%nat; (6 / 2 + 1)%nat].
Proof. exact (@filter_needs_square_ex_lem). Qed.

(** The hypotheses are met by a concrete case. *)
Example filtered_step_ex : (2 <= 6)%nat /\ Nat.Even 6 /\ shp two_waves = [6%nat; (6 / 2 + 1)%nat] /\ get two_waves [5; 1] = C1 /\
  exists x, modular_spectral_step sq_grid true None (1 / 1000) (1 / 10) rk4_scheme (1 / 10) false two_waves = Ok x.
Proof. exact (@filtered_step_ex_lem). Qed.

(** C92. Flows whose waves all have the same length (Taylor-Green vortices, Kolmogorov flow), with the filter on, on every square grid with an even number of points per side: the step functions never couple the waves; each step multiplies wave (a, b) by the scheme's amplification factor (as without the filter) and by the filter factor 10^(-6 ((a/n)^2 + (b/n)^2)^2), so the filter acts once per step, whatever the length of the step. *)
Theorem filtered_runs : forall (g : grid) (n : nat) (hx hy k2 nu drag dt : R) (smooth : bool) (k : spectral_scheme) (A : R -> R) (w : arr R) (steps : nat),
  grid2 g n n hx hy -> (2 <= n)%nat -> Nat.Even n -> shp w = [n; n] -> one_wave_length n n (INR n * hx) (INR n * hy) k2 (rfftn w) ->
  let rate := mode_rate n n (INR n * hx) (INR n * hy) nu drag in
  (forall i b, 0 <= i < Z.of_nat n -> 0 <= b <= Z.of_nat (n / 2) -> amplification k dt (rate i b) = Ok (A (rate i b))) ->
  exists U V, modular_spectral_run g smooth None nu drag k dt false steps (rfftn w) = Ok U /\ modular_spectral_run g smooth None nu drag k dt true steps (rfftn w) = Ok V /\
    forall i b, 0 <= i < Z.of_nat n -> 0 <= b <= Z.of_nat (n / 2) ->
      get U [i; b] = Cscal (A (rate i b) ^ steps) (get (rfftn w) [i; b]) /\
      get V [i; b] = Cscal (A (rate i b) ^ steps * filter_factor n i b ^ steps) (get (rfftn w) [i; b]).
Proof. exact (@filtered_runs_lem). Qed.
Print Assumptions filtered_runs.

(** The hypotheses are met by a concrete case. *)
Example filtered_runs_ex : grid2 sq_grid 6 6 1 1 /\ Nat.Even 6 /\ shp cosine_field = [6%nat; 6%nat] /\ one_wave_length 6 6 (INR 6 * 1) (INR 6 * 1) (1 / 36) (rfftn cosine_field) /\ get (rfftn cosine_field) [0; 1] = RtoC 18 /\
  exists A, forall i b, amplification rk4_scheme (1 / 10) (mode_rate 6 6 (INR 6 * 1) (INR 6 * 1) (1 / 1000) (1 / 10) i b) = Ok (A (mode_rate 6 6 (INR 6 * 1) (INR 6 * 1) (1 / 1000) (1 / 10) i b)).
Proof. exact (@filtered_runs_ex_lem). Qed.

(** C92. (Defect) Because the filter acts once per step, the filtered model has no limit for small time steps other than rest: take any flow whose waves all have the same length, without viscosity and drag. It is an exact steady flow, and the default crank_nicolson_rk4 model without the filter returns it unchanged for every dt and number of steps. With the filter, and for any final time T, the wave (a, b) at time T computed with steps T/N tends to zero as N grows, for every wave but the mean. *)
Theorem filter_has_no_step_limit : forall (g : grid) (n : nat) (hx hy k2 T : R) (smooth : bool) (w : arr R) (i b : Z),
  grid2 g n n hx hy -> (2 <= n)%nat -> Nat.Even n -> shp w = [n; n] -> one_wave_length n n (INR n * hx) (INR n * hy) k2 (rfftn w) ->
  0 <= i < Z.of_nat n -> 0 <= b <= Z.of_nat (n / 2) -> (i <> 0 \/ b <> 0) ->
  (forall steps, exists U, modular_spectral_run g smooth None 0 0 rk4_scheme (T / INR steps) false steps (rfftn w) = Ok U /\ get U [i; b] = get (rfftn w) [i; b]) /\
  (forall eps, (0 < eps)%R -> exists N, forall steps, (N <= steps)%nat ->
     exists V, modular_spectral_run g smooth None 0 0 rk4_scheme (T / INR steps) true steps (rfftn w) = Ok V /\ (Cabs (get V [i; b]) <= eps * Cabs (get (rfftn w) [i; b]))%R).
Proof. exact (@filter_has_no_step_limit_lem). Qed.
Print Assumptions filter_has_no_step_limit.

(** The hypotheses are met by a concrete case. *)
Example filter_has_no_step_limit_ex : grid2 sq_grid 6 6 1 1 /\ Nat.Even 6 /\ shp cosine_field = [6%nat; 6%nat] /\ one_wave_length 6 6 (INR 6 * 1) (INR 6 * 1) (1 / 36) (rfftn cosine_field) /\ Cabs (get (rfftn cosine_field) [0; 1]) = 18%R.
Proof. exact (@filter_has_no_step_limit_ex_lem). Qed.
