(** Generated by tools/gen.py from VortProps.v: property theorems only. *)
From Verif Require Import Prelude NdArr LinAlg Cplx Grids_model FastDiag_model FourierProofs FourierLine Spectral_model SpectralProps SpectralUtilProps FourierPlane SpecFourier NS2DBase ArrayUtils_model Rollout_model Networks_model Viscosities_model VortCodec_model SpecVort PRep.
From Verif Require Import VortProps.
Local Open Scope Z_scope.
Set Implicit Arguments.

(** C70. Spectral codec: for every grid with an even number of points on its last axis, every pair of trajectories whose last frames form a velocity without divergence (at every stored wave vector), spectral_vorticity_decoder(spectral_vorticity_encoder((u, v))) returns the last frames minus their mean values, exactly; only the mean flow is lost. *)
Theorem spectral_vorticity_round_trip : forall (g : grid) (n m : nat) (hx hy : R) (a b : arr R) (u v : Z -> Z -> R),
  grid2 g n m hx hy -> Nat.Even m -> ends_with n m a u -> ends_with n m b v -> solenoidal n m (INR n * hx) (INR m * hy) u v ->
  exists W x y, spectral_vorticity_encoder g [a; b] = Ok W /\ shp W = [n; (m / 2 + 1)%nat] /\ spectral_vorticity_decoder g W = Ok [x; y] /\
    shows n m x (fun i j => u i j - mean2 n m u)%R /\ shows n m y (fun i j => v i j - mean2 n m v)%R.
Proof. exact (@spectral_vorticity_round_trip_lem). Qed.
Print Assumptions spectral_vorticity_round_trip.

(** The hypotheses are met by a concrete case. *)
Example spectral_vorticity_round_trip_ex : grid2 ex_grid2 4 4 (1/4) (1/2) /\ Nat.Even 4 /\ ends_with 4 4 (shear_frames shear_u) shear_u /\ ends_with 4 4 (shear_frames still) still /\
  solenoidal 4 4 (INR 4 * (1/4)) (INR 4 * (1/2)) shear_u still /\ shear_u 0 2 = 3%R.
Proof. exact (@spectral_vorticity_round_trip_ex_lem). Qed.

(** C70. Vorticity in physical space: for every grid with an even last axis and every pair of trajectories, vorticity_encoder returns one channel that is the curl dv/dx - du/dy of the last frames - every Fourier coefficient below the highest wave numbers is 2 pi i (kx v^ - ky u^) - so its mean is zero; vorticity_velocity_encoder returns the last frames of u and v and that same vorticity, in this order, as three channels. *)
Theorem vorticity_encoder_is_curl : forall (g : grid) (n m : nat) (hx hy : R) (a b : arr R) (u v : Z -> Z -> R),
  grid2 g n m hx hy -> Nat.Even m -> ends_with n m a u -> ends_with n m b v ->
  exists w y z, vorticity_encoder g [a; b] = Ok y /\ vorticity_velocity_encoder g [a; b] = Ok z /\ shp y = [n; m; 1%nat] /\ shp z = [n; m; 3%nat] /\
    curl_of n m (INR n * hx) (INR m * hy) u v w /\ mean2 n m w = 0%R /\
    forall i j, 0 <= i < Z.of_nat n -> 0 <= j < Z.of_nat m ->
      get y [i; j; 0] = w i j /\ get z [i; j; 0] = u i j /\ get z [i; j; 1] = v i j /\ get z [i; j; 2] = w i j.
Proof. exact (@vorticity_encoder_is_curl_lem). Qed.
Print Assumptions vorticity_encoder_is_curl.

(** The hypotheses are met by a concrete case. *)
Example vorticity_encoder_is_curl_ex : grid2 ex_grid2 4 4 (1/4) (1/2) /\ Nat.Even 4 /\ ends_with 4 4 (shear_frames shear_u) shear_u /\ ends_with 4 4 (shear_frames still) still.
Proof. exact (@vorticity_encoder_is_curl_ex_lem). Qed.

(** C70. Physical codec: when the last frames have no divergence and nothing at the highest wave numbers, vorticity_decoder(vorticity_encoder((u, v))) returns the last frames minus their mean values, exactly. *)
Theorem vorticity_round_trip : forall (g : grid) (n m : nat) (hx hy : R) (a b : arr R) (u v : Z -> Z -> R),
  grid2 g n m hx hy -> Nat.Even m -> ends_with n m a u -> ends_with n m b v -> solenoidal n m (INR n * hx) (INR m * hy) u v -> resolved n m u -> resolved n m v ->
  exists w x y, vorticity_encoder g [a; b] = Ok w /\ vorticity_decoder g w = Ok [x; y] /\
    shows n m x (fun i j => u i j - mean2 n m u)%R /\ shows n m y (fun i j => v i j - mean2 n m v)%R.
Proof. exact (@vorticity_round_trip_lem). Qed.
Print Assumptions vorticity_round_trip.

(** The hypotheses are met by a concrete case. *)
Example vorticity_round_trip_ex : grid2 ex_grid2 4 4 (1/4) (1/2) /\ Nat.Even 4 /\ ends_with 4 4 (shear_frames smooth_shear) smooth_shear /\ ends_with 4 4 (shear_frames still) still /\
  solenoidal 4 4 (INR 4 * (1/4)) (INR 4 * (1/2)) smooth_shear still /\ resolved 4 4 smooth_shear /\ resolved 4 4 still /\ smooth_shear 0 1 = 3%R.
Proof. exact (@vorticity_round_trip_ex_lem). Qed.
