(** Generated by tools/gen.py from VortForcingProps.v: property theorems only. *)
From Verif Require Import Prelude NdArr LinAlg Cplx Grids_model Boundaries_model FastDiag_model FourierProofs FourierLine Spectral_model SpectralProps SpectralUtilProps SpectralPadProps FourierPlane SpecFourier NS2DBase ArrayUtils_model Rollout_model Networks_model Viscosities_model VortCodec_model SpecVort PRep VortProps VortForcing_model.
From Verif Require Import VortForcingProps.
Local Open Scope Z_scope.
Set Implicit Arguments.

(** C98. vorticity_space_forcing on a grid with an even last axis: given the vorticity of a velocity (u, v) without divergence and nothing at the highest wave numbers, it calls the forcing once, on that velocity less its mean, as periodic fields at offset (0, 0); and returns an array of the grid's shape that is the curl of the force - every Fourier coefficient below the highest wave numbers is 2 pi i (kx fv^ - ky fu^) - so that it has no mean, whatever the forcing. *)
Theorem vorticity_space_forcing_is_curl : forall (g : grid) (n m : nat) (hx hy : R) (a b : arr R) (u v : Z -> Z -> R) (forcing : list gvar -> result (list garr)) (fx fy : Z -> Z -> R),
  grid2 g n m hx hy -> Nat.Even m -> ends_with n m a u -> ends_with n m b v -> solenoidal n m (INR n * hx) (INR m * hy) u v -> resolved n m u -> resolved n m v ->
  (forall x y, shows n m x (fun i j => u i j - mean2 n m u)%R -> shows n m y (fun i j => v i j - mean2 n m v)%R ->
     exists fu fv, forcing [mkgv (mkga x [0; 0]%Q g) (periodic_bc 2); mkgv (mkga y [0; 0]%Q g) (periodic_bc 2)] = Ok [fu; fv] /\ shows n m (gdata fu) fx /\ shows n m (gdata fv) fy) ->
  exists w r, vorticity_encoder g [a; b] = Ok w /\ vorticity_space_forcing g forcing w = Ok r /\ shp r = [n; m] /\
    curl_of n m (INR n * hx) (INR m * hy) fx fy (fun i j => get r [i; j]) /\ mean2 n m (fun i j => get r [i; j]) = 0%R.
Proof. exact (@vorticity_space_forcing_is_curl_lem). Qed.
Print Assumptions vorticity_space_forcing_is_curl.

(** The hypotheses are met by a concrete case. *)
Example vorticity_space_forcing_is_curl_ex : exists w r, vorticity_encoder ex_grid2 [shear_frames smooth_shear; shear_frames still] = Ok w /\
  vorticity_space_forcing ex_grid2 (fun v => Ok (map (fun x => mkga (amap (fun z => 3 * z)%R (gdata (garray x))) (goff (garray x)) (ggrid (garray x))) v)) w = Ok r /\ shp r = [4%nat; 4%nat].
Proof. exact (@vorticity_space_forcing_is_curl_ex_lem). Qed.
