(** Generated by tools/gen.py from NS2DWaveProps.v: property theorems only. *)
From Verif Require Import Prelude NdArr LinAlg Cplx Grids_model FastDiag_model FourierProofs FourierLine Spectral_model SpectralProps SpectralUtilProps FourierPlane SpecFourier NS2DBase NS2DProps NS2DConserve NS2DMoreProps.
From Verif Require Import NS2DWaveProps.
Local Open Scope Z_scope.
Set Implicit Arguments.

(** C65. Flows with a single wave length are steady for the explicit terms: on every grid with at least two columns (even or odd), if all the wave vectors present in the vorticity spectrum (apart from the mean) have the same length - Taylor-Green vortices, Kolmogorov flow, any eigenfunction of the Laplacian - then the unforced NavierStokes2D.explicit_terms succeeds and is exactly zero, whatever the smooth flag. *)
Theorem single_wave_length_is_steady : forall (g : grid) (n m : nat) (hx hy k2 : R) (smooth : option bool) (W : arr cplx),
  grid2 g n m hx hy -> (2 <= m)%nat -> shp W = [n; (m / 2 + 1)%nat] -> one_wave_length n m (INR n * hx) (INR m * hy) k2 W ->
  exists N, ns2d_explicit_terms g smooth None W = Ok N /\ shp N = [n; (m / 2 + 1)%nat] /\
    forall i b, 0 <= i < Z.of_nat n -> 0 <= b <= Z.of_nat (m / 2) -> get N [i; b] = C0.
Proof. exact (@single_wave_length_is_steady_lem). Qed.
Print Assumptions single_wave_length_is_steady.

(** The hypotheses are met by a concrete case. *)
Example single_wave_length_is_steady_ex : grid2 sq_grid 6 6 1 1 /\ shp two_waves = [6%nat; (6 / 2 + 1)%nat] /\ one_wave_length 6 6 (INR 6 * 1) (INR 6 * 1) (2 / 36) two_waves /\ get two_waves [5; 1] = C1 /\ get two_waves [1; 1] = C1.
Proof. exact (@single_wave_length_is_steady_ex_lem). Qed.
