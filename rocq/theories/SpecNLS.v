(** * Vocabulary for the nonlinear Schroedinger equation
    i psi_t = (1/8) psi_xx + (1/2) |psi|^2 psi on a periodic interval, by its spectrum U = fft(psi). *)
From Verif Require Import Prelude NdArr Cplx Spectral_model SpecFourier.
Set Implicit Arguments.
Local Open Scope Z_scope.

(** Moving from U in the direction Z. *)
Definition along (U Z : arr cplx) (t : R) : arr cplx := amap2 (fun u z => Cadd u (Cscal t z)) U Z.
(** The mass (number of photons), up to the factor 1/n: the sum of |U_k|^2. *)
Definition nls_mass (n : nat) (U : arr cplx) : R := rsum n (fun k => Cn2 (get U [k])).
(** The grid values of the field: on the grid itself, or, dealiased, on the grid of twice as many points. *)
Definition field_values (smooth : bool) (U : arr cplx) : result (arr cplx) := if smooth then padded_ifft_2x U else plain_ifft U.
(** The Hamiltonian: the sum over the grid of (1/4) |psi|^4 - (1/8) |psi_x|^2 (by Parseval for the second term; per point
    of the original grid). *)
Definition nls_energy (n : nat) (L : R) (smooth : bool) (U : arr cplx) : R :=
  (match field_values smooth U with
   | Ok psi => / 4 * rsum (nth 0%nat (shp psi) 0%nat) (fun j => Cn2 (get psi [j]) ^ 2) / (if smooth then 2 else 1)
   | Err _ => 0
   end
   - / 8 * rsum n (fun k => (2 * PI * IZR (row_wave n k) / L) ^ 2 * Cn2 (get U [k])) / INR n)%R.
(** The spectrum of [c psi(x + s h)], the field rotated by the phase c and moved by s grid cells. *)
Definition moved_mode (n : nat) (c : cplx) (s k : Z) : cplx := Cmul c (cis (2 * PI * IZR (k * s) / INR n)).
