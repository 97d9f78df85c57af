(** Generated by tools/gen.py from FilterProps.v: property theorems only. *)
From Verif Require Import Prelude NdArr LinAlg Cplx Grids_model Spec Boundaries_model FD_model PRep FDProofs FDProps FastDiag_model FourierProofs Spectral_model Advection_model Equations_model PressureSolveProps EquationsProps ResizeProps Forcings_model SpecForce.
From Verif Require Import FilterProps.
Local Open Scope Z_scope.
Set Implicit Arguments.

(** C47. filter_utils.filter with any spectral density, on every grid (any dimension, sizes, steps) and every real array of the grid's shape, returns the real array each of whose Fourier coefficients is the input's times the density at the length of its wave vector, with the mean coefficient set to zero; so dropping the imaginary part loses nothing, and the result sums to zero. *)
Theorem spectral_filter_spec : forall S a g, wfg g -> shp a = gshape g ->
  exists b, spectral_filter S a g = Ok b /\ shp b = gshape g /\
    (forall kx, inb (gshape g) kx -> coefficient b kx = Cscal (filter_factor S g kx) (coefficient a kx)) /\ total b = 0%R.
Proof. exact (@spectral_filter_spec_lem). Qed.
Print Assumptions spectral_filter_spec.

(** C47. The work done by a filtered forcing, sum(u * filter(u)), is exactly (1/N) times the sum over Fourier modes of density times |coefficient|^2 (mean mode excluded): a nonnegative density never takes energy out and a nonpositive one never puts it in. *)
Theorem spectral_filter_energy : forall S a g, wfg g -> shp a = gshape g ->
  exists b, spectral_filter S a g = Ok b /\
    (asum (gshape g) (fun ix => get a ix * get b ix) = / INR (asize (gshape g)) * asum (gshape g) (fun kx => filter_factor S g kx * Cn2 (coefficient a kx)))%R /\
    ((forall k, (0 < k)%R -> (0 <= S k)%R) -> (0 <= asum (gshape g) (fun ix => get a ix * get b ix))%R) /\
    ((forall k, (0 < k)%R -> (S k <= 0)%R) -> (asum (gshape g) (fun ix => get a ix * get b ix) <= 0)%R).
Proof. exact (@spectral_filter_energy_lem). Qed.
Print Assumptions spectral_filter_energy.

(** C47. filtered_forcing returns, for each component of any velocity on the grid, a field at the same offset and grid whose Fourier coefficients are the component's times the density at their wave vector's length (mean excluded), so it never changes the mean velocity; filtered_linear_forcing multiplies exactly the modes with lower <= |k|/(2 pi) <= upper by its coefficient and the others by zero. *)
Theorem filtered_forcing_spec : forall S g v, wfg g -> (forall u, In u v -> ggrid (garray u) = g /\ shp (gdata (garray u)) = gshape g) ->
  exists l, filtered_forcing S g v = Ok l /\ length l = length v /\
    (forall i u w, nth_error v i = Some u -> nth_error l i = Some w ->
      ggrid w = g /\ goff w = goff (garray u) /\ shp (gdata w) = gshape g /\ total (gdata w) = 0%R /\
      forall kx, inb (gshape g) kx -> coefficient (gdata w) kx = Cscal (filter_factor S g kx) (coefficient (gdata (garray u)) kx)) /\
    forall lo hi c, (forall k, S k = if Rle_dec (2 * PI * lo) k then if Rle_dec k (2 * PI * hi) then c else 0%R else 0%R) -> filtered_linear_forcing lo hi c g v = Ok l.
Proof. exact (@filtered_forcing_spec_lem). Qed.
Print Assumptions filtered_forcing_spec.

(** The hypotheses are met by a concrete case. *)
Example spectral_filter_spec_ex : let a := mkarr [3%nat; 4%nat] (fun ix => if nth 0 ix 0 =? 0 then 1%R else 0%R) in
  wfg p34g /\ shp a = gshape p34g /\ total a = 4%R /\ filter_factor (fun k => k ^ 2)%R p34g [1; 3] = ((2 * PI / 3) ^ 2 + PI ^ 2)%R /\ filter_factor (fun k => k ^ 2)%R p34g [0; 0] = 0%R.
Proof. exact (@spectral_filter_spec_ex_lem). Qed.

(** The hypotheses are met by a concrete case. *)
Example spectral_filter_energy_ex : wfg p34g /\ shp (gdata (garray (nth 0 p34v dgv))) = gshape p34g /\ (forall k, (0 < k)%R -> (0 <= k ^ 2)%R) /\ (forall k, (0 < k)%R -> (- k <= 0)%R).
Proof. exact (@spectral_filter_energy_ex_lem). Qed.

(** The hypotheses are met by a concrete case. *)
Example filtered_forcing_spec_ex : wfg p34g /\ (forall u, In u p34v -> ggrid (garray u) = p34g /\ shp (gdata (garray u)) = gshape p34g) /\ length p34v = 2%nat.
Proof. exact (@filtered_forcing_spec_ex_lem). Qed.
