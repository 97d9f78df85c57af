(** Generated by tools/gen.py from VortMoreProps.v: property theorems only. *)
From Verif Require Import Prelude NdArr LinAlg Cplx Grids_model FastDiag_model FourierProofs FourierLine Spectral_model SpectralProps SpectralUtilProps SpectralPadProps FourierPlane SpecFourier NS2DBase ArrayUtils_model Rollout_model Networks_model Viscosities_model VortCodec_model SpecVort PRep VortProps.
From Verif Require Import VortMoreProps.
Local Open Scope Z_scope.
Set Implicit Arguments.

(** C70. The other way round: for every grid with an even last axis and every stored spectrum of a real field of zero mean with nothing at the highest wave numbers, the velocity made by spectral_vorticity_decoder lives on the grid and has no mean and no divergence, and spectral_vorticity_encoder of any trajectories that end with it gives the spectrum back, mode by mode. *)
Theorem spectral_decode_encode : forall (g : grid) (n m : nat) (hx hy : R) (W : arr cplx) (w : Z -> Z -> R),
  grid2 g n m hx hy -> Nat.Even m -> half_spectrum n m W w -> resolved n m w -> mean2 n m w = 0%R ->
  exists x y u v, spectral_vorticity_decoder g W = Ok [x; y] /\ shows n m x u /\ shows n m y v /\ mean2 n m u = 0%R /\ mean2 n m v = 0%R /\
    solenoidal n m (INR n * hx) (INR m * hy) u v /\
    forall a b, ends_with n m a u -> ends_with n m b v -> exists W', spectral_vorticity_encoder g [a; b] = Ok W' /\ half_spectrum n m W' w.
Proof. exact (@spectral_decode_encode_lem). Qed.
Print Assumptions spectral_decode_encode.

(** The hypotheses are met by a concrete case. *)
Example spectral_decode_encode_ex : grid2 ex_grid2 4 4 (1/4) (1/2) /\ Nat.Even 4 /\ half_spectrum 4 4 wavy_spectrum wavy /\ resolved 4 4 wavy /\ mean2 4 4 wavy = 0%R /\ wavy 0 1 = 2%R.
Proof. exact (@spectral_decode_encode_ex_lem). Qed.

(** C70. Limit of both codecs: when the last axis has an odd number m >= 3 of points, decoding any spectrum of the grid succeeds but gives velocities with only m - 1 points on that axis, because irfft2 is not told the length; the codec needs an even last axis. *)
Theorem vorticity_decoder_odd_axis_refuted : forall (g : grid) (n m : nat) (hx hy : R) (W : arr cplx),
  grid2 g n m hx hy -> Nat.Odd m -> (3 <= m)%nat -> shp W = [n; (m / 2 + 1)%nat] ->
  exists x y, spectral_vorticity_decoder g W = Ok [x; y] /\ shp x = [n; (m - 1)%nat] /\ shp y = [n; (m - 1)%nat] /\ shp x <> gshape g.
Proof. exact (@vorticity_decoder_odd_axis_refuted_lem). Qed.
Print Assumptions vorticity_decoder_odd_axis_refuted.

(** C70. Spectral downsampling: on every grid with even numbers of points and for every factor r, if the spectrum of the r times finer grid only has waves that the coarse grid can show (below its highest wave numbers), the field of downsample_spectral's result is the fine field sampled at every r-th point of each axis, exactly. *)
Theorem spectral_downsampling_samples : forall (g : grid) (r n m : nat) (hx hy : R) (W : arr cplx),
  grid2 g n m hx hy -> (0 < r)%nat -> Nat.Even n -> Nat.Even m -> shp W = [(r * n)%nat; (r * m / 2 + 1)%nat] -> fits (r * n) (r * m) n m W ->
  exists D x y, downsample_spectral g W = Ok D /\ shp D = [n; (m / 2 + 1)%nat] /\ irfft2 W = Ok x /\ irfft2 D = Ok y /\ shp x = [(r * n)%nat; (r * m)%nat] /\
    shows n m y (fun i j => get x [Z.of_nat r * i; Z.of_nat r * j]).
Proof. exact (@spectral_downsampling_samples_lem). Qed.
Print Assumptions spectral_downsampling_samples.

(** The hypotheses are met by a concrete case. *)
Example spectral_downsampling_samples_ex : grid2 ex_grid2 4 4 (1/4) (1/2) /\ Nat.Even 4 /\ shp one_wave = [(2 * 4)%nat; (2 * 4 / 2 + 1)%nat] /\ fits (2 * 4) (2 * 4) 4 4 one_wave /\ get one_wave [1; 1] = C1.
Proof. exact (@spectral_downsampling_samples_ex_lem). Qed.

(** C70. Limit of the previous theorem, different factors: downsample_spectral takes its scale from the first axis only. With factors r and s on the two axes the result is the sampled field times s / r, so it is wrong for every nonzero field when r <> s. *)
Theorem spectral_downsampling_two_factors_refuted : forall (g : grid) (r s n m : nat) (hx hy : R) (W : arr cplx),
  grid2 g n m hx hy -> (0 < r)%nat -> (0 < s)%nat -> Nat.Even n -> Nat.Even m -> shp W = [(r * n)%nat; (s * m / 2 + 1)%nat] -> fits (r * n) (s * m) n m W ->
  exists D x y, downsample_spectral g W = Ok D /\ irfft2 W = Ok x /\ irfft2 D = Ok y /\
    forall i j, get y [i; j] = (INR s / INR r * get x [(Z.of_nat r * i)%Z; (Z.of_nat s * j)%Z])%R /\
      (r <> s -> get x [Z.of_nat r * i; Z.of_nat s * j] <> 0%R -> get y [i; j] <> get x [Z.of_nat r * i; Z.of_nat s * j]).
Proof. exact (@spectral_downsampling_two_factors_refuted_lem). Qed.
Print Assumptions spectral_downsampling_two_factors_refuted.

(** C70. Limit, odd sizes: for every destination with an odd number n >= 3 of rows, the row of downsample_spectral's result that stands for wave number +(n-1)/2 is filled with the input's wave number -(n+1)/2; the input's +(n-1)/2, which the coarse grid could show, is dropped - so changing it alone never changes the result. *)
Theorem spectral_downsampling_odd_refuted : forall (g : grid) (n m N M : nat) (hx hy : R) (W : arr cplx),
  grid2 g n m hx hy -> Nat.Odd n -> (3 <= n < N)%nat -> (m / 2 + 1 <= M)%nat -> shp W = [N; M] ->
  exists D, downsample_spectral g W = Ok D /\ shp D = [n; (m / 2 + 1)%nat] /\
    let h := (Z.of_nat n - 1) / 2 in row_wave n h = h /\ row_wave N (Z.of_nat N - (h + 1)) = - (h + 1) /\
    (forall q, get D [h; q] = Cscal ((INR n / INR N) ^ 2) (get W [Z.of_nat N - (h + 1); q])) /\
    forall W', shp W' = [N; M] -> (forall p q, 0 <= p < Z.of_nat N -> p <> h -> get W' [p; q] = get W [p; q]) ->
      exists D', downsample_spectral g W' = Ok D' /\ forall p q, 0 <= p < Z.of_nat n -> get D' [p; q] = get D [p; q].
Proof. exact (@spectral_downsampling_odd_refuted_lem). Qed.
Print Assumptions spectral_downsampling_odd_refuted.
