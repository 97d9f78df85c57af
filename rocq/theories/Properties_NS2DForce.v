(** Generated by tools/gen.py from NS2DForceProps.v: property theorems only. *)
From Verif Require Import Prelude NdArr LinAlg Cplx Grids_model Boundaries_model FD_model Advection_model FastDiag_model Forcings_model FourierProofs FourierLine Spectral_model SpectralProps SpectralUtilProps FourierPlane SpecFourier NS2DBase NS2DProps NS2DConserve NS2DMoreProps NS2DWaveProps ForcedNS_model.
From Verif Require Import NS2DForceProps.
Local Open Scope Z_scope.
Set Implicit Arguments.

(** C65. Forcing. On every grid (even or odd sizes), for every vorticity spectrum, smooth flag and forcing function returning two arrays of the grid's shape for the current velocity: NavierStokes2D.explicit_terms with the forcing is explicit_terms without it plus, wave by wave, the curl of the transformed forcing, 2 pi i (kx fy - ky fx). *)
Theorem ns2d_forcing_adds_curl : forall (g : grid) (n m : nat) (hx hy : R) (smooth : option bool) (W U V : arr cplx) (f : arr R -> arr R -> result (arr R * arr R)) (fx fy : arr R),
  grid2 g n m hx hy -> shp W = [n; (m / 2 + 1)%nat] -> vorticity_to_velocity g W = Ok (U, V) ->
  f (irfftn U) (irfftn V) = Ok (fx, fy) -> shp fx = [n; m] -> shp fy = [n; m] ->
  exists N0 N, ns2d_explicit_terms g smooth None W = Ok N0 /\ ns2d_explicit_terms g smooth (Some f) W = Ok N /\ shp N0 = [n; (m / 2 + 1)%nat] /\ shp N = [n; (m / 2 + 1)%nat] /\
    forall i b, 0 <= i < Z.of_nat n -> 0 <= b <= Z.of_nat (m / 2) ->
      get N [i; b] = Cadd (get N0 [i; b]) (spectral_curl (freq n hx (row_wave n i)) (freq m hy b) (get (rfftn fx) [i; b]) (get (rfftn fy) [i; b])).
Proof. exact (@ns2d_forcing_adds_curl_lem). Qed.
Print Assumptions ns2d_forcing_adds_curl.

(** C65. Laminar Kolmogorov flow is an exact steady state of ForcedNavierStokes2D: on every grid (any size, any position) on which the forcing sin(4 y) is periodic and resolved, for every viscosity >= 0 and every smooth flag, the vorticity -4 cos(4 y) / (16 viscosity + 1/10) makes explicit_terms and implicit_terms cancel in every wave. *)
Theorem laminar_kolmogorov_flow : forall (g : grid) (n m : nat) (hx hy : R) (dx : R * R) (lo hi : R) (kap : Z) (viscosity : R) (smooth : option bool),
  grid2 g n m hx hy -> gdomain g = [dx; (lo, hi)] -> 0 < 2 * kap < Z.of_nat m -> (4 * (INR m * hy) = 2 * PI * IZR kap)%R -> (0 <= viscosity)%R ->
  let w := mkarr [n; m] (fun ix => - 4 / (16 * viscosity + 1 / 10) * cos (4 * (lo + IZR (nth 1 ix 0%Z) * hy)))%R in
  exists E I, forced_ns2d_explicit_terms g smooth (rfftn w) = Ok E /\ forced_ns2d_implicit_terms g viscosity (rfftn w) = Ok I /\ shp E = [n; (m / 2 + 1)%nat] /\ shp I = [n; (m / 2 + 1)%nat] /\
    forall i b, 0 <= i < Z.of_nat n -> 0 <= b <= Z.of_nat (m / 2) -> Cadd (get E [i; b]) (get I [i; b]) = C0.
Proof. exact (@laminar_kolmogorov_flow_lem). Qed.
Print Assumptions laminar_kolmogorov_flow.

(** The hypotheses are met by a concrete case. *)
Example laminar_kolmogorov_flow_ex : grid2 kol_grid 4 16 1 (PI / 8) /\ gdomain kol_grid = [(0%R, 4%R); (0%R, (2 * PI)%R)] /\ 0 < 2 * 4 < Z.of_nat 16 /\ (4 * (INR 16 * (PI / 8)) = 2 * PI * IZR 4)%R.
Proof. exact (@laminar_kolmogorov_flow_ex_lem). Qed.

(** The hypotheses are met by a concrete case. *)
Example ns2d_forcing_adds_curl_ex : exists U V f fx fy, vorticity_to_velocity kol_grid (afull [4%nat; 9%nat] C1) = Ok (U, V) /\ kolmogorov_forcing kol_grid 1 4 false (Some [[0; 0]; [0; 0]]%Q) = Ok f /\
  unpacked_forcing kol_grid f (irfftn U) (irfftn V) = Ok (fx, fy) /\ shp fx = [4%nat; 16%nat] /\ shp fy = [4%nat; 16%nat].
Proof. exact (@ns2d_forcing_adds_curl_ex_lem). Qed.

(** C41. exponential_filter on a square field with an even number of points per side, for every order >= 1 and every 0 < alpha <= 1: it succeeds and keeps the shape; the wave (a, b) of the result is the wave of the signal times alpha ^ (((a/n)^2 + (b/n)^2) ^ order), a factor between 0 and 1; so the mean is kept and the sum of squares does not grow. *)
Theorem exponential_filter_damps : forall (n : nat) (signal : arr R) (alpha : R) (order : nat), (0 < n)%nat -> Nat.Even n -> shp signal = [n; n] -> (0 < alpha <= 1)%R -> (0 < order)%nat ->
  exists out, exponential_filter signal alpha order = Ok out /\ shp out = [n; n] /\
    (forall i b, 0 <= i < Z.of_nat n -> 0 <= b <= Z.of_nat (n / 2) ->
       let factor := Rpower alpha (((IZR (row_wave n i) / INR n) ^ 2 + (IZR b / INR n) ^ 2) ^ order) in
       (0 < factor <= 1)%R /\ get (rfftn out) [i; b] = Cscal factor (get (rfftn signal) [i; b])) /\
    asum [n; n] (get out) = asum [n; n] (get signal) /\ (asum [n; n] (fun ix => get out ix ^ 2) <= asum [n; n] (fun ix => get signal ix ^ 2))%R.
Proof. exact (@exponential_filter_damps_lem). Qed.
Print Assumptions exponential_filter_damps.

(** The hypotheses are met by a concrete case. *)
Example exponential_filter_damps_ex : (0 < 4)%nat /\ Nat.Even 4 /\ shp (afull [4%nat; 4%nat] 3%R) = [4%nat; 4%nat] /\ (0 < / 1000000 <= 1)%R /\ (0 < 2)%nat.
Proof. exact (@exponential_filter_damps_ex_lem). Qed.

(** C41. On a square field with an odd number n of points per side exponential_filter does not keep the shape: it returns an n x (n - 1) array. *)
Theorem exponential_filter_odd_refuted : forall (n : nat) (signal : arr R) (alpha : R) (order : nat), Nat.Odd n -> shp signal = [n; n] ->
  exists out, exponential_filter signal alpha order = Ok out /\ shp out = [n; (n - 1)%nat].
Proof. exact (@exponential_filter_odd_refuted_lem). Qed.
Print Assumptions exponential_filter_odd_refuted.
