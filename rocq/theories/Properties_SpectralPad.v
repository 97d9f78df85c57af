(** Generated by tools/gen.py from SpectralPadProps.v: property theorems only. *)
From Verif Require Import Prelude NdArr LinAlg Cplx Grids_model FastDiag_model ArrayUtils_model FourierProofs Spectral_model FourierLine SpectralProps SpectralUtilProps.
From Verif Require Import SpectralPadProps.
Local Open Scope Z_scope.
Set Implicit Arguments.

(** C41. For a spectrum of n >= 2 modes, truncated_rfft(padded_irfft(U)) returns U itself (the mean mode without its imaginary part, which no real field has) when n is odd; when n is even the result has one entry more than U, an additional zero. *)
Theorem pad_truncate_round_trip : forall (U : arr cplx) (n : nat), shp U = [n] -> (2 <= n)%nat ->
  exists u V, padded_irfft U = Ok u /\ truncated_rfft u = Ok V /\ shp V = [if Nat.odd n then n else S n] /\
    get V [0] = RtoC (re (get U [0])) /\ (forall k, 0 < k < Z.of_nat n -> get V [k] = get U [k]) /\ get V [Z.of_nat n] = C0.
Proof. exact (@pad_truncate_round_trip_lem). Qed.
Print Assumptions pad_truncate_round_trip.

(** The hypotheses are met by a concrete case. *)
Example pad_truncate_round_trip_ex : shp (afull [5%nat] C1) = [5%nat] /\ Nat.odd 5 = true /\ Nat.odd 4 = false.
Proof. exact (@pad_truncate_round_trip_ex_lem). Qed.

(** C41. Expected: truncated_rfft undoes padded_irfft for every spectrum. Refuted: with an even number of modes the result has a different shape, and so the dealiased KuramotoSivashinsky.explicit_terms (smooth=True, the default) fails on every spectrum of every grid whose number N of points is 2 modulo 4, while it works with smooth=False. *)
Theorem smooth_ks_needs_multiple_of_four_refuted : forall (g : grid) (q : nat) (h : R) (U : arr cplx),
  grid1 g (4 * q + 2) h -> shp U = [(2 * q + 2)%nat] ->
  ks_explicit_terms g true U = Err EShape /\ exists W, ks_explicit_terms g false U = Ok W /\ shp W = shp U.
Proof. exact (@smooth_ks_needs_multiple_of_four_refuted_lem). Qed.
Print Assumptions smooth_ks_needs_multiple_of_four_refuted.

(** C58. Exactness of dealiased products. For spectra U and V with n >= 3 modes, n odd (grids whose size N = 2(n-1) is a multiple of 4), and every wave number r < n-1 - or r = n-1 when one of the two Nyquist modes is zero - truncated_rfft(padded_irfft(U) * padded_irfft(V)) is at r exactly 1/N times the sum over all integers p of U_p V_{r-p}, where U_{-p} = conj(U_p): no aliased mode contributes. *)
Theorem dealiased_product_exact : forall (U V : arr cplx) (n : nat), shp U = [n] -> shp V = [n] -> Nat.odd n = true -> (3 <= n)%nat ->
  exists u v w W, padded_irfft U = Ok u /\ padded_irfft V = Ok v /\ ew Rmult u v = Ok w /\ truncated_rfft w = Ok W /\ shp W = [n] /\
    forall r, 0 <= r < Z.of_nat n -> (r < Z.of_nat n - 1 \/ get U [Z.of_nat n - 1] = C0 \/ get V [Z.of_nat n - 1] = C0) ->
      get W [r] = Cscal (/ INR (2 * (n - 1))) (conv n (fun k => get U [k]) (fun k => get V [k]) r).
Proof. exact (@dealiased_product_exact_lem). Qed.
Print Assumptions dealiased_product_exact.

(** The hypotheses are met by a concrete case. *)
Example dealiased_product_exact_ex : shp (afull [5%nat] C1) = [5%nat] /\ Nat.odd 5 = true /\ (3 <= 5)%nat.
Proof. exact (@dealiased_product_exact_ex_lem). Qed.

(** C58. On every grid of N = 4q points the dealiased KuramotoSivashinsky.explicit_terms(U) is the exact spectrum of -1/2 d/dx (u^2) truncated to the represented modes: at every wave number r below the Nyquist number (and at it when U's Nyquist mode is zero), it is -(1/2) (2 pi i k_r) (1/N) * sum over p of U_p U_{r-p}. *)
Theorem ks_explicit_exact : forall (g : grid) (q : nat) (h : R) (U : arr cplx),
  (1 <= q)%nat -> grid1 g (4 * q) h -> shp U = [(2 * q + 1)%nat] ->
  exists W, ks_explicit_terms g true U = Ok W /\ shp W = shp U /\
    forall r, 0 <= r <= 2 * Z.of_nat q -> (r < 2 * Z.of_nat q \/ get U [2 * Z.of_nat q] = C0) ->
      get W [r] = Cmul (Cscal (- (1 / 2) / INR (4 * q)) (Cmul two_pi_i (RtoC (freq (4 * q) h r)))) (conv (2 * q + 1) (fun k => get U [k]) (fun k => get U [k]) r).
Proof. exact (@ks_explicit_exact_lem). Qed.
Print Assumptions ks_explicit_exact.

(** The hypotheses are met by a concrete case. *)
Example ks_explicit_exact_ex : exists g h, grid1 g (4 * 1) h.
Proof. exact (@ks_explicit_exact_ex_lem). Qed.

(** C58. Burgers: without forcing, on every grid of N = 4q points and every wave number below the Nyquist number (or every one when U's Nyquist mode is zero), the advection term -u u_x computed by Burgers.explicit_terms equals KuramotoSivashinsky's -1/2 (u^2)_x: the product rule holds exactly for the dealiased products. The time component advances at rate 1. *)
Theorem burgers_advection_is_ks : forall (g : grid) (q : nat) (h t : R) (U : arr cplx),
  (1 <= q)%nat -> grid1 g (4 * q) h -> shp U = [(2 * q + 1)%nat] ->
  exists W V, ks_explicit_terms g true U = Ok W /\ burgers_explicit_terms g None (U, t) = Ok (V, 1%R) /\ shp V = shp U /\
    forall r, 0 <= r <= 2 * Z.of_nat q -> (r < 2 * Z.of_nat q \/ get U [2 * Z.of_nat q] = C0) -> get V [r] = get W [r].
Proof. exact (@burgers_advection_is_ks_lem). Qed.
Print Assumptions burgers_advection_is_ks.

(** The hypotheses are met by a concrete case. *)
Example burgers_advection_is_ks_ex : exists g h, grid1 g (4 * 1) h.
Proof. exact (@burgers_advection_is_ks_ex_lem). Qed.

(** C58. Conservation. On every grid of N = 4q points and for every spectrum U, the dealiased nonlinear term W = KuramotoSivashinsky.explicit_terms(U) leaves the mean unchanged (its mean mode is zero and the field irfft(W) sums to zero over the grid), and, when U's Nyquist mode is zero, it does no work: the sum over the grid of irfft(U) * irfft(W) is zero, so the nonlinearity alone conserves the energy. The same holds for the advection term of Burgers. *)
Theorem ks_nonlinearity_conserves : forall (g : grid) (q : nat) (h : R) (U : arr cplx),
  (1 <= q)%nat -> grid1 g (4 * q) h -> shp U = [(2 * q + 1)%nat] ->
  exists W V, ks_explicit_terms g true U = Ok W /\ (forall t, burgers_explicit_terms g None (U, t) = Ok (V, 1%R)) /\
    get W [0] = C0 /\ get V [0] = C0 /\
    (forall X, X = W \/ X = V -> shp (irfftn X) = [(4 * q)%nat] /\ rsum (4 * q) (fun j => get (irfftn X) [j]) = 0%R /\
       (get U [2 * Z.of_nat q] = C0 -> rsum (4 * q) (fun j => get (irfftn U) [j] * get (irfftn X) [j])%R = 0%R)).
Proof. exact (@ks_nonlinearity_conserves_lem). Qed.
Print Assumptions ks_nonlinearity_conserves.

(** The hypotheses are met by a concrete case. *)
Example ks_nonlinearity_conserves_ex : exists g h, grid1 g (4 * 1) h.
Proof. exact (@ks_nonlinearity_conserves_ex_lem). Qed.

(** C41. For every complex spectrum U with n >= 2 modes, truncated_fft_2x(padded_ifft_2x(U)) = U, shape included; with n = 1 the result is empty. *)
Theorem pad_truncate_2x_round_trip : forall (U : arr cplx) (n : nat), shp U = [n] -> (1 <= n)%nat ->
  exists u V, padded_ifft_2x U = Ok u /\ truncated_fft_2x u = Ok V /\ (2 <= n -> aeq V U)%nat /\ (n = 1 -> shp V = [0])%nat.
Proof. exact (@pad_truncate_2x_round_trip_lem). Qed.
Print Assumptions pad_truncate_2x_round_trip.

(** The hypotheses are met by a concrete case. *)
Example pad_truncate_2x_round_trip_ex : shp (afull [5%nat] C1) = [5%nat] /\ (2 <= 5)%nat.
Proof. exact (@pad_truncate_2x_round_trip_ex_lem). Qed.
