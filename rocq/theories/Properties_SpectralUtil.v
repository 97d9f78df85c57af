(** Generated by tools/gen.py from SpectralUtilProps.v: property theorems only. *)
From Verif Require Import Prelude NdArr LinAlg Cplx Grids_model FastDiag_model ArrayUtils_model FourierProofs Spectral_model FourierLine SpectralProps.
From Verif Require Import SpectralUtilProps.
Local Open Scope Z_scope.
Set Implicit Arguments.

(** C41. The 2/3 brick-wall filter of every grid is a 0/1 mask: it is 1 exactly at the wave numbers kx with -ceil(X/2) <= kx < floor(X/2), X = floor(2n/3), and ky < floor(2(m/2+1)/3), and 0 elsewhere (on a one-cell axis kx = 0 is kept). *)
Theorem brick_wall_is_mask : forall (g : grid) (n m : nat), gshape g = [n; m] -> (0 < n)%nat -> (0 < m)%nat ->
  exists F, brick_wall_filter_2d g = Ok F /\ shp F = [n; (m / 2 + 1)%nat] /\
    forall i j, 0 <= i < Z.of_nat n -> 0 <= j <= Z.of_nat (m / 2) ->
      (get F [i; j] = 1%R <-> kept_x n (signed n i) /\ kept_y m j) /\ (get F [i; j] = 0%R <-> ~ (kept_x n (signed n i) /\ kept_y m j)).
Proof. exact (@brick_wall_is_mask_lem). Qed.
Print Assumptions brick_wall_is_mask.

(** The hypotheses are met by a concrete case. *)
Example brick_wall_is_mask_ex : gshape ex_grid2 = [4%nat; 4%nat] /\ kept_x 4 (signed 4 0) /\ ~ kept_x 4 (signed 4 2) /\ kept_y 4 1 /\ ~ kept_y 4 2.
Proof. exact (@brick_wall_is_mask_ex_lem). Qed.

(** C41. Filtering a step with a 0/1 mask twice is the same as filtering it once: filter_step(filter_step(f, F), F) = filter_step(f, F), for every step function and the brick-wall filter of every grid. *)
Theorem brick_wall_idempotent : forall (g : grid) (n m : nat) (F : arr R) (step : arr cplx -> result (arr cplx)) (s r : arr cplx),
  gshape g = [n; m] -> (0 < n)%nat -> (0 < m)%nat -> brick_wall_filter_2d g = Ok F -> filter_step step F s = Ok r ->
  exists r', filter_step (filter_step step F) F s = Ok r' /\ aeq r' r.
Proof. exact (@brick_wall_idempotent_lem). Qed.
Print Assumptions brick_wall_idempotent.

(** The hypotheses are met by a concrete case. *)
Example brick_wall_idempotent_ex : exists F r, brick_wall_filter_2d ex_grid2 = Ok F /\ filter_step (fun s => Ok s) F (afull [4%nat; 3%nat] C1) = Ok r.
Proof. exact (@brick_wall_idempotent_ex_lem). Qed.

(** C41. The 2/3 rule removes the aliasing of quadratic terms: on every grid with n >= 3, if p and q are wave vectors (of the full spectrum of a real field) kept by the brick-wall filter and r is a kept wave vector with r = p + q modulo the grid size, then r = p + q. So the product of two filtered fields has, at the kept wave vectors, exactly the true convolution of their spectra. *)
Theorem brick_wall_dealiases : forall (g : grid) (n m : nat) (F : arr R) (p1 p2 q1 q2 r1 r2 : Z),
  gshape g = [n; m] -> (3 <= n)%nat -> (0 < m)%nat -> brick_wall_filter_2d g = Ok F ->
  canonical n m p1 p2 -> canonical n m q1 q2 -> canonical n m r1 r2 ->
  mode_kept F n p1 p2 -> mode_kept F n q1 q2 -> mode_kept F n r1 r2 ->
  (p1 + q1 - r1) mod Z.of_nat n = 0 -> (p2 + q2 - r2) mod Z.of_nat m = 0 -> p1 + q1 = r1 /\ p2 + q2 = r2.
Proof. exact (@brick_wall_dealiases_lem). Qed.
Print Assumptions brick_wall_dealiases.

(** The hypotheses are met by a concrete case. *)
Example brick_wall_dealiases_ex : exists F, brick_wall_filter_2d (mkgrid [6%nat; 6%nat] [1%R; 1%R] [(0%R, 6%R); (0%R, 6%R)]) = Ok F /\ canonical 6 6 (-2) 1 /\ canonical 6 6 1 (-1) /\ canonical 6 6 (-1) 0 /\
  mode_kept F 6 (-2) 1 /\ mode_kept F 6 1 (-1) /\ mode_kept F 6 (-1) 0 /\ (-2 + 1 - -1) mod 6 = 0 /\ (1 + -1 - 0) mod 6 = 0.
Proof. exact (@brick_wall_dealiases_ex_lem). Qed.

(** C41. The circular filter of every grid lies in (0, 1]; it is exactly 1 inside and on the circle |k| <= 0.65 * (largest ky) and strictly smaller than 1 outside; in particular it never changes the mean mode. *)
Theorem circular_filter_range : forall (g : grid) (n m : nat) (hx hy : R), grid2 g n m hx hy ->
  exists F, circular_filter_2d g = Ok F /\ shp F = [n; (m / 2 + 1)%nat] /\ get F [0; 0] = 1%R /\
    forall i j, (0 < get F [i; j] <= 1)%R /\
      (get F [i; j] = 1%R <-> (sqrt (freq n hx (signed n i) ^ 2 + freq m hy j ^ 2) <= 65 / 100 * freq m hy (Z.of_nat (m / 2)))%R).
Proof. exact (@circular_filter_range_lem). Qed.
Print Assumptions circular_filter_range.

(** The hypotheses are met by a concrete case. *)
Example circular_filter_range_ex : grid2 ex_grid2 4 4 (1/4) (1/2).
Proof. exact (@circular_filter_range_ex_lem). Qed.
