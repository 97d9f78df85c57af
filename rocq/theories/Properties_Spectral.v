(** Generated by tools/gen.py from SpectralProps.v: property theorems only. *)
From Verif Require Import Prelude NdArr LinAlg Cplx Grids_model FastDiag_model ArrayUtils_model FourierProofs Spectral_model.
From Verif Require Import SpectralProps.
Local Open Scope Z_scope.
Set Implicit Arguments.

(** C39. NavierStokes2D: for every even or odd grid, nonnegative viscosity, drag and time step and every vorticity spectrum y, implicit_solve(y, dt) returns the one and only x with x - dt * implicit_terms(x) = y, where implicit_terms multiplies each mode by -(viscosity * |2 pi k|^2 + drag); no mode is amplified, whatever the time step. *)
Theorem ns2d_implicit_solve_exact : forall (g : grid) (n m : nat) (hx hy viscosity drag dt : R) (y : arr cplx),
  grid2 g n m hx hy -> (0 <= viscosity)%R -> (0 <= drag)%R -> (0 <= dt)%R -> shp y = [n; (m / 2 + 1)%nat] ->
  exists x gx, ns2d_implicit_solve g viscosity drag y dt = Ok x /\ ns2d_implicit_terms g viscosity drag x = Ok gx /\ shp x = shp y /\ shp gx = shp y /\
    implicit_equation (shp y) dt x gx y /\
    (forall i j, get gx [i; j] = Cscal (- (viscosity * wave2 (freq n hx (signed n i)) (freq m hy j) + drag)) (get x [i; j])) /\
    (forall ix, inb (shp y) ix -> (Cabs (get x ix) <= Cabs (get y ix))%R) /\
    (forall x' gx', ns2d_implicit_terms g viscosity drag x' = Ok gx' -> implicit_equation (shp y) dt x' gx' y -> aeq x' x).
Proof. exact (@ns2d_implicit_solve_exact_lem). Qed.
Print Assumptions ns2d_implicit_solve_exact.

(** The hypotheses are met by a concrete case. *)
Example ns2d_implicit_solve_exact_ex : grid2 ex_grid2 4 4 (1/4) (1/2) /\ shp (afull [4%nat; 3%nat] C1) = [4%nat; (4 / 2 + 1)%nat].
Proof. exact (@ns2d_implicit_solve_exact_ex_lem). Qed.

(** C39. Burgers: for every grid, viscosity >= 0 and dt >= 0, implicit_solve((uhat, t), dt) returns (x, t) with x the one and only solution of x - dt * implicit_terms(x) = uhat, and implicit_terms has zero time component, so the time variable is solved exactly too; no mode is amplified. *)
Theorem burgers_implicit_solve_exact : forall (g : grid) (n : nat) (h viscosity dt t : R) (y : arr cplx),
  grid1 g n h -> (0 <= viscosity)%R -> (0 <= dt)%R -> shp y = [(n / 2 + 1)%nat] ->
  exists x gx, burgers_implicit_solve g viscosity (y, t) dt = Ok (x, t) /\ (forall s, burgers_implicit_terms g viscosity (x, s) = Ok (gx, 0%R)) /\
    shp x = shp y /\ shp gx = shp y /\ implicit_equation (shp y) dt x gx y /\
    (forall i, get gx [i] = Cscal (- (viscosity * wave2 (freq n h i) 0)) (get x [i])) /\
    (forall ix, inb (shp y) ix -> (Cabs (get x ix) <= Cabs (get y ix))%R) /\
    (forall x' gx' s s', burgers_implicit_terms g viscosity (x', s) = Ok (gx', s') -> implicit_equation (shp y) dt x' gx' y -> aeq x' x).
Proof. exact (@burgers_implicit_solve_exact_lem). Qed.
Print Assumptions burgers_implicit_solve_exact.

(** The hypotheses are met by a concrete case. *)
Example burgers_implicit_solve_exact_ex : grid1 ex_grid1 4 (1/4) /\ shp (afull [3%nat] C1) = [(4 / 2 + 1)%nat].
Proof. exact (@burgers_implicit_solve_exact_ex_lem). Qed.

(** C39. Kuramoto-Sivashinsky: for every grid and every time step 0 <= dt < 4 - or any dt for which dt * (q^2 - q^4) <> 1 at every angular wave number q of the grid - implicit_solve(y, dt) returns the one and only x with x - dt * implicit_terms(x) = y; implicit_terms multiplies mode q by q^2 - q^4. *)
Theorem ks_implicit_solve_exact : forall (g : grid) (n : nat) (h dt : R) (y : arr cplx),
  grid1 g n h -> shp y = [(n / 2 + 1)%nat] ->
  ((0 <= dt < 4)%R \/ forall i, 0 <= i <= Z.of_nat (n / 2) -> let q := (2 * PI * freq n h i)%R in (dt * (q ^ 2 - q ^ 4) <> 1)%R) ->
  exists x gx, ks_implicit_solve g y dt = Ok x /\ ks_implicit_terms g x = Ok gx /\ shp x = shp y /\ shp gx = shp y /\
    implicit_equation (shp y) dt x gx y /\
    (forall i, let q := (2 * PI * freq n h i)%R in get gx [i] = Cscal (q ^ 2 - q ^ 4)%R (get x [i])) /\
    (forall x' gx', ks_implicit_terms g x' = Ok gx' -> implicit_equation (shp y) dt x' gx' y -> aeq x' x).
Proof. exact (@ks_implicit_solve_exact_lem). Qed.
Print Assumptions ks_implicit_solve_exact.

(** The hypotheses are met by a concrete case. *)
Example ks_implicit_solve_exact_ex : grid1 ex_grid1 4 (1/4) /\ shp (afull [3%nat] C1) = [(4 / 2 + 1)%nat] /\ (0 <= 2 < 4)%R.
Proof. exact (@ks_implicit_solve_exact_ex_lem). Qed.

(** C39. Kuramoto-Sivashinsky, limit of the previous theorem: the implicit equation is NOT always solvable. There are a grid, a time step (dt = 4) and a right-hand side for which no x satisfies x - dt * implicit_terms(x) = y, because the linear term has growing modes; implicit_solve then divides by zero. *)
Theorem ks_implicit_solvable_refuted :
  exists (g : grid) (n : nat) (h dt : R) (y : arr cplx), grid1 g n h /\ (0 < dt)%R /\ shp y = [(n / 2 + 1)%nat] /\
    forall x gx, ks_implicit_terms g x = Ok gx -> ~ implicit_equation (shp y) dt x gx y.
Proof. exact (@ks_implicit_solvable_refuted_lem). Qed.
Print Assumptions ks_implicit_solvable_refuted.

(** C39. Nonlinear Schroedinger: for every grid with an even number of points, every real time step (also negative) and every spectrum, implicit_solve(y, dt) returns the one and only x with x - dt * implicit_terms(x) = y, where implicit_terms multiplies the mode of angular wave number q by i q^2 / 8; no mode is amplified. Odd grids are refused. *)
Theorem nls_implicit_solve_exact : forall (g : grid) (n : nat) (h dt : R) (y : arr cplx),
  grid1 g n h -> shp y = [n] ->
  (Nat.Odd n -> nls_implicit_solve g y dt = Err EAssert) /\
  (Nat.Even n -> exists x gx, nls_implicit_solve g y dt = Ok x /\ nls_implicit_terms g x = Ok gx /\ shp x = shp y /\ shp gx = shp y /\
    implicit_equation (shp y) dt x gx y /\
    (forall i, get gx [i] = Cmul (mkC 0 (wave2 (freq n h (signed n i)) 0 / 8)) (get x [i])) /\
    (forall ix, inb (shp y) ix -> (Cabs (get x ix) <= Cabs (get y ix))%R) /\
    (forall x' gx', nls_implicit_terms g x' = Ok gx' -> implicit_equation (shp y) dt x' gx' y -> aeq x' x)).
Proof. exact (@nls_implicit_solve_exact_lem). Qed.
Print Assumptions nls_implicit_solve_exact.

(** The hypotheses are met by a concrete case. *)
Example nls_implicit_solve_exact_ex : grid1 ex_grid1 4 (1/4) /\ shp (afull [4%nat] C1) = [4%nat] /\ Nat.Even 4.
Proof. exact (@nls_implicit_solve_exact_ex_lem). Qed.

(** C40. vorticity_to_velocity(grid)(vorticity_hat), for every grid and every vorticity spectrum, returns velocity spectra whose divergence vanishes at every wavenumber and whose curl is the vorticity at every nonzero wavenumber, with zero mean velocity; no other pair of spectra has these properties, so nothing is divided by zero. *)
Theorem vorticity_to_velocity_correct : forall (g : grid) (n m : nat) (hx hy : R) (w : arr cplx),
  grid2 g n m hx hy -> shp w = [n; (m / 2 + 1)%nat] ->
  exists u v, vorticity_to_velocity g w = Ok (u, v) /\ shp u = shp w /\ shp v = shp w /\
    get u [0; 0] = C0 /\ get v [0; 0] = C0 /\
    forall i j, 0 <= i < Z.of_nat n -> 0 <= j <= Z.of_nat (m / 2) ->
      let kx := freq n hx (signed n i) in let ky := freq m hy j in
      spectral_div kx ky (get u [i; j]) (get v [i; j]) = C0 /\
      (i <> 0 \/ j <> 0 -> spectral_curl kx ky (get u [i; j]) (get v [i; j]) = get w [i; j] /\
         forall a b, spectral_div kx ky a b = C0 -> spectral_curl kx ky a b = get w [i; j] -> a = get u [i; j] /\ b = get v [i; j]).
Proof. exact (@vorticity_to_velocity_correct_lem). Qed.
Print Assumptions vorticity_to_velocity_correct.

(** The hypotheses are met by a concrete case. *)
Example vorticity_to_velocity_correct_ex : grid2 ex_grid2 4 4 (1/4) (1/2) /\ shp (afull [4%nat; 3%nat] C1) = [4%nat; (4 / 2 + 1)%nat].
Proof. exact (@vorticity_to_velocity_correct_ex_lem). Qed.

(** C40. The array that vorticity_to_velocity divides by is minus (2 pi)^2 |k|^2 at every nonzero wavenumber and 1 at the mean mode: it is nonzero everywhere, so no spectrum is ever divided by zero, on any grid. *)
Theorem velocity_divisor_nonzero : forall (g : grid) (n m : nat) (hx hy : R), grid2 g n m hx hy ->
  exists kx ky, rfft_mesh g = [kx; ky] /\ shp (velocity_laplace kx ky) = [n; (m / 2 + 1)%nat] /\
    forall i j, 0 <= i < Z.of_nat n -> 0 <= j <= Z.of_nat (m / 2) ->
      get (velocity_laplace kx ky) [i; j] <> C0 /\
      (i <> 0 \/ j <> 0 -> get (velocity_laplace kx ky) [i; j] = RtoC (- ((2 * PI) ^ 2 * (freq n hx (signed n i) ^ 2 + freq m hy j ^ 2)))).
Proof. exact (@velocity_divisor_nonzero_lem). Qed.
Print Assumptions velocity_divisor_nonzero.

(** The hypotheses are met by a concrete case. *)
Example velocity_divisor_nonzero_ex : grid2 ex_grid2 4 4 (1/4) (1/2).
Proof. exact (@velocity_divisor_nonzero_ex_lem). Qed.

(** C40. spectral_curl_2d(grid.rfft_mesh(), vorticity_to_velocity(grid)(vorticity_hat)) succeeds for every grid and spectrum and returns the vorticity spectrum with the mean mode set to zero (so exactly the input, if its mean is zero). *)
Theorem spectral_curl_of_velocity : forall (g : grid) (n m : nat) (hx hy : R) (w : arr cplx),
  grid2 g n m hx hy -> shp w = [n; (m / 2 + 1)%nat] ->
  exists kx ky u v c, rfft_mesh g = [kx; ky] /\ vorticity_to_velocity g w = Ok (u, v) /\ spectral_curl_2d kx ky u v = Ok c /\ shp c = shp w /\
    forall i j, 0 <= i < Z.of_nat n -> 0 <= j <= Z.of_nat (m / 2) -> get c [i; j] = if (i =? 0) && (j =? 0) then C0 else get w [i; j].
Proof. exact (@spectral_curl_of_velocity_lem). Qed.
Print Assumptions spectral_curl_of_velocity.

(** The hypotheses are met by a concrete case. *)
Example spectral_curl_of_velocity_ex : grid2 ex_grid2 4 4 (1/4) (1/2) /\ shp (afull [4%nat; 3%nat] C1) = [4%nat; (4 / 2 + 1)%nat].
Proof. exact (@spectral_curl_of_velocity_ex_lem). Qed.
