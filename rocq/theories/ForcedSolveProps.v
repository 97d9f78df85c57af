(** * C65: the implicit solve of the forced flow *)
From Verif Require Import Prelude NdArr LinAlg Cplx Grids_model FastDiag_model ArrayUtils_model FourierProofs Spectral_model TimeStep_model Forcings_model SpectralStep_model ForcedNS_model SpectralProps.
Set Implicit Arguments.

(* @prop C65 The implicit solve of ForcedNavierStokes2D uses the same drag as its implicit terms: for every grid, nonnegative viscosity and time step and every vorticity spectrum y, implicit_solve(y, dt) is the one and only x with x - dt * implicit_terms(x) = y, where the implicit terms multiply the wave with wave vector k by -(viscosity |2 pi k|^2 + 1/10); no wave is amplified, whatever the time step. *)
Lemma forced_implicit_solve_lem : forall (g : grid) (n m : nat) (hx hy viscosity dt : R) (y : arr cplx),
  grid2 g n m hx hy -> (0 <= viscosity)%R -> (0 <= dt)%R -> shp y = [n; (m / 2 + 1)%nat] ->
  exists x gx, forced_ns2d_implicit_solve g viscosity y dt = Ok x /\ forced_ns2d_implicit_terms g viscosity x = Ok gx /\ shp x = shp y /\ shp gx = shp y /\
    implicit_equation (shp y) dt x gx y /\
    (forall i j, get gx [i; j] = Cscal (- (viscosity * wave2 (freq n hx (signed n i)) (freq m hy j) + 1 / 10)) (get x [i; j])) /\
    (forall ix, inb (shp y) ix -> (Cabs (get x ix) <= Cabs (get y ix))%R) /\
    (forall x' gx', forced_ns2d_implicit_terms g viscosity x' = Ok gx' -> implicit_equation (shp y) dt x' gx' y -> aeq x' x).
Proof.
  intros g n m hx hy nu dt y Hg Hnu Hdt Hy. exact (@ns2d_implicit_solve_exact_lem g n m hx hy nu (1 / 10) dt y Hg Hnu ltac:(lra) Hdt Hy).
Qed.
(* @ex *)
Lemma forced_implicit_solve_ex_lem : grid2 ex_grid2 4 4 (1/4) (1/2) /\ shp (afull [4%nat; 3%nat] C1) = [4%nat; (4 / 2 + 1)%nat].
Proof. split; [apply ex_grid2_ok | reflexivity]. Qed.
