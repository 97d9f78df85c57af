(** Generated by tools/gen.py from NS2DProps.v: property theorems only. *)
From Verif Require Import Prelude NdArr LinAlg Cplx Grids_model FastDiag_model FourierProofs FourierLine Spectral_model SpectralProps SpectralUtilProps FourierPlane SpecFourier NS2DBase.
From Verif Require Import NS2DProps.
Local Open Scope Z_scope.
Set Implicit Arguments.

(** C65. Mean vorticity. On every grid with n >= 3 rows and an even number m of columns, for every vorticity spectrum inside the 2/3 band, NavierStokes2D.explicit_terms succeeds, its result lies again inside the band (unforced), and its mean mode is zero, with or without a forcing (any forcing function returning two arrays of the grid's shape): the explicit terms never create mean vorticity. *)
Theorem ns2d_mean_vorticity : forall (g : grid) (n m : nat) (hx hy : R) (smooth : bool) (W : arr cplx),
  grid2 g n m hx hy -> (3 <= n)%nat -> Nat.Even m -> shp W = [n; (m / 2 + 1)%nat] -> band_limited n m W ->
  (exists N, ns2d_explicit_terms g (Some smooth) None W = Ok N /\ shp N = [n; (m / 2 + 1)%nat] /\ band_limited n m N /\ get N [0; 0] = C0) /\
  (forall f, (forall vx vy, shp vx = [n; m] -> shp vy = [n; m] -> exists fx fy, f vx vy = Ok (fx, fy) /\ shp fx = [n; m] /\ shp fy = [n; m]) ->
     exists N, ns2d_explicit_terms g (Some smooth) (Some f) W = Ok N /\ shp N = [n; (m / 2 + 1)%nat] /\ get N [0; 0] = C0).
Proof. exact (@ns2d_mean_vorticity_lem). Qed.
Print Assumptions ns2d_mean_vorticity.

(** The hypotheses are met by a concrete case. *)
Example ns2d_mean_vorticity_ex : grid2 ex_grid2 4 4 (1/4) (1/2) /\ exists W : arr cplx, shp W = [4%nat; (4 / 2 + 1)%nat] /\ band_limited 4 4 W /\ get W [3; 1] = C1.
Proof. exact (@ns2d_mean_vorticity_ex_lem). Qed.
