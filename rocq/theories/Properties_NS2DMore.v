(** Generated by tools/gen.py from NS2DMoreProps.v: property theorems only. *)
From Verif Require Import Prelude NdArr LinAlg Cplx Grids_model FastDiag_model FourierProofs FourierLine Spectral_model SpectralProps SpectralUtilProps FourierPlane SpecFourier NS2DBase NS2DProps NS2DConserve.
From Verif Require Import NS2DMoreProps.
Local Open Scope Z_scope.
Set Implicit Arguments.

(** C65. Enstrophy and energy. Let w be any real vorticity field on a grid with n >= 3 rows and an even number of columns whose spectrum lies inside the 2/3 band, and let N = NavierStokes2D.explicit_terms(rfftn(w)) without forcing. Then N succeeds, and the advection it describes changes neither enstrophy nor kinetic energy: the sum over the grid of w * irfftn(N) is zero, and so is the sum of u . u_t, where u is the velocity of w and u_t the velocity (vorticity_to_velocity) of N. *)
Theorem ns2d_conserves : forall (g : grid) (n m : nat) (hx hy : R) (smooth : bool) (w : arr R),
  grid2 g n m hx hy -> (3 <= n)%nat -> Nat.Even m -> shp w = [n; m] -> band_limited n m (rfftn w) ->
  exists N U V A B, ns2d_explicit_terms g (Some smooth) None (rfftn w) = Ok N /\
    vorticity_to_velocity g (rfftn w) = Ok (U, V) /\ vorticity_to_velocity g N = Ok (A, B) /\
    shp (irfftn N) = [n; m] /\ shp (irfftn U) = [n; m] /\ shp (irfftn V) = [n; m] /\ shp (irfftn A) = [n; m] /\ shp (irfftn B) = [n; m] /\
    asum [n; m] (fun x => get w x * get (irfftn N) x)%R = 0%R /\
    asum [n; m] (fun x => get (irfftn U) x * get (irfftn A) x + get (irfftn V) x * get (irfftn B) x)%R = 0%R.
Proof. exact (@ns2d_conserves_lem). Qed.
Print Assumptions ns2d_conserves.

(** The hypotheses are met by a concrete case. *)
Example ns2d_conserves_ex : grid2 sq_grid 6 6 1 1 /\ Nat.Even 6 /\ shp (irfftn kept_wave) = [6%nat; 6%nat] /\ band_limited 6 6 (rfftn (irfftn kept_wave)) /\ get (rfftn (irfftn kept_wave)) [5; 1] = C1.
Proof. exact (@ns2d_conserves_ex_lem). Qed.
