(** Generated by tools/gen.py from NS2DForcedSymProps.v: property theorems only. *)
From Verif Require Import Prelude NdArr LinAlg Cplx Grids_model Boundaries_model FD_model Advection_model FastDiag_model Forcings_model TimeStep_model FourierProofs FourierLine FourierPlane Spectral_model SpectralProps SpectralUtilProps SpecFourier SpectralStep_model SpecStep NS2DBase NS2DMoreProps NS2DForceProps NS2DRunProps ForcedNS_model SpecFlow NS2DSymProps.
From Verif Require Import NS2DForcedSymProps.
Local Open Scope Z_scope.
Set Implicit Arguments.

(** C79. Kolmogorov flow. On every grid with an even number of columns: runs of ForcedNavierStokes2D (forcing sin(4 y), drag 1/10) commute with every translation along x; with translations by r cells along y when these r cells and the box hold whole numbers of forcing periods; and with half turns when the forcing is periodic in the box and a node of it (4 * lower y bound = a multiple of pi) lies on the first grid line. *)
Theorem kolmogorov_flow_symmetries : forall (g : grid) (n m : nat) (hx hy : R) (dx : R * R) (lo hi viscosity dt : R) (smooth : option bool) (k : spectral_scheme) (steps : nat) (w w' : arr R),
  grid2 g n m hx hy -> gdomain g = [dx; (lo, hi)] -> Nat.Even m ->
  (forall s r, r = 0 \/ (exists kap z : Z, 4 * (INR m * hy) = 2 * PI * IZR kap /\ 4 * (IZR r * hy) = 2 * PI * IZR z)%R -> translated n m s r w w' ->
     res_rel (fun V V' => translated n m s r (irfftn V) (irfftn V'))
       (forced_ns2d_run g smooth viscosity k dt steps (rfftn w)) (forced_ns2d_run g smooth viscosity k dt steps (rfftn w'))) /\
  ((exists kap z : Z, 4 * (INR m * hy) = 2 * PI * IZR kap /\ 4 * lo = PI * IZR z)%R -> half_turn n m w w' ->
     res_rel (fun V V' => half_turn n m (irfftn V) (irfftn V'))
       (forced_ns2d_run g smooth viscosity k dt steps (rfftn w)) (forced_ns2d_run g smooth viscosity k dt steps (rfftn w'))).
Proof. exact (@kolmogorov_flow_symmetries_lem). Qed.
Print Assumptions kolmogorov_flow_symmetries.

(** The hypotheses are met by a concrete case. *)
Example kolmogorov_flow_symmetries_ex : grid2 kol_grid 4 16 1 (PI / 8) /\ gdomain kol_grid = [(0%R, 4%R); (0%R, (2 * PI)%R)] /\ Nat.Even 16 /\
  (4 * (INR 16 * (PI / 8)) = 2 * PI * IZR 4 /\ 4 * (IZR 4 * (PI / 8)) = 2 * PI * IZR 1 /\ 4 * 0 = PI * IZR 0)%R /\
  translated 4 16 1 4 (bump 4 16 2 5) (bump 4 16 1 1) /\ half_turn 4 16 (bump 4 16 1 5) (bump 4 16 3 11).
Proof. exact (@kolmogorov_flow_symmetries_ex_lem). Qed.
