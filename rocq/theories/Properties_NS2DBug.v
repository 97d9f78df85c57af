(** Generated by tools/gen.py from NS2DBugProps.v: property theorems only. *)
From Verif Require Import Prelude NdArr LinAlg Cplx Grids_model FastDiag_model FourierProofs FourierLine Spectral_model SpectralProps SpectralUtilProps FourierPlane SpecFourier NS2DBase NS2DProps.
From Verif Require Import NS2DBugProps.
Local Open Scope Z_scope.
Set Implicit Arguments.

(** C65. (Defect) smooth=False does not switch the dealiasing filter off: for every grid and state, explicit_terms with smooth=False is exactly explicit_terms with smooth=True, and on a 4 x 4 grid with the sum of two cosines as vorticity it differs from the unfiltered advection (which only smooth=None gives). *)
Theorem ns2d_smooth_false_refuted :
  (forall g forcing W, ns2d_explicit_terms g (Some false) forcing W = ns2d_explicit_terms g (Some true) forcing W) /\
  exists g w N N', grid2 g 4 4 (1/4) (1/2) /\ shp w = [4%nat; 4%nat] /\
    ns2d_explicit_terms g (Some false) None (rfftn w) = Ok N /\ ns2d_explicit_terms g None None (rfftn w) = Ok N' /\
    get N [1; 1] = C0 /\ get N' [1; 1] <> C0.
Proof. exact (@ns2d_smooth_false_refuted_lem). Qed.
Print Assumptions ns2d_smooth_false_refuted.

(** C65. (Defect) An odd number of columns is silently treated as one column less: on a grid with 2k+1 columns (k >= 1) irfftn of every stored vorticity spectrum has only 2k columns, no error is raised, and explicit_terms is exactly what it is on the grid of the same domain with 2k columns - for the same stored array, which there stands for a field larger by the factor (2k+1)/(2k). *)
Theorem ns2d_odd_columns_refuted : forall (g g' : grid) (n k : nat) (hx hy hy' : R), (1 <= k)%nat ->
  grid2 g n (2 * k + 1) hx hy -> grid2 g' n (2 * k) hx hy' -> (INR (2 * k + 1) * hy = INR (2 * k) * hy')%R ->
  forall (W : arr cplx), shp W = [n; ((2 * k + 1) / 2 + 1)%nat] ->
    shp (irfftn W) = [n; (2 * k)%nat] /\
    (forall smooth, is_ok (ns2d_explicit_terms g smooth None W) /\ ns2d_explicit_terms g smooth None W = ns2d_explicit_terms g' smooth None W).
Proof. exact (@ns2d_odd_columns_refuted_lem). Qed.
Print Assumptions ns2d_odd_columns_refuted.

(** C65. (Defect) The brick-wall filter keeps wave number -a but not a at the edge of the band, so it is not a projection of real fields: filtering the real field with spectrum at wave vectors (1, 0) and (-1, 0), reading the result as a real field and filtering again halves it. *)
Theorem brick_wall_not_a_projection_refuted : exists g w F, grid2 g 4 4 (1/4) (1/2) /\ shp w = [4%nat; 4%nat] /\ brick_wall_filter_2d g = Ok F /\
  let filter := fun U : arr cplx => amap2 Cscal F U in
  get (filter (rfftn w)) [3; 0] = C1 /\ get (rfftn w) [1; 0] = C1 /\ get (filter (rfftn w)) [1; 0] = C0 /\
  get (filter (rfftn (irfftn (filter (rfftn w))))) [3; 0] = RtoC (1 / 2).
Proof. exact (@brick_wall_not_a_projection_refuted_lem). Qed.
Print Assumptions brick_wall_not_a_projection_refuted.
