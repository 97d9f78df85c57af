(** Generated by tools/gen.py from KSBugProps.v: property theorems only. *)
From Verif Require Import Prelude NdArr Spec LinAlg Cplx Grids_model FastDiag_model TimeStep_model FourierProofs FourierLine Spectral_model SpectralProps SpectralUtilProps SpectralPadProps FourierShift RealShift SpecFourier SpectralStep_model SpecStep SpecKS NS2DBase NS2DRunProps KSRunProps KSMoreProps.
From Verif Require Import KSBugProps.
Local Open Scope Z_scope.
Set Implicit Arguments.

(** C67. Refuted: with smooth=False on a grid with an odd number of points, KuramotoSivashinsky.explicit_terms is not -1/2 d/dx of the square of the field: on 3 points the field (0, 1, -1) gives zero at every mode, while -(1/2) (2 pi i k_1) rfft(u^2)[1] is not zero (irfft returns N - 1 points and drops the imaginary part of the last mode). *)
Theorem ks_odd_points_refuted : exists (g : grid) (u : arr R) (W : arr cplx),
  grid1 g 3 1 /\ shp u = [3%nat] /\ ks_explicit_terms g false (rfftn u) = Ok W /\ shp W = [2%nat] /\ (forall k, get W [k] = C0) /\
  Cmul (Cscal (- (1 / 2)) (Cmul two_pi_i (RtoC (freq 3 1 1)))) (get (rfftn (amap (fun x => x ^ 2)%R u)) [1]) <> C0.
Proof. exact (@ks_odd_points_refuted_lem). Qed.
Print Assumptions ks_odd_points_refuted.

(** C67. Refuted: with dealiasing, KuramotoSivashinsky.explicit_terms does not commute with translations by one cell at the highest wave number: on 4 points there are two fields, the second the first translated by one cell, whose explicit terms W and W' do not satisfy W'[2] = e^{i pi} W[2] (the Nyquist mode is padded as if it were an ordinary mode). *)
Theorem ks_one_cell_shift_refuted : exists (g : grid) (u u' : arr R) (W W' : arr cplx),
  grid1 g 4 (1/4) /\ shp u = [4%nat] /\ shp u' = [4%nat] /\ (forall j, get u' [j] = get u [(j + 1) mod 4]) /\
  ks_explicit_terms g true (rfftn u) = Ok W /\ ks_explicit_terms g true (rfftn u') = Ok W' /\
  get W' [2] <> Cmul (cis (2 * PI * IZR (2 * 1) / INR 4)) (get W [2]).
Proof. exact (@ks_one_cell_shift_refuted_lem). Qed.
Print Assumptions ks_one_cell_shift_refuted.
