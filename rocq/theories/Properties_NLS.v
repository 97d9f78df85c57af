(** Generated by tools/gen.py from NLSProps.v: property theorems only. *)
From Verif Require Import Prelude NdArr LinAlg Cplx Grids_model FastDiag_model TimeStep_model FourierProofs FourierLine Spectral_model SpectralProps SpectralUtilProps SpectralPadProps FourierShift SpecFourier SpectralStep_model SpecStep StepRel SpecNLS NLSBase NS2DBase NS2DRunProps.
From Verif Require Import NLSProps.
Local Open Scope Z_scope.
Set Implicit Arguments.

(** C66. The nonlinear Schroedinger right-hand side conserves mass and energy, with and without dealiasing: for every grid with an even number of points and every spectrum U, explicit_terms and implicit_terms succeed; moving from U in the direction of explicit_terms alone, of implicit_terms alone or of their sum does not change the mass (sum of |U_k|^2) to first order, and moving in the direction of their sum does not change the Hamiltonian, the sum over the grid of |psi|^4/4 - |psi_x|^2/8 (the field evaluated on the doubled grid when dealiased). *)
Theorem nls_conserves : forall (g : grid) (q : nat) (h : R) (smooth : bool) (U : arr cplx),
  (1 <= q)%nat -> grid1 g (2 * q) h -> shp U = [(2 * q)%nat] ->
  exists N L, nls_explicit_terms g smooth U = Ok N /\ nls_implicit_terms g U = Ok L /\ shp N = shp U /\ shp L = shp U /\
    let rate := amap2 Cadd N L in
    derivable_pt_lim (fun t => nls_mass (2 * q) (along U N t)) 0%R 0%R /\
    derivable_pt_lim (fun t => nls_mass (2 * q) (along U L t)) 0%R 0%R /\
    derivable_pt_lim (fun t => nls_mass (2 * q) (along U rate t)) 0%R 0%R /\
    (forall t, is_ok (field_values smooth (along U rate t))) /\
    derivable_pt_lim (fun t => nls_energy (2 * q) (INR (2 * q) * h)%R smooth (along U rate t)) 0%R 0%R.
Proof. exact (@nls_conserves_lem). Qed.
Print Assumptions nls_conserves.

(** The hypotheses are met by a concrete case. *)
Example nls_conserves_ex : grid1 ex_grid1 (2 * 2) (1/4) /\ shp (afull [4%nat] C1) = [(2 * 2)%nat].
Proof. exact (@nls_conserves_ex_lem). Qed.
