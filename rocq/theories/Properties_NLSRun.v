(** Generated by tools/gen.py from NLSRunProps.v: property theorems only. *)
From Verif Require Import Prelude NdArr LinAlg Cplx Grids_model FastDiag_model TimeStep_model FourierProofs FourierLine Spectral_model SpectralProps SpectralUtilProps SpectralPadProps FourierShift SpecFourier SpectralStep_model SpecStep StepRel SpecNLS NLSBase NS2DBase NS2DRunProps NLSProps.
From Verif Require Import NLSRunProps.
Local Open Scope Z_scope.
Set Implicit Arguments.

(** C66. Runs of the nonlinear Schroedinger equation commute with rotating the phase and with translations: for every grid with an even number of points, with or without dealiasing, every time stepping scheme, step size and number of steps, and all initial fields psi and psi' with psi'[j] = c psi[(j + s) mod n], |c| = 1, starting from their Fourier transforms, the two runs either both succeed, and the field of the second is the field of the first rotated by c and translated by s cells, or fail with the same error. *)
Theorem nls_symmetries : forall (g : grid) (q : nat) (h : R) (smooth : bool) (k : spectral_scheme) (dt : R) (steps : nat) (c : cplx) (s : Z) (psi psi' : arr cplx),
  (1 <= q)%nat -> grid1 g (2 * q) h -> Cn2 c = 1%R -> shp psi = [(2 * q)%nat] -> shp psi' = [(2 * q)%nat] ->
  (forall j, 0 <= j < Z.of_nat (2 * q) -> get psi' [j] = Cmul c (get psi [(j + s) mod Z.of_nat (2 * q)])) ->
  res_rel (fun V V' => shp V = [(2 * q)%nat] /\ shp V' = [(2 * q)%nat] /\
                       forall j, 0 <= j < Z.of_nat (2 * q) -> get (ifftn V') [j] = Cmul c (get (ifftn V) [(j + s) mod Z.of_nat (2 * q)]))
    (nls_run g smooth k dt steps (fftn psi)) (nls_run g smooth k dt steps (fftn psi')).
Proof. exact (@nls_symmetries_lem). Qed.
Print Assumptions nls_symmetries.

(** The hypotheses are met by a concrete case. *)
Example nls_symmetries_ex : exists psi psi' : arr cplx, grid1 ex_grid1 (2 * 2) (1/4) /\ Cn2 (mkC 0 1) = 1%R /\ shp psi = [(2 * 2)%nat] /\ shp psi' = [(2 * 2)%nat] /\
  (forall j, 0 <= j < Z.of_nat (2 * 2) -> get psi' [j] = Cmul (mkC 0 1) (get psi [(j + 1) mod Z.of_nat (2 * 2)])) /\ get psi' [0] <> get psi [0].
Proof. exact (@nls_symmetries_ex_lem). Qed.

(** C66. A plane wave stays a plane wave: for every grid with an even number of points, with or without dealiasing, every time stepping scheme, step size and number of steps, a run of the nonlinear Schroedinger equation started from a exp(2 pi i w j / n) ends, if it does not fail, with a multiple of exp(2 pi i w j / n). *)
Theorem nls_plane_wave : forall (g : grid) (q : nat) (h : R) (smooth : bool) (k : spectral_scheme) (dt : R) (steps : nat) (a : cplx) (w : Z) (psi V : arr cplx),
  (1 <= q)%nat -> grid1 g (2 * q) h -> shp psi = [(2 * q)%nat] ->
  (forall j, 0 <= j < Z.of_nat (2 * q) -> get psi [j] = Cmul a (cis (2 * PI * IZR (w * j) / INR (2 * q)))) ->
  nls_run g smooth k dt steps (fftn psi) = Ok V ->
  exists b, forall j, 0 <= j < Z.of_nat (2 * q) -> get (ifftn V) [j] = Cmul b (cis (2 * PI * IZR (w * j) / INR (2 * q))).
Proof. exact (@nls_plane_wave_lem). Qed.
Print Assumptions nls_plane_wave.

(** The hypotheses are met by a concrete case. *)
Example nls_plane_wave_ex : exists psi V : arr cplx, grid1 ex_grid1 (2 * 2) (1/4) /\ shp psi = [(2 * 2)%nat] /\
  (forall j, 0 <= j < Z.of_nat (2 * 2) -> get psi [j] = Cmul C1 (cis (2 * PI * IZR (1 * j) / INR (2 * 2)))) /\ nls_run ex_grid1 true CrankNicolsonRK2 1 3 (fftn psi) = Ok V.
Proof. exact (@nls_plane_wave_ex_lem). Qed.
