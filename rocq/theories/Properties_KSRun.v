(** Generated by tools/gen.py from KSRunProps.v: property theorems only. *)
From Verif Require Import Prelude NdArr LinAlg Cplx Grids_model FastDiag_model TimeStep_model FourierProofs FourierLine Spectral_model SpectralProps SpectralUtilProps SpectralPadProps FourierShift RealShift SpecFourier SpectralStep_model SpecStep SpecKS StepRel SpectralRunProps NS2DBase NS2DRunProps.
From Verif Require Import KSRunProps.
Local Open Scope Z_scope.
Set Implicit Arguments.

(** C67. Runs of the Kuramoto-Sivashinsky equation commute with translations and with the reflection u(x) -> -u(-x): for every grid with an even number N of points (a multiple of 4 with dealiasing), every scheme, step size and number of steps, and every initial field u: starting from rfft of the field translated by s cells (an even number with dealiasing), the run has the same outcome as from rfft(u): it fails with the same error, or its field is the field of the other run translated by s cells; likewise for the reflected field. *)
Theorem ks_symmetries : forall (g : grid) (n : nat) (h : R) (smooth : bool) (k : spectral_scheme) (dt : R) (steps : nat) (u u' : arr R),
  good_size smooth n -> grid1 g (2 * n) h -> shp u = [(2 * n)%nat] -> shp u' = [(2 * n)%nat] ->
  (forall s, (smooth = true -> Z.Even s) -> (forall j, 0 <= j < Z.of_nat (2 * n) -> get u' [j] = get u [(j + s) mod Z.of_nat (2 * n)]) ->
    res_rel (fun V V' => shp (irfftn V) = shp u /\ shp (irfftn V') = shp u /\ forall j, get (irfftn V') [j] = get (irfftn V) [(j + s) mod Z.of_nat (2 * n)])
      (ks_run g smooth k dt steps (rfftn u)) (ks_run g smooth k dt steps (rfftn u'))) /\
  ((forall j, 0 <= j < Z.of_nat (2 * n) -> get u' [j] = (- get u [(- j) mod Z.of_nat (2 * n)])%R) ->
    res_rel (fun V V' => shp (irfftn V) = shp u /\ shp (irfftn V') = shp u /\ forall j, get (irfftn V') [j] = (- get (irfftn V) [(- j) mod Z.of_nat (2 * n)])%R)
      (ks_run g smooth k dt steps (rfftn u)) (ks_run g smooth k dt steps (rfftn u'))).
Proof. exact (@ks_symmetries_lem). Qed.
Print Assumptions ks_symmetries.

(** The hypotheses are met by a concrete case. *)
Example ks_symmetries_ex : exists u u' u'' : arr R, good_size true 2 /\ good_size false 2 /\ grid1 ex_grid1 (2 * 2) (1/4) /\ shp u = [(2 * 2)%nat] /\ shp u' = [(2 * 2)%nat] /\ shp u'' = [(2 * 2)%nat] /\ Z.Even 2 /\
  (forall j, 0 <= j < Z.of_nat (2 * 2) -> get u' [j] = get u [(j + 2) mod Z.of_nat (2 * 2)]) /\
  (forall j, 0 <= j < Z.of_nat (2 * 2) -> get u'' [j] = (- get u [(- j) mod Z.of_nat (2 * 2)])%R) /\ get u' [0] <> get u [0].
Proof. exact (@ks_symmetries_ex_lem). Qed.
