(** Generated by tools/gen.py from BurgersRunProps.v: property theorems only. *)
From Verif Require Import Prelude NdArr Spec LinAlg Cplx Grids_model FastDiag_model TimeStep_model FourierProofs FourierLine Spectral_model SpectralProps SpectralUtilProps SpectralPadProps FourierShift RealShift SpecFourier TimeStepProps SpectralStep_model SpecStep SpecKS StepRel SpectralRunProps NS2DBase NS2DRunProps KSRunProps KSMoreProps.
From Verif Require Import BurgersRunProps.
Local Open Scope Z_scope.
Set Implicit Arguments.

(** C67. Runs of the forced Burgers equation commute with translations by an even number of cells: on every grid of N = 4q points, for every pair of forcing functions where the second is the first translated by s cells at all times, every viscosity, scheme, step size, number of steps and initial time, from initial fields u and u translated by s cells, the two runs fail with the same error, or end at the same time with translated fields. *)
Theorem burgers_translations : forall (g : grid) (n : nat) (h nu dt t0 : R) (f f' : R -> arr R) (k : spectral_scheme) (steps : nat) (s : Z) (u u' : arr R),
  good_size true n -> grid1 g (2 * n) h -> Z.Even s -> (forall t, shp (f t) = [(2 * n)%nat]) -> (forall t, shp (f' t) = [(2 * n)%nat]) -> shp u = [(2 * n)%nat] -> shp u' = [(2 * n)%nat] ->
  (forall t j, 0 <= j < Z.of_nat (2 * n) -> get (f' t) [j] = get (f t) [(j + s) mod Z.of_nat (2 * n)]) ->
  (forall j, 0 <= j < Z.of_nat (2 * n) -> get u' [j] = get u [(j + s) mod Z.of_nat (2 * n)]) ->
  res_rel (fun a b => snd b = snd a /\ shp (irfftn (fst a)) = shp u /\ shp (irfftn (fst b)) = shp u /\ forall j, get (irfftn (fst b)) [j] = get (irfftn (fst a)) [(j + s) mod Z.of_nat (2 * n)])
    (burgers_run g (Some f) nu k dt steps (rfftn u, t0)) (burgers_run g (Some f') nu k dt steps (rfftn u', t0)).
Proof. exact (@burgers_translations_lem). Qed.
Print Assumptions burgers_translations.

(** The hypotheses are met by a concrete case. *)
Example burgers_translations_ex : exists (f f' : R -> arr R) (u u' : arr R), good_size true 2 /\ grid1 ex_grid1 (2 * 2) (1/4) /\ Z.Even 2 /\ (forall t, shp (f t) = [(2 * 2)%nat]) /\ (forall t, shp (f' t) = [(2 * 2)%nat]) /\ shp u = [(2 * 2)%nat] /\ shp u' = [(2 * 2)%nat] /\
  (forall t j, 0 <= j < Z.of_nat (2 * 2) -> get (f' t) [j] = get (f t) [(j + 2) mod Z.of_nat (2 * 2)]) /\ (forall j, 0 <= j < Z.of_nat (2 * 2) -> get u' [j] = get u [(j + 2) mod Z.of_nat (2 * 2)]) /\ get u' [0] <> get u [0].
Proof. exact (@burgers_translations_ex_lem). Qed.

(** C67. The unforced Burgers equation never changes the mean: on every grid of N = 4q points, for every viscosity, initial spectrum, initial time, scheme, step size and number of steps, a run that succeeds returns a spectrum whose mean mode is exactly the initial one. *)
Theorem burgers_mean_constant : forall (g : grid) (q : nat) (h nu dt t0 t : R) (k : spectral_scheme) (steps : nat) (U V : arr cplx),
  (1 <= q)%nat -> grid1 g (4 * q) h -> shp U = [(2 * q + 1)%nat] -> burgers_run g None nu k dt steps (U, t0) = Ok (V, t) -> shp V = shp U /\ get V [0] = get U [0].
Proof. exact (@burgers_mean_constant_lem). Qed.
Print Assumptions burgers_mean_constant.

(** The hypotheses are met by a concrete case. *)
Example burgers_mean_constant_ex : exists V t, grid1 ex_grid1 (4 * 1) (1/4) /\ shp (afull [3%nat] C1) = [(2 * 1 + 1)%nat] /\ burgers_run ex_grid1 None 1 CrankNicolsonRK2 1 3 (afull [3%nat] C1, 0%R) = Ok (V, t).
Proof. exact (@burgers_mean_constant_ex_lem). Qed.
