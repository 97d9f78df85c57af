(** Generated by tools/gen.py from NS2DSymProps.v: property theorems only. *)
From Verif Require Import Prelude NdArr LinAlg Cplx Grids_model Boundaries_model FD_model FastDiag_model TimeStep_model FourierProofs FourierLine FourierPlane Spectral_model SpectralProps SpectralUtilProps FourierShift RealShift SpecFourier SpectralStep_model SpecStep StepRel SpectralRunProps NS2DBase NS2DMoreProps NS2DForceProps NS2DRunProps SpecFlow.
From Verif Require Import NS2DSymProps.
Local Open Scope Z_scope.
Set Implicit Arguments.

(** C79. Translations. On every two-dimensional grid with an even number of columns, for every viscosity, drag, smooth flag, step size, number of steps and time stepping scheme of the spectral package, and every forcing that commutes with translations by (s, r) cells (or none): a run of NavierStokes2D started from the vorticity field w translated by (s, r) cells around the periodic box has the same outcome as the run started from w: the same error, or the vorticity field of the other run translated by (s, r) cells. No band limit is assumed. *)
Theorem ns2d_runs_commute_with_translations : forall (g : grid) (n m : nat) (hx hy nu drag dt : R) (smooth : option bool) (forcing : option (arr R -> arr R -> result (arr R * arr R))) (k : spectral_scheme) (steps : nat) (s r : Z) (w w' : arr R),
  grid2 g n m hx hy -> Nat.Even m -> forcing_moves n m (translated n m s r) forcing -> translated n m s r w w' ->
  res_rel (fun V V' => translated n m s r (irfftn V) (irfftn V'))
    (ns2d_run g smooth forcing nu drag k dt steps (rfftn w)) (ns2d_run g smooth forcing nu drag k dt steps (rfftn w')).
Proof. exact (@ns2d_runs_commute_with_translations_lem). Qed.
Print Assumptions ns2d_runs_commute_with_translations.

(** C79. Half turns. Under the same conditions, for every forcing whose vector field turns along (or none): a run of NavierStokes2D started from the vorticity field rotated by 180 degrees has the same outcome as the run started from the original one: the same error, or the vorticity field of the other run rotated by 180 degrees. *)
Theorem ns2d_runs_commute_with_half_turns : forall (g : grid) (n m : nat) (hx hy nu drag dt : R) (smooth : option bool) (forcing : option (arr R -> arr R -> result (arr R * arr R))) (k : spectral_scheme) (steps : nat) (w w' : arr R),
  grid2 g n m hx hy -> Nat.Even m -> forcing_moves n m (half_turn_component n m) forcing -> half_turn n m w w' ->
  res_rel (fun V V' => half_turn n m (irfftn V) (irfftn V'))
    (ns2d_run g smooth forcing nu drag k dt steps (rfftn w)) (ns2d_run g smooth forcing nu drag k dt steps (rfftn w')).
Proof. exact (@ns2d_runs_commute_with_half_turns_lem). Qed.
Print Assumptions ns2d_runs_commute_with_half_turns.

(** The hypotheses are met by a concrete case. *)
Example ns2d_runs_commute_with_translations_ex : grid2 sq_grid 6 6 1 1 /\ Nat.Even 6 /\ forcing_moves 6 6 (translated 6 6 1 5) None /\ forcing_moves 6 6 (translated 6 6 1 5) (Some (drag_forcing 2)) /\ translated 6 6 1 5 (spot 2 1) (spot 1 2).
Proof. exact (@ns2d_runs_commute_with_translations_ex_lem). Qed.

(** The hypotheses are met by a concrete case. *)
Example ns2d_runs_commute_with_half_turns_ex : grid2 sq_grid 6 6 1 1 /\ Nat.Even 6 /\ forcing_moves 6 6 (half_turn_component 6 6) None /\ forcing_moves 6 6 (half_turn_component 6 6) (Some (drag_forcing 2)) /\ half_turn 6 6 (spot 2 1) (spot 4 5).
Proof. exact (@ns2d_runs_commute_with_half_turns_ex_lem). Qed.
