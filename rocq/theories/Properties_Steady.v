(** Generated by tools/gen.py from SteadyProps.v: property theorems only. *)
From Verif Require Import Prelude NdArr Cplx TimeStep_model TimeStepProps SpectralStep_model SpecStep SpecKS.
From Verif Require Import SteadyProps.
Local Open Scope R_scope.
Set Implicit Arguments.

(** C37. Steady states are kept exactly: if the explicit and the implicit terms cancel at u, and implicit_solve undoes u - h * implicit_terms(u) for every h >= 0, then every number of steps of backward_forward_euler, crank_nicolson_rk2, crank_nicolson_rk3 and imex_rk_sil3, with every dt >= 0, returns u. *)
Theorem steady_states_kept : forall X (F G : vec X -> vec X) (Ginv : vec X -> R -> vec X) (dt : R) (u : vec X) (k : spectral_scheme) (steps : nat),
  0 <= dt -> (forall x, F u x + G u x = 0) -> (forall h, 0 <= h -> Ginv (fun x => u x - h * G u x) h = u) ->
  In k [BackwardForwardEuler; CrankNicolsonRK2; rk3_scheme; Imex sil3_tableau] -> spectral_steps k F G Ginv dt steps u = Ok u.
Proof. exact (@steady_states_kept_lem). Qed.
Print Assumptions steady_states_kept.

(** The hypotheses are met by a concrete case. *)
Example steady_states_kept_ex : let F := fun (_ : vec unit) (_ : unit) => 6 in let G := fun (v : vec unit) (x : unit) => - 2 * v x in let Ginv := fun (v : vec unit) h (x : unit) => v x / (1 + h * 2) in
  let u := fun _ : unit => 3 in (forall x, F u x + G u x = 0) /\ (forall h, 0 <= h -> Ginv (fun x => u x - h * G u x) h = u).
Proof. exact (@steady_states_kept_ex_lem). Qed.
