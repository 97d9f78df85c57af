(** Generated by tools/gen.py from SkewProps.v: property theorems only. *)
From Verif Require Import Prelude NdArr Grids_model Spec Boundaries_model BoundariesPeriodic FD_model Interp_model Advection_model PRep FDProofs FDProps InterpProps AdvectionProofs AdvectionProps ConvectProps MonotoneProps TimeStep_model SpectralStep_model SpecKS TimeStepProps SpecSkew AccuracyProps.
From Verif Require Import SkewProps.
Local Open Scope R_scope.
Set Implicit Arguments.

(** C87. When the explicit terms do no work on a state that the (orthogonal) projection keeps, one forward_euler step increases the energy by exactly dt^2 times the energy of the projected tendency - for nonlinear equations too. So explicit Euler steps of an energy-conserving equation never lose energy, however small the time step. *)
Theorem forward_euler_energy : forall X (ip : vec X -> vec X -> R) F P dt u, inner_product ip -> orthogonal_projection ip P -> P u = u -> ip (F u) u = 0 ->
  exists u', forward_euler F P dt u = Ok u' /\ P u' = u' /\ energy ip u' = energy ip u + dt ^ 2 * energy ip (P (F u)).
Proof. exact (@forward_euler_energy_lem). Qed.
Print Assumptions forward_euler_energy.

(** C87. For a linear equation that does no work on constrained states (central advection in a fixed incompressible flow, waves), starting from a constrained state: midpoint_rk2 and heun_rk2 increase the energy by exactly dt^4/4 times the energy of the second time derivative, and classic_rk4 changes it by exactly - dt^6/72 |A^3 u|^2 + dt^8/576 |A^4 u|^2. *)
Theorem rk_energy : forall X (ip : vec X -> vec X -> R) F P dt u, inner_product ip -> is_linear F -> orthogonal_projection ip P -> (forall w, P w = w -> ip (F w) w = 0) -> P u = u ->
  let A := fun w => P (F w) in
  (exists u', midpoint_rk2 F P dt u = Ok u' /\ heun_rk2 F P dt u = Ok u' /\ energy ip u' = energy ip u + dt ^ 4 / 4 * energy ip (A (A u))) /\
  (exists u', classic_rk4 F P dt u = Ok u' /\ P u' = u' /\ energy ip u' = energy ip u - dt ^ 6 / 72 * energy ip (A (A (A u))) + dt ^ 8 / 576 * energy ip (A (A (A (A u))))).
Proof. exact (@rk_energy_lem). Qed.
Print Assumptions rk_energy.

(** C87. classic_rk4 is stable on such equations up to its classical limit: if dt |A w| <= sqrt(8) |w| for every constrained state w, the energy never grows over any number of steps. *)
Theorem rk4_energy_stable : forall X (ip : vec X -> vec X -> R) F P dt (run : nat -> vec X), inner_product ip -> is_linear F -> orthogonal_projection ip P -> (forall w, P w = w -> ip (F w) w = 0) ->
  (forall w, P w = w -> dt ^ 2 * energy ip (P (F w)) <= 8 * energy ip w) -> P (run 0%nat) = run 0%nat -> (forall n, classic_rk4 F P dt (run n) = Ok (run (S n))) ->
  forall n m, (n <= m)%nat -> energy ip (run m) <= energy ip (run n).
Proof. exact (@rk4_energy_stable_lem). Qed.
Print Assumptions rk4_energy_stable.

(** C87. The implicit-explicit schemes without explicit terms, on a linear implicit term that does no work (dispersive terms such as i k^2): crank_nicolson_rk2, crank_nicolson_rk3, crank_nicolson_rk4 and every low-storage Crank-Nicolson scheme keep the energy exactly over any number of steps of any length; backward_forward_euler loses exactly dt^2 times the energy of the new tendency at each step. *)
Theorem implicit_energy : forall X (ip : vec X -> vec X -> R) G Ginv dt (u v : vec X) k n, inner_product ip -> is_linear G -> (forall w, ip (G w) w = 0) ->
  (forall y h, vadd (Ginv y h) (vscal (- h) (G (Ginv y h))) = y) ->
  (k = CrankNicolsonRK2 \/ (exists al be ga, k = LowStorage al be ga) -> spectral_steps k (fun _ => vzero) G Ginv dt n u = Ok v -> energy ip v = energy ip u) /\
  (spectral_step BackwardForwardEuler (fun _ => vzero) G Ginv dt u = Ok v -> energy ip v + dt ^ 2 * energy ip (G v) = energy ip u).
Proof. exact (@implicit_energy_lem). Qed.
Print Assumptions implicit_energy.

(** The hypotheses are met by a concrete case. *)
Example forward_euler_energy_ex : inner_product plane_product /\ orthogonal_projection plane_product (fun u => u) /\ (forall w, plane_product (rotation w) w = 0) /\
  exists u', forward_euler rotation (fun u => u) (1 / 2) (fun x => if x then 1 else 0) = Ok u' /\ energy plane_product u' = 5 / 4.
Proof. exact (@forward_euler_energy_ex_lem). Qed.

(** The hypotheses are met by a concrete case. *)
Example rk_energy_ex : inner_product plane_product /\ is_linear rotation /\ orthogonal_projection plane_product (fun u => u) /\ (forall w, plane_product (rotation w) w = 0) /\
  exists u', classic_rk4 rotation (fun u => u) 1 (fun x => if x then 1 else 0) = Ok u' /\ energy plane_product u' = 1 - 1 / 72 + 1 / 576.
Proof. exact (@rk_energy_ex_lem). Qed.

(** The hypotheses are met by a concrete case. *)
Example rk4_energy_stable_ex : inner_product plane_product /\ is_linear rotation /\ orthogonal_projection plane_product (fun u => u) /\ (forall w, plane_product (rotation w) w = 0) /\
  (forall w, 2 ^ 2 * energy plane_product (rotation w) <= 8 * energy plane_product w) /\ (forall n, classic_rk4 rotation (fun u => u) 2 (rotated n) = Ok (rotated (S n))).
Proof. exact (@rk4_energy_stable_ex_lem). Qed.

(** The hypotheses are met by a concrete case. *)
Example implicit_energy_ex : inner_product plane_product /\ is_linear rotation /\ (forall w, plane_product (rotation w) w = 0) /\
  (forall y h, vadd (rotation_inv y h) (vscal (- h) (rotation (rotation_inv y h))) = y) /\
  exists v, spectral_steps CrankNicolsonRK2 (fun _ => vzero) rotation rotation_inv 3 5 (fun x => if x then 1 else 2) = Ok v.
Proof. exact (@implicit_energy_ex_lem). Qed.
