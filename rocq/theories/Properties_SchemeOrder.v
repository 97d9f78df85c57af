(** Generated by tools/gen.py from SchemeOrderProps.v: property theorems only. *)
From Verif Require Import Prelude NdArr Spec TimeStep_model SpectralStep_model SpecKS TimeStepProps TimeOrderProps.
From Verif Require Import SchemeOrderProps.
Local Open Scope R_scope.
Set Implicit Arguments.

(** C65. The step functions used in the runs have their order of accuracy on every bounded linear problem (the explicit and implicit parts need not commute): crank_nicolson_rk2, crank_nicolson_rk3 and imex_rk_sil3 commit local errors of at most C |dt|^3 |u| and never fail, backward_forward_euler of at most C |dt|^2 |u|. *)
Theorem spectral_schemes_order : forall X (N : vec X -> R) F G Ginv, linear_problem N F G Ginv ->
  (forall k, In k [CrankNicolsonRK2; rk3_scheme; Imex sil3_tableau] -> second_order_scheme N (fun u => vadd (F u) (G u)) (spectral_step k F G Ginv)) /\
  exists step, (forall dt u, spectral_step BackwardForwardEuler F G Ginv dt u = Ok (step dt u)) /\ first_order N (fun u => vadd (F u) (G u)) step.
Proof. exact (@spectral_schemes_order_lem). Qed.
Print Assumptions spectral_schemes_order.

(** The hypotheses are met by a concrete case. *)
Example spectral_schemes_order_ex : linear_problem pN pF pG pGi.
Proof. exact (@spectral_schemes_order_ex_lem). Qed.
