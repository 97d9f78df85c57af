(** * C65: the schemes of the runs have the orders of accuracy of the named integrators *)
From Verif Require Import Prelude NdArr Spec TimeStep_model SpectralStep_model SpecKS TimeStepProps TimeOrderProps.
Set Implicit Arguments.
Local Open Scope R_scope.

(* @prop C65 The step functions used in the runs have their order of accuracy on every bounded linear problem (the explicit and implicit parts need not commute): crank_nicolson_rk2, crank_nicolson_rk3 and imex_rk_sil3 commit local errors of at most C |dt|^3 |u| and never fail, backward_forward_euler of at most C |dt|^2 |u|. *)
Lemma spectral_schemes_order_lem : forall X (N : vec X -> R) F G Ginv, linear_problem N F G Ginv ->
  (forall k, In k [CrankNicolsonRK2; rk3_scheme; Imex sil3_tableau] -> second_order_scheme N (fun u => vadd (F u) (G u)) (spectral_step k F G Ginv)) /\
  exists step, (forall dt u, spectral_step BackwardForwardEuler F G Ginv dt u = Ok (step dt u)) /\ first_order N (fun u => vadd (F u) (G u)) step.
Proof.
  intros X N F G Ginv H. split.
  - intros k [<- | [<- | [<- | []]]].
    + exists (crank_nicolson_rk2 F G Ginv). split; [reflexivity | apply crank_nicolson_rk2_order_lem; exact H].
    + exact (proj1 (@crank_nicolson_rk3_order_lem X N F G Ginv) H).
    + destruct (proj1 (@imex_sil3_order_lem X N F G Ginv) H) as (step & Hs & Ho). exists step. split; [|exact Ho]. intros dt u. destruct (Hs dt u) as (lf & lg & E).
      unfold spectral_step. assert (E' : imex_runge_kutta sil3_tableau F G Ginv dt u = Ok (step dt u, lf, lg)) by exact E. rewrite E'. reflexivity.
  - exists (backward_forward_euler F Ginv). split; [reflexivity | apply backward_forward_euler_order_lem; exact H].
Qed.
(* @ex *)
Lemma spectral_schemes_order_ex_lem : linear_problem pN pF pG pGi.
Proof. apply example_problem. Qed.
