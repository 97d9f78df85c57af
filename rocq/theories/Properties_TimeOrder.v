(** Generated by tools/gen.py from TimeOrderProps.v: property theorems only. *)
From Verif Require Import Prelude NdArr Grids_model Spec Boundaries_model FD_model PRep FDProofs TimeStep_model Func_model FuncProps TimeStepProps.
From Verif Require Import TimeOrderProps.
Local Open Scope nat_scope.
Set Implicit Arguments.

(** C37. backward_forward_euler is first-order accurate on every bounded linear problem (the explicit and implicit parts need not commute): its local error against exp(dt(F+G)) is at most C |dt|^2 |u|. *)
Theorem backward_forward_euler_order : forall X (N : vec X -> R) F G Ginv,
  linear_problem N F G Ginv ->
  first_order N (fun u => vadd (F u) (G u)) (backward_forward_euler F Ginv).
Proof. exact (@backward_forward_euler_order_lem). Qed.
Print Assumptions backward_forward_euler_order.

(** The hypotheses are met by a concrete case. *)
Example backward_forward_euler_order_ex : linear_problem pN pF pG pGi.
Proof. exact (@backward_forward_euler_order_ex_lem). Qed.

(** C37. crank_nicolson_rk2 is second-order accurate on every bounded linear problem (non-commuting parts included): local error at most C |dt|^3 |u|. *)
Theorem crank_nicolson_rk2_order : forall X (N : vec X -> R) F G Ginv,
  linear_problem N F G Ginv ->
  second_order N (fun u => vadd (F u) (G u)) (crank_nicolson_rk2 F G Ginv).
Proof. exact (@crank_nicolson_rk2_order_lem). Qed.
Print Assumptions crank_nicolson_rk2_order.

(** The hypotheses are met by a concrete case. *)
Example crank_nicolson_rk2_order_ex : linear_problem pN pF pG pGi.
Proof. exact (@crank_nicolson_rk2_order_ex_lem). Qed.

(** C37. crank_nicolson_rk3 is second-order accurate on every bounded linear problem, and without implicit terms it is third order: exactly the Taylor polynomial of degree 3. *)
Theorem crank_nicolson_rk3_order : forall X (N : vec X -> R) F G Ginv,
  (linear_problem N F G Ginv -> second_order_scheme N (fun u => vadd (F u) (G u)) (crank_nicolson_rk3 F G Ginv)) /\
  (linear F -> forall dt u, crank_nicolson_rk3 F (fun _ => vzero) (fun y _ => y) dt u = Ok (taylor F dt 3 u)).
Proof. exact (@crank_nicolson_rk3_order_lem). Qed.
Print Assumptions crank_nicolson_rk3_order.

(** The hypotheses are met by a concrete case. *)
Example crank_nicolson_rk3_order_ex : linear_problem pN pF pG pGi /\ linear pF.
Proof. exact (@crank_nicolson_rk3_order_ex_lem). Qed.

(** C38. imex_rk_sil3 is second-order accurate on every bounded linear problem (non-commuting parts included), and without implicit terms it is third order: exactly the Taylor polynomial of degree 3. *)
Theorem imex_sil3_order : forall X (N : vec X -> R) F G Ginv,
  (linear_problem N F G Ginv ->
     exists step, (forall dt u, exists lf lg, imex_rk_sil3 F G Ginv dt u = Ok (step dt u, lf, lg)) /\
       second_order N (fun u => vadd (F u) (G u)) step) /\
  (linear F -> forall dt u, exists lf lg, imex_rk_sil3 F (fun _ => vzero) (fun y _ => y) dt u = Ok (taylor F dt 3 u, lf, lg)).
Proof. exact (@imex_sil3_order_lem). Qed.
Print Assumptions imex_sil3_order.

(** The hypotheses are met by a concrete case. *)
Example imex_sil3_order_ex : linear_problem pN pF pG pGi /\ linear pF.
Proof. exact (@imex_sil3_order_ex_lem). Qed.
