(** Generated by tools/gen.py from AccuracyProps.v: property theorems only. *)
From Verif Require Import Prelude NdArr Grids_model Spec Boundaries_model BoundariesPeriodic FD_model Interp_model Advection_model Diffusion_model Equations_model PRep FDProofs FDProps InterpProps AdvectionProofs AdvectionProps ConvectProps EquationsProps SpecNS SpecAcc AccBase.
From Verif Require Import AccuracyProps.
Local Open Scope R_scope.
Set Implicit Arguments.

(** C80. Difference quotients. On every grid in any dimension, for a periodic variable (at any offset) holding the values of a smooth function f, periodic in the box, whose partial derivatives up to third order are bounded by M: forward_difference and backward_difference along an axis are within M h^2 / 24, and central_difference within M h^2 / 6, of the partial derivative of f at the points where their result's offset says its values lie. *)
Theorem difference_quotients_second_order : forall (u : gvar) (a : nat) (f f1 : list R -> R) (M : R),
  periodic_field u -> (a < gndim (ggrid (garray u)))%nat -> box_periodic (ggrid (garray u)) f -> samples (garray u) f ->
  bounded_derivatives (gndim (ggrid (garray u))) 3 M f -> partial_derivative (gndim (ggrid (garray u))) a f f1 ->
  (exists w, forward_difference u a = Ok w /\ within (M / 24 * hstep (ggrid (garray u)) a ^ 2) w (ggrid (garray u)) (offs a (1 # 2) (goff (garray u))) f1) /\
  (exists w, backward_difference u a = Ok w /\ within (M / 24 * hstep (ggrid (garray u)) a ^ 2) w (ggrid (garray u)) (offs a (- 1 # 2) (goff (garray u))) f1) /\
  (exists w, central_difference u a = Ok w /\ within (M / 6 * hstep (ggrid (garray u)) a ^ 2) w (ggrid (garray u)) (goff (garray u)) f1).
Proof. exact (@difference_quotients_second_order_lem). Qed.
Print Assumptions difference_quotients_second_order.

(** C80. Laplacian. Under the same conditions with derivatives up to fourth order bounded by M, laplacian is within M (h_1^2 + ... + h_d^2) / 12 of the sum of the second partial derivatives of f at the points of the variable. *)
Theorem laplacian_second_order : forall (u : gvar) (f : list R -> R) (f1 f2 : nat -> list R -> R) (M : R),
  periodic_field u -> box_periodic (ggrid (garray u)) f -> samples (garray u) f -> bounded_derivatives (gndim (ggrid (garray u))) 4 M f ->
  (forall a, (a < gndim (ggrid (garray u)))%nat -> partial_derivative (gndim (ggrid (garray u))) a f (f1 a) /\ partial_derivative (gndim (ggrid (garray u))) a (f1 a) (f2 a)) ->
  exists w, laplacian u = Ok w /\ within (M / 12 * h2 (ggrid (garray u))) w (ggrid (garray u)) (goff (garray u)) (fun x => nsum (gndim (ggrid (garray u))) (fun a => f2 a x)).
Proof. exact (@laplacian_second_order_lem). Qed.
Print Assumptions laplacian_second_order.

(** C80. Linear interpolation. On every grid in any dimension, for a periodic variable holding the values of a smooth function f, periodic in the box, with derivatives up to second order bounded by M, linear interpolation to any other offset (however far) is within M (h_1^2 + ... + h_d^2) / 8 of f at the new points, and keeps the boundary conditions. *)
Theorem linear_interpolation_second_order : forall (c : gvar) (o' : list Q) (f : list R -> R) (M : R),
  periodic_field c -> length o' = gndim (ggrid (garray c)) -> box_periodic (ggrid (garray c)) f -> samples (garray c) f ->
  bounded_derivatives (gndim (ggrid (garray c))) 2 M f ->
  exists w, linear_interp c o' = Ok w /\ gbc w = gbc c /\ within (M / 8 * h2 (ggrid (garray c))) (garray w) (ggrid (garray c)) o' f.
Proof. exact (@linear_interpolation_second_order_lem). Qed.
Print Assumptions linear_interpolation_second_order.

(** C80. Advection. On every grid in any dimension: for a periodic scalar c and a periodic velocity v (each component at any offset, e.g. staggered or collocated, with homogeneous boundary conditions) that hold the values of smooth box-periodic functions whose derivatives up to third order are bounded by Mc and Mv, advect_linear is within Mv Mc (1/3 + d/2) (h_1^2 + ... + h_d^2) of minus the divergence of the flux v c at the points of c. *)
Theorem advection_second_order : forall (c : gvar) (v : list gvar) (dt : R) (fc : list R -> R) (fv c1 v1 : nat -> list R -> R) (Mc Mv : R),
  periodic_field c -> (0 < gndim (ggrid (garray c)))%nat -> periodic_vec (ggrid (garray c)) v -> homogeneous_vec v ->
  box_periodic (ggrid (garray c)) fc -> samples (garray c) fc -> bounded_derivatives (gndim (ggrid (garray c))) 3 Mc fc ->
  smooth_velocity (ggrid (garray c)) 3 Mv v fv ->
  (forall a, (a < gndim (ggrid (garray c)))%nat -> partial_derivative (gndim (ggrid (garray c))) a fc (c1 a) /\ partial_derivative (gndim (ggrid (garray c))) a (fv a) (v1 a)) ->
  exists w, advect_linear c v dt = Ok w /\
    within (Mv * Mc * (1 / 3 + INR (gndim (ggrid (garray c))) / 2) * h2 (ggrid (garray c))) w (ggrid (garray c)) (goff (garray c))
      (fun x => - nsum (gndim (ggrid (garray c))) (fun a => v1 a x * fc x + fv a x * c1 a x)).
Proof. exact (@advection_second_order_lem). Qed.
Print Assumptions advection_second_order.

(** C80. Divergence. On every grid in any dimension, for a staggered periodic velocity (component i half a cell above the points o along axis i) holding the values of smooth box-periodic functions with derivatives up to third order bounded by M, divergence is within M (h_1^2 + ... + h_d^2) / 24 of the divergence of the flow at the points o. *)
Theorem divergence_second_order : forall (g : grid) (o : list Q) (v : list gvar) (fv v1 : nat -> list R -> R) (M : R),
  (0 < gndim g)%nat -> periodic_vec g v -> length o = gndim g -> face_aligned o v -> smooth_velocity g 3 M v fv ->
  (forall a, (a < gndim g)%nat -> partial_derivative (gndim g) a (fv a) (v1 a)) ->
  exists w, divergence v = Ok w /\ within (M / 24 * h2 g) w g o (fun x => nsum (gndim g) (fun a => v1 a x)).
Proof. exact (@divergence_second_order_lem). Qed.
Print Assumptions divergence_second_order.

(** C80. Convection. On every grid in any dimension, for a staggered periodic velocity with homogeneous boundary conditions that holds the values of smooth box-periodic functions with derivatives up to third order bounded by M, convect_linear returns one array per component, within M^2 (1/3 + d/2) (h_1^2 + ... + h_d^2) of minus the divergence of the momentum flux v v_i at the points of component i. *)
Theorem convection_second_order : forall (g : grid) (o : list Q) (v : list gvar) (fv : nat -> list R -> R) (dv : nat -> nat -> list R -> R) (M : R),
  (0 < gndim g)%nat -> periodic_vec g v -> homogeneous_vec v -> length o = gndim g -> face_aligned o v -> smooth_velocity g 3 M v fv ->
  (forall i a, (i < gndim g)%nat -> (a < gndim g)%nat -> partial_derivative (gndim g) a (fv i) (dv i a)) ->
  exists l, convect_linear v = Ok l /\ length l = length v /\
    forall i u w, nth_error v i = Some u -> nth_error l i = Some w ->
      within (M * M * (1 / 3 + INR (gndim g) / 2) * h2 g) w g (goff (garray u))
        (fun x => - nsum (gndim g) (fun a => dv a a x * fv i x + fv a x * dv i a x)).
Proof. exact (@convection_second_order_lem). Qed.
Print Assumptions convection_second_order.

(** C80. Navier-Stokes right-hand side. On every grid in any dimension, for a staggered periodic velocity with homogeneous boundary conditions that holds the values of smooth box-periodic functions with derivatives up to fourth order bounded by M, the explicit terms of the incompressible Navier-Stokes equations (linear convection, viscosity nu, density rho, any forcing that returns the values of a function at the velocity points) are a velocity with the same boundary conditions, within (M^2 (1/3 + d/2) + |nu / rho| M / 12) (h_1^2 + ... + h_d^2) of - div(v v_i) + (nu / rho) laplacian(v_i) + f_i / rho at the points of every component i. *)
Theorem navier_stokes_terms_second_order : forall (g : grid) (o : list Q) (bs : list bcs) (density nu : R) (forcing : list gvar -> result (list garr)) (v : list gvar) (lf : list garr) (fv ff : nat -> list R -> R) (dv ddv : nat -> nat -> list R -> R) (M : R),
  (0 < gndim g)%nat -> periodic_velocity g o bs v -> length o = gndim g -> density <> 0 -> smooth_velocity g 4 M v fv ->
  (forall i a, (i < gndim g)%nat -> (a < gndim g)%nat -> partial_derivative (gndim g) a (fv i) (dv i a) /\ partial_derivative (gndim g) a (dv i a) (ddv i a)) ->
  forcing v = Ok lf -> length lf = length v -> (forall i u w, nth_error v i = Some u -> nth_error lf i = Some w -> within 0 w g (goff (garray u)) (ff i)) ->
  exists l, navier_stokes_explicit_terms density (Some nu) convect_linear diffuse (Some forcing) v = Ok l /\ map gbc l = map gbc v /\
    forall i u w, nth_error v i = Some u -> nth_error l i = Some w ->
      within ((M * M * (1 / 3 + INR (gndim g) / 2) + Rabs (nu / density) * (M / 12)) * h2 g) (garray w) g (goff (garray u))
        (fun x => - nsum (gndim g) (fun a => dv a a x * fv i x + fv a x * dv i a x) + nu / density * nsum (gndim g) (fun a => ddv i a x) + ff i x / density).
Proof. exact (@navier_stokes_terms_second_order_lem). Qed.
Print Assumptions navier_stokes_terms_second_order.

(** C80. Upwind advection. Under the conditions of the advection claim, advect_upwind is first-order accurate: within Mv Mc ((1/3 + d/2) (h_1^2 + ... + h_d^2) + |h_1| + ... + |h_d|) of minus the divergence of the flux v c at the points of c, wherever the velocity changes sign. *)
Theorem upwind_first_order : forall (c : gvar) (v : list gvar) (dt : R) (fc : list R -> R) (fv c1 v1 : nat -> list R -> R) (Mc Mv : R),
  periodic_field c -> (0 < gndim (ggrid (garray c)))%nat -> periodic_vec (ggrid (garray c)) v -> homogeneous_vec v ->
  box_periodic (ggrid (garray c)) fc -> samples (garray c) fc -> bounded_derivatives (gndim (ggrid (garray c))) 3 Mc fc ->
  smooth_velocity (ggrid (garray c)) 3 Mv v fv ->
  (forall a, (a < gndim (ggrid (garray c)))%nat -> partial_derivative (gndim (ggrid (garray c))) a fc (c1 a) /\ partial_derivative (gndim (ggrid (garray c))) a (fv a) (v1 a)) ->
  exists w, advect_upwind c v dt = Ok w /\
    within (Mv * Mc * ((1 / 3 + INR (gndim (ggrid (garray c))) / 2) * h2 (ggrid (garray c)) + nsum (gndim (ggrid (garray c))) (fun a => Rabs (hstep (ggrid (garray c)) a)))) w (ggrid (garray c)) (goff (garray c))
      (fun x => - nsum (gndim (ggrid (garray c))) (fun a => v1 a x * fc x + fv a x * c1 a x)).
Proof. exact (@upwind_first_order_lem). Qed.
Print Assumptions upwind_first_order.

(** The hypotheses are met by a concrete case. *)
Example difference_quotients_second_order_ex : periodic_field tgc /\ (0 < gndim (ggrid (garray tgc)))%nat /\ box_periodic (ggrid (garray tgc)) (wave 0 0) /\ samples (garray tgc) (wave 0 0) /\
  bounded_derivatives 2 3 1 (wave 0 0) /\ partial_derivative 2 0 (wave 0 0) (wave (0 + PI / 2) 0).
Proof. exact (@difference_quotients_second_order_ex_lem). Qed.

(** The hypotheses are met by a concrete case. *)
Example laplacian_second_order_ex : periodic_field tgc /\ box_periodic (ggrid (garray tgc)) (wave 0 0) /\ samples (garray tgc) (wave 0 0) /\ bounded_derivatives 2 4 1 (wave 0 0) /\
  (forall a, (a < 2)%nat -> partial_derivative 2 a (wave 0 0) (dwave a 0 0) /\ exists f2, partial_derivative 2 a (dwave a 0 0) f2).
Proof. exact (@laplacian_second_order_ex_lem). Qed.

(** The hypotheses are met by a concrete case. *)
Example linear_interpolation_second_order_ex : periodic_field tgc /\ length [1; 7 # 3]%Q = gndim (ggrid (garray tgc)) /\ box_periodic (ggrid (garray tgc)) (wave 0 0) /\ samples (garray tgc) (wave 0 0) /\ bounded_derivatives 2 2 1 (wave 0 0).
Proof. exact (@linear_interpolation_second_order_ex_lem). Qed.

(** The hypotheses are met by a concrete case. *)
Example advection_second_order_ex : periodic_field tgc /\ (0 < gndim tgg)%nat /\ periodic_vec tgg tgv /\ homogeneous_vec tgv /\ box_periodic tgg (wave 0 0) /\ samples (garray tgc) (wave 0 0) /\ bounded_derivatives 2 3 1 (wave 0 0) /\ smooth_velocity tgg 3 1 tgv tgf /\
  (forall a, (a < 2)%nat -> partial_derivative 2 a (wave 0 0) (dwave a 0 0) /\ partial_derivative 2 a (tgf a) (dwave a (fst (tgphase a)) (snd (tgphase a)))).
Proof. exact (@advection_second_order_ex_lem). Qed.

(** The hypotheses are met by a concrete case. *)
Example upwind_first_order_ex : periodic_field tgc /\ (0 < gndim tgg)%nat /\ periodic_vec tgg tgv /\ homogeneous_vec tgv /\ box_periodic tgg (wave 0 0) /\ samples (garray tgc) (wave 0 0) /\ bounded_derivatives 2 3 1 (wave 0 0) /\ smooth_velocity tgg 3 1 tgv tgf /\
  (forall a, (a < 2)%nat -> partial_derivative 2 a (wave 0 0) (dwave a 0 0) /\ partial_derivative 2 a (tgf a) (dwave a (fst (tgphase a)) (snd (tgphase a)))).
Proof. exact (@upwind_first_order_ex_lem). Qed.

(** The hypotheses are met by a concrete case. *)
Example divergence_second_order_ex : (0 < gndim tgg)%nat /\ periodic_vec tgg tgv /\ length [1 # 2; 1 # 2]%Q = gndim tgg /\ face_aligned [1 # 2; 1 # 2]%Q tgv /\ smooth_velocity tgg 3 1 tgv tgf /\
  (forall a, (a < 2)%nat -> partial_derivative 2 a (tgf a) (dwave a (fst (tgphase a)) (snd (tgphase a)))).
Proof. exact (@divergence_second_order_ex_lem). Qed.

(** The hypotheses are met by a concrete case. *)
Example convection_second_order_ex : (0 < gndim tgg)%nat /\ periodic_vec tgg tgv /\ homogeneous_vec tgv /\ length [1 # 2; 1 # 2]%Q = gndim tgg /\ face_aligned [1 # 2; 1 # 2]%Q tgv /\ smooth_velocity tgg 3 1 tgv tgf /\
  (forall i a, (i < 2)%nat -> (a < 2)%nat -> partial_derivative 2 a (tgf i) (dwave a (fst (tgphase i)) (snd (tgphase i)))).
Proof. exact (@convection_second_order_ex_lem). Qed.

(** The hypotheses are met by a concrete case. *)
Example navier_stokes_terms_second_order_ex : (0 < gndim tgg)%nat /\ periodic_velocity tgg [1 # 2; 1 # 2]%Q (map gbc tgv) tgv /\ smooth_velocity tgg 4 1 tgv tgf /\
  (forall i a, (i < 2)%nat -> (a < 2)%nat -> partial_derivative 2 a (tgf i) (dwave a (fst (tgphase i)) (snd (tgphase i))) /\ exists f2, partial_derivative 2 a (dwave a (fst (tgphase i)) (snd (tgphase i))) f2) /\
  exists lf, Ok (map garray tgv) = Ok lf /\ length lf = length tgv /\ forall i u w, nth_error tgv i = Some u -> nth_error lf i = Some w -> within 0 w tgg (goff (garray u)) (tgf i).
Proof. exact (@navier_stokes_terms_second_order_ex_lem). Qed.
