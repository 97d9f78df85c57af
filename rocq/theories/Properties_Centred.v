(** Generated by tools/gen.py from CentredProps.v: property theorems only. *)
From Verif Require Import Prelude NdArr Grids_model Spec Boundaries_model BoundariesPeriodic FD_model Interp_model Advection_model PRep FDProofs FDProps InterpProps AdvectionProofs AdvectionProps ConvectProps MonotoneProps Pressure_model TimeStep_model TimeStepProps SpecAcc AccuracyProps SpecConv ConvergeProps SpecSkew SkewProps.
From Verif Require Import CentredProps.
Local Open Scope R_scope.
Set Implicit Arguments.

(** C87. Centred (linear) advection of a scalar in a staggered, discretely divergence-free periodic flow, integrated with classic_rk4 and the time step of stable_time_step with a Courant number of at most sqrt(8) over the number of dimensions, never increases the sum of squares of the scalar, over any number of steps. *)
Theorem centred_advection_rk4_stable : forall c v adt dt vm cm d (run : nat -> vec (list Z)), let g := ggrid (garray c) in
  periodic_field c -> (0 < gndim g)%nat -> periodic_vec g v -> homogeneous_vec v -> face_aligned (goff (garray c)) v ->
  (forall a, (a < gndim g)%nat -> 0 < hstep g a) -> 0 < vm -> 0 <= cm -> INR (gndim g) * cm <= sqrt 8 -> advection_stable_time_step vm cm g = Ok dt ->
  (forall u ix, In u v -> inb (gshape g) ix -> Rabs (get (gdata (garray u)) ix) <= vm) ->
  divergence v = Ok d -> (forall ix, inb (gshape g) ix -> get (gdata d) ix = 0) ->
  (forall n, classic_rk4 (tendency c (fun c => advect_linear c v adt)) (fun u => u) dt (run n) = Ok (run (S n))) ->
  forall n m, (n <= m)%nat -> cell_product g (run m) (run m) <= cell_product g (run n) (run n).
Proof. exact (@centred_advection_rk4_stable_lem). Qed.
Print Assumptions centred_advection_rk4_stable.

(** C87. With forward_euler the same centred advection is unstable for every time step: each step increases the sum of squares of the scalar by exactly dt^2 times the sum of squares of the tendency; midpoint_rk2 and heun_rk2 never decrease it either. *)
Theorem centred_advection_euler_grows : forall c v adt dt d u, let g := ggrid (garray c) in let F := tendency c (fun c => advect_linear c v adt) in
  periodic_field c -> (0 < gndim g)%nat -> periodic_vec g v -> homogeneous_vec v -> face_aligned (goff (garray c)) v ->
  divergence v = Ok d -> (forall ix, inb (gshape g) ix -> get (gdata d) ix = 0) ->
  (exists u', forward_euler F (fun u => u) dt u = Ok u' /\ cell_product g u' u' = cell_product g u u + dt ^ 2 * cell_product g (F u) (F u)) /\
  (exists u', midpoint_rk2 F (fun u => u) dt u = Ok u' /\ heun_rk2 F (fun u => u) dt u = Ok u' /\ cell_product g u u <= cell_product g u' u').
Proof. exact (@centred_advection_euler_grows_lem). Qed.
Print Assumptions centred_advection_euler_grows.

(** The hypotheses are met by a concrete case. *)
Example centred_advection_rk4_stable_ex : periodic_field tgc /\ (0 < gndim (ggrid (garray tgc)))%nat /\ periodic_vec (ggrid (garray tgc)) driftv /\ homogeneous_vec driftv /\ face_aligned (goff (garray tgc)) driftv /\
  (forall a, (a < gndim (ggrid (garray tgc)))%nat -> 0 < hstep (ggrid (garray tgc)) a) /\ 0 < 1 /\ INR (gndim (ggrid (garray tgc))) * 1 <= sqrt 8 /\ advection_stable_time_step 1 1 (ggrid (garray tgc)) = Ok (PI / 4) /\
  (forall u ix, In u driftv -> inb (gshape (ggrid (garray tgc))) ix -> Rabs (get (gdata (garray u)) ix) <= 1) /\
  (exists d, divergence driftv = Ok d /\ forall ix, inb (gshape (ggrid (garray tgc))) ix -> get (gdata d) ix = 0) /\
  forall n, classic_rk4 (tendency tgc (fun c => advect_linear c driftv 1)) (fun u => u) (PI / 4) (carried n) = Ok (carried (S n)).
Proof. exact (@centred_advection_rk4_stable_ex_lem). Qed.

(** The hypotheses are met by a concrete case. *)
Example centred_advection_euler_grows_ex : periodic_field tgc /\ (0 < gndim (ggrid (garray tgc)))%nat /\ periodic_vec (ggrid (garray tgc)) driftv /\ homogeneous_vec driftv /\ face_aligned (goff (garray tgc)) driftv /\
  exists d, divergence driftv = Ok d /\ forall ix, inb (gshape (ggrid (garray tgc))) ix -> get (gdata d) ix = 0.
Proof. exact (@centred_advection_euler_grows_ex_lem). Qed.
