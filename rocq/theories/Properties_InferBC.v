(** Generated by tools/gen.py from InferBCProps.v: property theorems only. *)
From Verif Require Import Prelude NdArr Grids_model Spec Boundaries_model.
From Verif Require Import InferBCProps.
Local Open Scope Z_scope.
Set Implicit Arguments.

(** C12. Pressure boundary conditions from a velocity (any number of components, any number of axes): if on every axis all components are periodic or none is, the result is homogeneous, periodic on the former axes and Neumann on the latter. *)
Theorem pressure_bc_consistent : forall u0 v,
  (forall a, (a < gndim (ggrid (garray u0)))%nat ->
     (forall u, In u (u0 :: v) -> lower_periodic (gbc u) a) \/ (forall u, In u (u0 :: v) -> ~ lower_periodic (gbc u) a)) ->
  exists r, pressure_bc_from_velocity (u0 :: v) = Ok r /\ bhom r = true /\
    length (btypes r) = gndim (ggrid (garray u0)) /\
    forall a, (a < gndim (ggrid (garray u0)))%nat ->
      nth_error (bvals r) a = Some (Some 0%R, Some 0%R) /\
      (lower_periodic (gbc u0) a -> nth_error (btypes r) a = Some (Periodic, Periodic)) /\
      (~ lower_periodic (gbc u0) a -> nth_error (btypes r) a = Some (Neumann, Neumann)).
Proof. exact (@pressure_bc_consistent_lem). Qed.
Print Assumptions pressure_bc_consistent.

(** The hypotheses are met by a concrete case. *)
Example pressure_bc_consistent_ex :
  exists r, pressure_bc_from_velocity [ibv (channel_flow_bc 2 None); ibv (channel_flow_bc 2 (Some [(None, None); (Some 1%R, Some 2%R)]))] = Ok r /\
   btypes r = [(Periodic, Periodic); (Neumann, Neumann)] /\ bvals r = [(Some 0%R, Some 0%R); (Some 0%R, Some 0%R)].
Proof. exact (@pressure_bc_consistent_ex_lem). Qed.

(** C12. If on some axis one component is periodic and another is not, the inference raises the inconsistency error (and does not return a boundary condition). *)
Theorem pressure_bc_mixed_raises : forall u0 v a u1 u2,
  (a < gndim (ggrid (garray u0)))%nat -> In u1 (u0 :: v) -> In u2 (u0 :: v) ->
  lower_periodic (gbc u1) a -> ~ lower_periodic (gbc u2) a ->
  pressure_bc_from_velocity (u0 :: v) = Err EBC.
Proof. exact (@pressure_bc_mixed_raises_lem). Qed.
Print Assumptions pressure_bc_mixed_raises.

(** The hypotheses are met by a concrete case. *)
Example pressure_bc_mixed_raises_ex :
  pressure_bc_from_velocity [ibv (channel_flow_bc 2 None); ibv (periodic_bc 2)] = Err EBC.
Proof. exact (@pressure_bc_mixed_raises_ex_lem). Qed.

(** C13. Whenever a flux boundary condition is returned, the velocity's conditions are homogeneous and on every axis: periodic where the velocity is; zero Dirichlet on the other axes across the flux; and along the flux each side is zero Dirichlet at a no-penetration wall or zero Neumann between zero-gradient velocity and scalar, never anything else. *)
Theorem flux_bc_sound : forall u c dir r,
  advection_flux_bc u c dir = Ok r ->
  bhom (gbc u) = true /\ length (btypes r) = gndim (ggrid (garray c)) /\
  forall a, (a < gndim (ggrid (garray c)))%nat ->
    (lower_periodic (gbc u) a -> nth_error (btypes r) a = Some (Periodic, Periodic)) /\
    (~ lower_periodic (gbc u) a -> a <> dir ->
       nth_error (btypes r) a = Some (Dirichlet, Dirichlet) /\ nth_error (bvals r) a = Some (Some 0%R, Some 0%R)) /\
    (~ lower_periodic (gbc u) a -> a = dir ->
       exists t1 t2, nth_error (btypes r) a = Some (t1, t2) /\ nth_error (bvals r) a = Some (Some 0%R, Some 0%R) /\
         flux_condition (gbc u) (gbc c) a false t1 /\ flux_condition (gbc u) (gbc c) a true t2).
Proof. exact (@flux_bc_sound_lem). Qed.
Print Assumptions flux_bc_sound.

(** C13. Conversely a flux boundary condition is returned whenever the velocity's conditions are homogeneous and, if the flux axis is not periodic, both its sides are of one of the two supported kinds. *)
Theorem flux_bc_complete : forall u c dir,
  bhom (gbc u) = true ->
  ((dir < gndim (ggrid (garray c)))%nat -> ~ lower_periodic (gbc u) dir ->
     (exists t, flux_condition (gbc u) (gbc c) dir false t) /\ (exists t, flux_condition (gbc u) (gbc c) dir true t)) ->
  exists r, advection_flux_bc u c dir = Ok r.
Proof. exact (@flux_bc_complete_lem). Qed.
Print Assumptions flux_bc_complete.

(** The hypotheses are met by a concrete case. *)
Example flux_bc_complete_ex :
  exists r, advection_flux_bc (ibv (neumann_bc 2 None)) (ibv (neumann_bc 2 (Some [(Some 0%R, Some 0%R); (Some 1%R, Some (1 / 1000000000)%R)]))) 0 = Ok r.
Proof. exact (@flux_bc_complete_ex_lem). Qed.

(** The hypotheses are met by a concrete case. *)
Example flux_bc_sound_ex :
  exists r, advection_flux_bc (ibv (channel_flow_bc 2 None)) (ibv (dirichlet_bc 2 (Some [(Some 1%R, Some 2%R); (Some 3%R, Some 4%R)]))) 1 = Ok r /\
    btypes r = [(Periodic, Periodic); (Dirichlet, Dirichlet)] /\ nth_error (bvals r) 1 = Some (Some 0%R, Some 0%R).
Proof. exact (@flux_bc_sound_ex_lem). Qed.

(** C13. An unsupported side along the flux (for instance a moving or porous Dirichlet wall, or a Neumann velocity with a Dirichlet scalar) raises, as does a velocity whose conditions are not of the homogeneous class. *)
Theorem flux_bc_unsupported_raises : forall u c dir,
  bhom (gbc u) = false \/
  ((dir < gndim (ggrid (garray c)))%nat /\ ~ lower_periodic (gbc u) dir /\ exists i, forall t, ~ flux_condition (gbc u) (gbc c) dir i t) ->
  exists e, advection_flux_bc u c dir = Err e.
Proof. exact (@flux_bc_unsupported_raises_lem). Qed.
Print Assumptions flux_bc_unsupported_raises.

(** The hypotheses are met by a concrete case. *)
Example flux_bc_unsupported_raises_ex :
  exists e, advection_flux_bc (ibv (neumann_bc 2 None)) (ibv (dirichlet_bc 2 None)) 1 = Err e.
Proof. exact (@flux_bc_unsupported_raises_ex_lem). Qed.
