(** Generated by tools/gen.py from ConvectProps.v: property theorems only. *)
From Coq Require Import Qreals.
From Verif Require Import Prelude NdArr Grids_model Spec Boundaries_model BoundariesPeriodic FD_model PRep FDProofs FDProps WallBC WallBCProps ImposeProps Pressure_model PressureProps Interp_model InterpProofs InterpProps UpwindProps TvdProps Advection_model AdvectionProofs AdvectionProps.
From Verif Require Import ConvectProps.
Local Open Scope Z_scope.
Set Implicit Arguments.

(** C29. Convection of a staggered periodic velocity returns one tendency per component: for component i, minus the net outflow over the faces of its control volumes of (mean of v_i across the face) times (mean of v_j along axis i), and each component's tendency sums to zero over the grid. *)
Theorem convect_linear_spec : forall g o v, (0 < gndim g)%nat -> periodic_vec g v -> homogeneous_vec v -> length o = gndim g -> face_aligned o v ->
  exists l, convect_linear v = Ok l /\ length l = gndim g /\
    forall i w, nth_error l i = Some w ->
      is_field w g (offs i (1 # 2) o) (fun ix => - outflow g (fun j jx =>
        (vval v i jx + vval v i (next j jx)) / 2 * ((vval v j jx + vval v j (next i jx)) / 2)) ix)%R /\
      total (gdata w) = 0%R.
Proof. exact (@convect_linear_spec_lem). Qed.
Print Assumptions convect_linear_spec.

(** The hypotheses are met by a concrete case. *)
Example convect_linear_spec_ex : (0 < gndim ipg)%nat /\ periodic_vec ipg ipv /\ homogeneous_vec ipv /\ length (goff (garray ipc)) = gndim ipg /\ face_aligned (goff (garray ipc)) ipv.
Proof. exact (@convect_linear_spec_ex_lem). Qed.

(** C29. Convection of a staggered periodic velocity is linear advection applied to each component: same grid, offset and values. *)
Theorem convect_is_advection : forall g o v dt, (0 < gndim g)%nat -> periodic_vec g v -> homogeneous_vec v -> length o = gndim g -> face_aligned o v ->
  exists l, convect_linear v = Ok l /\ length l = length v /\
    forall i u w, nth_error v i = Some u -> nth_error l i = Some w ->
      exists w', advect_linear u v dt = Ok w' /\ same_field w w'.
Proof. exact (@convect_is_advection_lem). Qed.
Print Assumptions convect_is_advection.

(** The hypotheses are met by a concrete case. *)
Example convect_is_advection_ex : (0 < gndim ipg)%nat /\ periodic_vec ipg ipv /\ homogeneous_vec ipv /\ length (goff (garray ipc)) = gndim ipg /\ face_aligned (goff (garray ipc)) ipv.
Proof. exact (@convect_is_advection_ex_lem). Qed.

(** C55. The rate of change of half the sum of squares of a scalar under linear advection by a staggered periodic velocity is minus half the sum of (scalar squared) times (discrete divergence of the velocity): centred advection conserves the quadratic invariant exactly when the velocity is discretely divergence free. *)
Theorem linear_advection_energy : forall c v dt w d, periodic_field c -> (0 < gndim (ggrid (garray c)))%nat ->
  periodic_vec (ggrid (garray c)) v -> homogeneous_vec v -> face_aligned (goff (garray c)) v ->
  advect_linear c v dt = Ok w -> divergence v = Ok d ->
  let s := gshape (ggrid (garray c)) in
  asum s (fun ix => get (gdata (garray c)) ix * get (gdata w) ix)%R =
  (- (asum s (fun ix => get (gdata (garray c)) ix * get (gdata (garray c)) ix * get (gdata d) ix) / 2))%R.
Proof. exact (@linear_advection_energy_lem). Qed.
Print Assumptions linear_advection_energy.

(** The hypotheses are met by a concrete case. *)
Example linear_advection_energy_ex :
  periodic_field ipc /\ periodic_vec (ggrid (garray ipc)) ipv /\ homogeneous_vec ipv /\ face_aligned (goff (garray ipc)) ipv /\
  (exists w, advect_linear ipc ipv 1 = Ok w) /\ exists d, divergence ipv = Ok d /\ forall ix, inb (gshape ipg) ix -> get (gdata d) ix = 0%R.
Proof. exact (@linear_advection_energy_ex_lem). Qed.

(** C55. Convection of a staggered periodic velocity whose discrete divergence (as computed by divergence) is zero everywhere does no work: for every component the sum of velocity times tendency over the grid is zero, so the discrete kinetic energy is conserved. *)
Theorem convection_conserves_energy : forall g o v l d, (0 < gndim g)%nat -> periodic_vec g v -> homogeneous_vec v -> length o = gndim g -> face_aligned o v ->
  convect_linear v = Ok l -> divergence v = Ok d -> (forall ix, inb (gshape g) ix -> get (gdata d) ix = 0%R) ->
  forall i u w, nth_error v i = Some u -> nth_error l i = Some w ->
    asum (gshape g) (fun ix => get (gdata (garray u)) ix * get (gdata w) ix)%R = 0%R.
Proof. exact (@convection_conserves_energy_lem). Qed.
Print Assumptions convection_conserves_energy.

(** The hypotheses are met by a concrete case. *)
Example convection_conserves_energy_ex : (0 < gndim ipg)%nat /\ periodic_vec ipg ipv /\ homogeneous_vec ipv /\ length (goff (garray ipc)) = gndim ipg /\ face_aligned (goff (garray ipc)) ipv /\
  (exists l, convect_linear ipv = Ok l /\ length l = 2%nat) /\ exists d, divergence ipv = Ok d /\ forall ix, inb (gshape ipg) ix -> get (gdata d) ix = 0%R.
Proof. exact (@convection_conserves_energy_ex_lem). Qed.
