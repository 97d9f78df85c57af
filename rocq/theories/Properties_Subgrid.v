(** Generated by tools/gen.py from SubgridProps.v: property theorems only. *)
From Verif Require Import Prelude NdArr Grids_model Spec Boundaries_model FD_model PRep FDProofs FDProps Interp_model InterpProofs InterpProps Advection_model Diffusion_model PressureProps PressureSolveProps TimeStep_model Equations_model SpecNS EquationsProps EquationsMoreProps Forcings_model Subgrid_model SpecSub.
From Verif Require Import SubgridProps.
Local Open Scope Z_scope.
Set Implicit Arguments.

(** C48. evm_model, for every viscosity function that returns one array per entry of the strain-rate tensor at the same places, succeeds on every staggered periodic velocity and returns, at the velocity's own points, the divergence of 2 * viscosity * strain rate, where the strain rate handed to the function is (d_j v_i + d_i v_j)/2; a velocity that is not periodic on some axis is rejected. *)
Theorem evm_model_spec : forall g o v N viscosity_fn, (0 < gndim g)%nat -> length o = gndim g -> periodic_vec g v -> face_aligned o v ->
  (forall s, tensor_at g o s (strain g v) -> exists m, viscosity_fn s v = Ok m /\ tensor_at g o m N) ->
  (exists l, evm_model viscosity_fn v = Ok l /\
    fields_at g v l (fun i ix => nsum (gndim g) (fun j =>
      (2 * wrapped g (N i j) ix * strain g v i j ix - 2 * wrapped g (N i j) (prev j ix) * strain g v i j (prev j ix)) / hstep g j))%R) /\
  (forall v', (exists u a, In u v' /\ (a < gndim (ggrid (garray u)))%nat /\ fst (btype (gbc u) a) <> Periodic) -> evm_model viscosity_fn v' = Err EValue).
Proof. exact (@evm_model_spec_lem). Qed.
Print Assumptions evm_model_spec.

(** C48. The eddy-viscosity acceleration adds no momentum: each component sums to zero over the periodic domain, for every velocity and every viscosity function. *)
Theorem evm_model_momentum : forall g o v N viscosity_fn, (0 < gndim g)%nat -> length o = gndim g -> periodic_vec g v -> face_aligned o v ->
  (forall s, tensor_at g o s (strain g v) -> exists m, viscosity_fn s v = Ok m /\ tensor_at g o m N) ->
  exists l, evm_model viscosity_fn v = Ok l /\ length l = gndim g /\ forall w, In w l -> total (gdata w) = 0%R.
Proof. exact (@evm_model_momentum_lem). Qed.
Print Assumptions evm_model_momentum.

(** C48. With a constant viscosity nu the acceleration is nu * (laplacian of v_i + d_i(div v)), so for a discretely divergence-free velocity it is exactly ordinary diffusion. *)
Theorem evm_constant_viscosity : forall g o v nu viscosity_fn, (0 < gndim g)%nat -> length o = gndim g -> periodic_vec g v -> face_aligned o v ->
  (forall s, tensor_at g o s (strain g v) -> exists m, viscosity_fn s v = Ok m /\ tensor_at g o m (fun _ _ _ => nu)) ->
  exists l dv, evm_model viscosity_fn v = Ok l /\ divergence v = Ok dv /\
    (forall i u w, nth_error v i = Some u -> nth_error l i = Some w -> exists lu, laplacian u = Ok lu /\
      is_field w g (goff (garray u)) (fun ix => nu * (get (gdata lu) ix + (pval dv (next i ix) - pval dv ix) / hstep g i))%R) /\
    (aeq (gdata dv) (afull (gshape g) 0%R) -> forall i u w, nth_error v i = Some u -> nth_error l i = Some w ->
       exists x, diffuse u nu = Ok x /\ aeq (gdata w) (gdata x)).
Proof. exact (@evm_constant_viscosity_lem). Qed.
Print Assumptions evm_constant_viscosity.

(** The hypotheses are met by a concrete case. *)
Example evm_model_spec_ex : (0 < gndim p34g)%nat /\ length half2 = gndim p34g /\ periodic_vec p34g p34v /\ face_aligned half2 p34v /\
  (forall s, tensor_at p34g half2 s (strain p34g p34v) -> exists m, const_visc s p34v = Ok m /\ tensor_at p34g half2 m (fun _ _ _ => 3%R)) /\
  strain p34g p34v 0 0 [0; 0] = (-1)%R /\ strain p34g p34v 1 1 [0; 1] = 6%R.
Proof. exact (@evm_model_spec_ex_lem). Qed.

(** The hypotheses are met by a concrete case. *)
Example evm_model_momentum_ex : (0 < gndim p34g)%nat /\ length half2 = gndim p34g /\ periodic_vec p34g p34v /\ face_aligned half2 p34v /\
  (forall s, tensor_at p34g half2 s (strain p34g p34v) -> exists m, const_visc s p34v = Ok m /\ tensor_at p34g half2 m (fun _ _ _ => 3%R)).
Proof. exact (@evm_model_momentum_ex_lem). Qed.

(** The hypotheses are met by a concrete case. *)
Example evm_constant_viscosity_ex : (0 < gndim p34g)%nat /\ length half2 = gndim p34g /\ periodic_vec p34g p34v /\ face_aligned half2 p34v /\
  (forall s, tensor_at p34g half2 s (strain p34g p34v) -> exists m, const_visc s p34v = Ok m /\ tensor_at p34g half2 m (fun _ _ _ => 3%R)).
Proof. exact (@evm_constant_viscosity_ex_lem). Qed.
