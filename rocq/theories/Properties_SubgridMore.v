(** Generated by tools/gen.py from SubgridMoreProps.v: property theorems only. *)
From Verif Require Import Prelude NdArr Grids_model Spec Boundaries_model FD_model PRep FDProofs FDProps Pressure_model Interp_model InterpProofs InterpProps Advection_model AdvectionProps Diffusion_model PressureProps FastDiag_model PressureSolve_model PressureSolveProps QRProps TimeStep_model Equations_model SpecNS EquationsProps EquationsMoreProps Forcings_model ForcingsProps Subgrid_model SpecSub SubgridProps.
From Verif Require Import SubgridMoreProps.
Local Open Scope Z_scope.
Set Implicit Arguments.

(** C48. Eddy viscosity only dissipates: with a viscosity tensor symmetric in its two indices, the work done on the flow by the acceleration is exactly minus twice the sum over cells and index pairs of viscosity times squared strain rate, hence never positive where the viscosity is nonnegative. *)
Theorem evm_dissipation : forall g o v N viscosity_fn, (0 < gndim g)%nat -> length o = gndim g -> periodic_vec g v -> face_aligned o v ->
  (forall s, tensor_at g o s (strain g v) -> exists m, viscosity_fn s v = Ok m /\ tensor_at g o m N) ->
  (forall i j ix, (i < gndim g)%nat -> (j < gndim g)%nat -> inb (gshape g) ix -> N i j ix = N j i ix) ->
  exists l, evm_model viscosity_fn v = Ok l /\
    work g v l = (- 2 * nsum (gndim g) (fun i => nsum (gndim g) (fun j => asum (gshape g) (fun ix => N i j ix * strain g v i j ix ^ 2))))%R /\
    ((forall i j ix, (i < gndim g)%nat -> (j < gndim g)%nat -> inb (gshape g) ix -> (0 <= N i j ix)%R) -> (work g v l <= 0)%R).
Proof. exact (@evm_dissipation_lem). Qed.
Print Assumptions evm_dissipation.

(** C48. smagorinsky_viscosity with linear interpolation, on the strain rate of a staggered periodic velocity whose components have the same boundary conditions: succeeds and returns, at the place of each entry of the strain-rate tensor, (cs * delta)^2 * sqrt(2 S:S) interpolated linearly from the cell centres, where S is the strain rate interpolated linearly to the cell centres and delta the geometric mean of the cell widths; the values are nonnegative and the tensor is symmetric. *)
Theorem smagorinsky_viscosity_spec : forall g o cs v b s, (0 < gndim g)%nat -> length o = gndim g -> periodic_vec g v -> (forall u, In u v -> gbc u = b) ->
  tensor_at g o s (strain g v) ->
  (exists m, smagorinsky_viscosity linear_fn cs s v = Ok m /\ tensor_at g o m (eddy_viscosity g o cs v)) /\
  (forall i j ix, length ix = gndim g -> (0 <= eddy_viscosity g o cs v i j ix)%R) /\
  (forall i j ix, length ix = gndim g -> eddy_viscosity g o cs v i j ix = eddy_viscosity g o cs v j i ix).
Proof. exact (@smagorinsky_viscosity_spec_lem). Qed.
Print Assumptions smagorinsky_viscosity_spec.

(** C48. The Smagorinsky viscosity is only defined on periodic domains with one set of boundary conditions: a velocity with a component that is not periodic on some axis raises ValueError, and a periodic velocity whose components have different boundary conditions raises InconsistentBoundaryConditionsError, whatever the interpolation. *)
Theorem smagorinsky_rejects : forall interp cs s v,
  ((exists u a, In u v /\ (a < gndim (ggrid (garray u)))%nat /\ fst (btype (gbc u) a) <> Periodic) -> smagorinsky_viscosity interp cs s v = Err EValue) /\
  ((forall u a, In u v -> (a < gndim (ggrid (garray u)))%nat -> fst (btype (gbc u) a) = Periodic) -> (exists u w, In u v /\ In w v /\ gbc u <> gbc w) ->
     smagorinsky_viscosity interp cs s v = Err EBC).
Proof. exact (@smagorinsky_rejects_lem). Qed.
Print Assumptions smagorinsky_rejects.

(** C48. The Smagorinsky acceleration of any staggered periodic velocity (components with equal boundary conditions) exists, adds no momentum to any component, and takes energy out: its work on the flow is -2 * sum of viscosity * strain^2 <= 0. *)
Theorem smagorinsky_dissipates : forall g o cs v b, (0 < gndim g)%nat -> length o = gndim g -> periodic_vec g v -> face_aligned o v -> (forall u, In u v -> gbc u = b) ->
  exists l, evm_model (smagorinsky_viscosity linear_fn cs) v = Ok l /\ length l = gndim g /\ (forall w, In w l -> total (gdata w) = 0%R) /\
    work g v l = (- 2 * nsum (gndim g) (fun i => nsum (gndim g) (fun j => asum (gshape g) (fun ix => eddy_viscosity g o cs v i j ix * strain g v i j ix ^ 2))))%R /\
    (work g v l <= 0)%R.
Proof. exact (@smagorinsky_dissipates_lem). Qed.
Print Assumptions smagorinsky_dissipates.

(** C48. One step of explicit_smagorinsky_navier_stokes, for every explicit Runge-Kutta tableau, density, viscosity, Smagorinsky constant and time step and for every staggered periodic velocity with one set of boundary conditions: it succeeds; without other forcing it conserves the total of every velocity component, whatever fields the pressure solver returns; and if the pressure solver solves its Poisson equation the result has zero divergence in every cell, with or without other forcing. *)
Theorem explicit_smagorinsky_step : forall t g o b density viscosity dt cs solve forcing v,
  (0 < gndim g)%nat -> length o = gndim g -> explicit_tableau t -> (viscosity <> None -> density <> 0%R) -> pressure_solver g o solve ->
  periodic_velocity g o (repeat b (gndim g)) v ->
  (forall f w, forcing = Some f -> periodic_velocity g o (repeat b (gndim g)) w -> exists lf Fo, f w = Ok lf /\ fields_at g w lf Fo) ->
  (forcing = None -> exists v', explicit_smagorinsky_navier_stokes t density viscosity dt cs (default_convect dt) diffuse solve forcing v = Ok v' /\
     periodic_velocity g o (repeat b (gndim g)) v' /\ forall i, momentum v' i = momentum v i) /\
  (solves_poisson g o solve -> exists v' d, explicit_smagorinsky_navier_stokes t density viscosity dt cs (default_convect dt) diffuse solve forcing v = Ok v' /\
     periodic_velocity g o (repeat b (gndim g)) v' /\ divergence v' = Ok d /\ is_field d g o (fun _ => 0%R)).
Proof. exact (@explicit_smagorinsky_step_lem). Qed.
Print Assumptions explicit_smagorinsky_step.

(** C48. implicit_evm_solve_with_diffusion with the Smagorinsky model, for every viscosity >= 0 and time step >= 0: whenever the inner solver returns a solution v' of v' - dt * (acceleration(v') + viscosity * laplacian(v')) = v, the result keeps grid, offsets and boundary conditions, has the same total in every component, and its kinetic energy does not exceed that of v. *)
Theorem implicit_smagorinsky_solve : forall cg g o b cs nu dt v x y, (0 < gndim g)%nat -> length o = gndim g -> periodic_velocity g o (repeat b (gndim g)) v -> (0 <= nu)%R -> (0 <= dt)%R ->
  cg (evm_linear_op b nu dt (evm_model (smagorinsky_viscosity linear_fn cs))) (map garray v) = Ok x -> (exists X, fields_at g v x X) ->
  evm_linear_op b nu dt (evm_model (smagorinsky_viscosity linear_fn cs)) x = Ok y -> fields_at g v y (vval v) ->
  exists v', implicit_evm_solve_with_diffusion cg (evm_model (smagorinsky_viscosity linear_fn cs)) v nu dt = Ok v' /\
    periodic_velocity g o (repeat b (gndim g)) v' /\ (forall i, momentum v' i = momentum v i) /\
    (kinetic g (vval v') <= kinetic g (vval v))%R.
Proof. exact (@implicit_smagorinsky_solve_lem). Qed.
Print Assumptions implicit_smagorinsky_solve.

(** The hypotheses are met by a concrete case. *)
Example evm_dissipation_ex : (0 < gndim p34g)%nat /\ length half2 = gndim p34g /\ periodic_vec p34g p34v /\ face_aligned half2 p34v /\
  (forall s, tensor_at p34g half2 s (strain p34g p34v) -> exists m, const_visc s p34v = Ok m /\ tensor_at p34g half2 m (fun _ _ _ => 3%R)) /\
  (forall i j ix, (i < gndim p34g)%nat -> (j < gndim p34g)%nat -> inb (gshape p34g) ix -> (fun _ _ _ => 3%R) i j ix = (fun (_ _ : nat) (_ : list Z) => 3%R) j i ix) /\
  exists l, evm_model const_visc p34v = Ok l /\ (work p34g p34v l < 0)%R.
Proof. exact (@evm_dissipation_ex_lem). Qed.

(** The hypotheses are met by a concrete case. *)
Example smagorinsky_viscosity_spec_ex : exists s, (0 < gndim p34g)%nat /\ length half2 = gndim p34g /\ periodic_vec p34g p34v /\ (forall u, In u p34v -> gbc u = periodic_bc 2) /\
  tensor_at p34g half2 s (strain p34g p34v).
Proof. exact (@smagorinsky_viscosity_spec_ex_lem). Qed.

(** The hypotheses are met by a concrete case. *)
Example smagorinsky_rejects_ex :
  (exists u a, In u [ipc; wall_u] /\ (a < gndim (ggrid (garray u)))%nat /\ fst (btype (gbc u) a) <> Periodic) /\
  (forall u a, In u [ipc; other_u] -> (a < gndim (ggrid (garray u)))%nat -> fst (btype (gbc u) a) = Periodic) /\ (exists u w, In u [ipc; other_u] /\ In w [ipc; other_u] /\ gbc u <> gbc w).
Proof. exact (@smagorinsky_rejects_ex_lem). Qed.

(** The hypotheses are met by a concrete case. *)
Example smagorinsky_dissipates_ex : (0 < gndim p34g)%nat /\ length half2 = gndim p34g /\ periodic_vec p34g p34v /\ face_aligned half2 p34v /\ (forall u, In u p34v -> gbc u = periodic_bc 2) /\
  (0 < strain_size p34g half2 p34v [0%Z; 0%Z])%R.
Proof. exact (@smagorinsky_dissipates_ex_lem). Qed.

(** The hypotheses are met by a concrete case. *)
Example explicit_smagorinsky_step_ex : forall tpu eigh,
  (0 < gndim p34g)%nat /\ length half2 = gndim p34g /\ explicit_tableau (mktab [[1 / 2]; [0; 1 / 2]; [0; 0; 1]] [1 / 6; 1 / 3; 1 / 3; 1 / 6])%R /\
  solves_poisson p34g half2 (fun v _ b => pressure_solve_fast_diag tpu eigh (1 / 1000) v (Some b) (Some Fft)) /\
  pressure_solver p34g half2 (fun v _ b => pressure_solve_fast_diag tpu eigh (1 / 1000) v (Some b) (Some Fft)) /\
  periodic_velocity p34g half2 (repeat (periodic_bc 2) (gndim p34g)) p34v /\
  (forall f w, Some push = Some f -> periodic_velocity p34g half2 (repeat (periodic_bc 2) (gndim p34g)) w -> exists lf Fo, f w = Ok lf /\ fields_at p34g w lf Fo).
Proof. exact (@explicit_smagorinsky_step_ex_lem). Qed.

(** The hypotheses are met by a concrete case. *)
Example implicit_smagorinsky_solve_ex : exists cg v x y,
  (0 < gndim p34g)%nat /\ length half2 = gndim p34g /\ periodic_velocity p34g half2 (repeat (periodic_bc 2) (gndim p34g)) v /\ (0 <= 1)%R /\
  cg (evm_linear_op (periodic_bc 2) 1 1 (evm_model (smagorinsky_viscosity linear_fn 1))) (map garray v) = Ok x /\ (exists X, fields_at p34g v x X) /\
  evm_linear_op (periodic_bc 2) 1 1 (evm_model (smagorinsky_viscosity linear_fn 1)) x = Ok y /\ fields_at p34g v y (vval v) /\ x = map garray p34v.
Proof. exact (@implicit_smagorinsky_solve_ex_lem). Qed.
