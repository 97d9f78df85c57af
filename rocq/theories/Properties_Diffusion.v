(** Generated by tools/gen.py from DiffusionProps.v: property theorems only. *)
From Verif Require Import Prelude NdArr Grids_model Spec SpecLin SpecDiff LinAlg Boundaries_model FD_model PRep FDProofs FDProps WallBC WallBCProps ImposeProps WallFD Pressure_model PressureProps WallFDProps ProjectionProps Diffusion_model.
From Verif Require Import DiffusionProps.
Local Open Scope Z_scope.
Set Implicit Arguments.

(** C23. stable_time_step is infinite exactly when the viscosity is zero (whatever the grid); otherwise it is dx^2 / (viscosity * 2^ndim), dx being the smallest grid step. *)
Theorem stable_time_step_value : forall nu g,
  (stable_time_step nu g = Ok None <-> nu = 0%R) /\
  (nu <> 0%R -> wfg g -> (0 < gndim g)%nat -> exists a, (a < gndim g)%nat /\ (forall i, (i < gndim g)%nat -> (hstep g a <= hstep g i)%R) /\
     stable_time_step nu g = Ok (Some (hstep g a ^ 2 / (nu * 2 ^ gndim g))%R)).
Proof. exact (@stable_time_step_value_lem). Qed.
Print Assumptions stable_time_step_value.

(** The hypotheses are met by a concrete case. *)
Example stable_time_step_value_ex : wfg exg /\ (0 < gndim exg)%nat /\ (1 <> 0)%R.
Proof. exact (@stable_time_step_value_ex_lem). Qed.

(** C23. diffuse returns, at the offset of c, nu times the sum over axes of the second difference quotients, for every mix of periodic and walled axes. *)
Theorem diffuse_is_scaled_laplacian : forall c nu,
  wf_garr (garray c) -> (forall a, (a < gndim (ggrid (garray c)))%nat -> walled_axis (gbc c) (garray c) a) ->
  exists d, diffuse c nu = Ok d /\ is_field d (ggrid (garray c)) (goff (garray c))
    (fun ix => nu * nsum (gndim (ggrid (garray c))) (fun a => second_difference (gbc c) (garray c) a ix))%R.
Proof. exact (@diffuse_is_scaled_laplacian_lem). Qed.
Print Assumptions diffuse_is_scaled_laplacian.

(** The hypotheses are met by a concrete case. *)
Example diffuse_is_scaled_laplacian_ex :
  wf_garr exu /\ forall a, (a < gndim (ggrid exu))%nat -> walled_axis (exb Dirichlet Neumann) exu a.
Proof. exact (@diffuse_is_scaled_laplacian_ex_lem). Qed.

(** C23. Maximum principle: for 0 <= dt <= stable_time_step(nu, grid) with nu > 0 and positive grid steps, in every dimension, c + dt * diffuse(c, nu) stays within any bounds [m, M] that hold for c (and for the wall values, if any), when every axis is periodic, cell-centred with zero gradient, or edge-aligned between Dirichlet walls. *)
Theorem diffusion_maximum_principle : forall c nu dt dtmax m M,
  let g := ggrid (garray c) in
  wf_garr (garray c) -> (0 < gndim g)%nat -> (forall a, (a < gndim g)%nat -> (0 < hstep g a)%R) -> (0 < nu)%R ->
  (forall a, (a < gndim g)%nat -> insulated_axis (gbc c) (garray c) a \/ walls_between (gbc c) (garray c) a m M) ->
  (forall ix, inb (gshape g) ix -> (m <= get (gdata (garray c)) ix <= M)%R) ->
  stable_time_step nu g = Ok (Some dtmax) -> (0 <= dt <= dtmax)%R ->
  exists d, diffuse c nu = Ok d /\ forall ix, inb (gshape g) ix -> (m <= get (gdata (garray c)) ix + dt * get (gdata d) ix <= M)%R.
Proof. exact (@diffusion_maximum_principle_lem). Qed.
Print Assumptions diffusion_maximum_principle.

(** The hypotheses are met by a concrete case. *)
Example diffusion_maximum_principle_ex :
  wf_garr exu /\ (0 < gndim (ggrid exu))%nat /\ (forall a, (a < gndim (ggrid exu))%nat -> (0 < hstep (ggrid exu) a)%R) /\
  (forall a, (a < gndim (ggrid exu))%nat -> insulated_axis (homogeneous [(Periodic, Periodic); (Neumann, Neumann)]) exu a \/ walls_between (homogeneous [(Periodic, Periodic); (Neumann, Neumann)]) exu a 0 12) /\
  (forall ix, inb (gshape (ggrid exu)) ix -> (0 <= get (gdata exu) ix <= 12)%R) /\
  exists dtmax, stable_time_step 1 (ggrid exu) = Ok (Some dtmax) /\ (0 < dtmax)%R.
Proof. exact (@diffusion_maximum_principle_ex_lem). Qed.

(** C23. Conservation: with every axis periodic or cell-centred with zero gradient, the sum of diffuse(c, nu) over all cells is zero, so c + dt * diffuse(c, nu) has the same total as c, for every nu and dt. *)
Theorem diffusion_conserves_total : forall c nu,
  let g := ggrid (garray c) in
  wf_garr (garray c) -> (forall a, (a < gndim g)%nat -> insulated_axis (gbc c) (garray c) a) ->
  exists d, diffuse c nu = Ok d /\ total (gdata d) = 0%R /\
    forall dt, asum (gshape g) (fun ix => get (gdata (garray c)) ix + dt * get (gdata d) ix)%R = total (gdata (garray c)).
Proof. exact (@diffusion_conserves_total_lem). Qed.
Print Assumptions diffusion_conserves_total.

(** The hypotheses are met by a concrete case. *)
Example diffusion_conserves_total_ex :
  wf_garr exu /\ forall a, (a < gndim (ggrid exu))%nat -> insulated_axis (homogeneous [(Periodic, Periodic); (Neumann, Neumann)]) exu a.
Proof. exact (@diffusion_conserves_total_ex_lem). Qed.

(** C23. With a cell-centred Dirichlet wall the maximum principle fails at the stable time step: on any 1-d grid with h > 0 and nu > 0, the data (1, 0, 0) between walls of value 0 turns negative in the first cell. *)
Theorem diffusion_maximum_principle_dirichlet_refuted : forall h nu, (0 < h)%R -> (0 < nu)%R ->
  let g := mkgrid [3%nat] [h] [(0, 3 * h)%R] in
  let c := mkgv (mkga (mkarr [3%nat] (fun ix => if nth 0 ix 0 =? 0 then 1%R else 0%R)) [(1 # 2)%Q] g) (homogeneous [(Dirichlet, Dirichlet)]) in
  exists dtmax d, stable_time_step nu g = Ok (Some dtmax) /\ diffuse c nu = Ok d /\
    (get (gdata (garray c)) [0%Z] + dtmax * get (gdata d) [0%Z] = - 1 / 2)%R.
Proof. exact (@diffusion_maximum_principle_dirichlet_refuted_lem). Qed.
Print Assumptions diffusion_maximum_principle_dirichlet_refuted.
