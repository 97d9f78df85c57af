(** Generated by tools/gen.py from CollocatedStepProps.v: property theorems only. *)
From Verif Require Import Prelude NdArr Grids_model Spec SpecCol Boundaries_model BoundariesPeriodic FD_model PRep FDProofs FDProps GridProps Pressure_model PressureProps Interp_model InterpProofs InterpProps Advection_model AdvectionProofs AdvectionProps ConvectProps Equations_model SpecNS EquationsProps EquationsMoreProps Collocated_model CollocatedProps ArrayUtilsProps.
From Verif Require Import CollocatedStepProps.
Local Open Scope Z_scope.
Set Implicit Arguments.

(** C50. The collocated time step with its default convection (van Leer) and diffusion, for every periodic collocated velocity (any dimension), viscosity (or none), dt, forcing that returns one field per component, and every pressure solver that solves the centred Poisson equation: it succeeds, keeps grid, offsets and boundary conditions, its result has zero centred divergence in every cell, and the total of each component changes by exactly dt times the total force divided by the density. *)
Theorem collocated_step : forall g o bs density viscosity dt solve forcing v, (0 < gndim g)%nat -> length o = gndim g ->
  collocated_velocity g o bs v -> (viscosity <> None -> density <> 0%R) -> solves_centred_poisson g o solve ->
  (forall f, forcing = Some f -> exists lf Fo, f v = Ok lf /\ fields_at g v lf Fo) ->
  exists v' d, col_navier_stokes density viscosity dt (default_convect dt) col_diffuse solve forcing v = Ok v' /\
    collocated_velocity g o bs v' /\ centered_divergence v' = Ok d /\ is_field d g o (fun _ => 0%R) /\
    forall i, (i < gndim g)%nat -> momentum v' i = (momentum v i + dt *
      match forcing with Some f => match f v with Ok lf => component_total lf i / density | Err _ => 0 end | None => 0 end)%R.
Proof. exact (@collocated_step_lem). Qed.
Print Assumptions collocated_step.

(** C50. If the pressure solver returns a field at other points than the velocity's, collocated projection raises InconsistentOffsetError instead of mixing points (every periodic collocated velocity, any dimension). *)
Theorem collocated_projection_misplaced : forall g o v solve q, (0 < gndim g)%nat -> length o = gndim g -> periodic_vec g v -> collocated o v ->
  (forall q0, periodic_field q0 -> ggrid (garray q0) = g -> solve v q0 = Ok q) -> wf_garr q -> ggrid q = g -> ~ off_eq (goff q) o ->
  col_projection solve v = Err EOffset.
Proof. exact (@collocated_projection_misplaced_lem). Qed.
Print Assumptions collocated_projection_misplaced.

(** C50. The collocated operators cannot see the chequerboard: on every periodic grid whose sizes are all even, diffusion of the field (-1)^(i+j+...) is zero everywhere for any viscosity, so diffusion never damps it (stated limitation of the centred stencil). *)
Theorem collocated_chequerboard_invisible : forall c nu, periodic_field c -> (0 < gndim (ggrid (garray c)))%nat ->
  (forall n, In n (gshape (ggrid (garray c))) -> Nat.even n = true) ->
  (forall ix, inb (gshape (ggrid (garray c))) ix -> get (gdata (garray c)) ix = if Z.even (fold_right Z.add 0 ix) then 1%R else (-1)%R) ->
  exists w, col_diffuse c nu = Ok w /\ is_field w (ggrid (garray c)) (goff (garray c)) (fun _ => 0%R).
Proof. exact (@collocated_chequerboard_invisible_lem). Qed.
Print Assumptions collocated_chequerboard_invisible.

(** The hypotheses are met by a concrete case. *)
Example collocated_step_ex :
  (0 < gndim c3g)%nat /\ length c3o = gndim c3g /\ collocated_velocity c3g c3o [periodic_bc 1] c3v /\ (Some 3%R <> None -> 2 <> 0)%R /\ solves_centred_poisson c3g c3o c3_solve /\
  momentum c3v 0 = 8%R.
Proof. exact (@collocated_step_ex_lem). Qed.

(** The hypotheses are met by a concrete case. *)
Example collocated_projection_misplaced_ex : let q := mkga (afull [3%nat] 1%R) [0%Q] c3g in
  (0 < gndim c3g)%nat /\ length c3o = gndim c3g /\ periodic_vec c3g c3v /\ collocated c3o c3v /\ wf_garr q /\ ggrid q = c3g /\ ~ off_eq (goff q) c3o.
Proof. exact (@collocated_projection_misplaced_ex_lem). Qed.

(** The hypotheses are met by a concrete case. *)
Example collocated_chequerboard_invisible_ex : let c := mkgv (mkga (mkarr [2%nat; 4%nat] (fun ix => if Z.even (fold_right Z.add 0 ix) then 1%R else (-1)%R)) half2 (mkgrid [2%nat; 4%nat] [1%R; 1%R] [(0%R, 2%R); (0%R, 4%R)])) (periodic_bc 2) in
  periodic_field c /\ (0 < gndim (ggrid (garray c)))%nat /\ (forall n, In n (gshape (ggrid (garray c))) -> Nat.even n = true) /\
  get (gdata (garray c)) [0; 1] <> get (gdata (garray c)) [0; 0].
Proof. exact (@collocated_chequerboard_invisible_ex_lem). Qed.
